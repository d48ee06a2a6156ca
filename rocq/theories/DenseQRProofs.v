(** Householder factorization and least squares in exact arithmetic. *)
From Coq Require Import Reals Lra Psatz.
From Verif Require Import Base Num Vec DenseQR DenseQRSpec SparseCholProofs.
Local Open Scope R_scope.

Lemma loop_sum_R n : forall lo f s, @loop_sum R _ n lo f s = s + sumn n (fun k => f (lo + k)%nat).
Proof.
  induction n as [|n IH]; intros lo f s; cbn [loop_sum].
  - rewrite sumn_0. lra.
  - rewrite IH. change (nadd s (f lo)) with (s + f lo).
    replace (sumn (S n) (fun k => f (lo + k)%nat)) with (f lo + sumn n (fun k => f (S lo + k)%nat)); [lra|].
    clear. induction n as [|n IH].
    + rewrite sumn_S, !sumn_0, Nat.add_0_r. lra.
    + rewrite sumn_S, <- Rplus_assoc, IH, (sumn_S (S n)). f_equal. f_equal. lia.
Qed.

(** The sum from k to nrow is the full sum of the function cut below k. *)
Definition cut (k : nat) (f : nat -> R) (i : nat) : R := if Nat.leb k i then f i else 0.
Lemma range_sum_R k n f : (k <= n)%nat -> @range_sum R _ k n f = sumn n (cut k f).
Proof.
  intros Hk. unfold range_sum. rewrite loop_sum_R. change (@n0 R _) with 0. rewrite Rplus_0_l.
  replace n with (k + (n - k))%nat at 2 by lia. generalize (n - k)%nat as m. clear. induction m as [|m IH].
  - rewrite sumn_0, Nat.add_0_r. rewrite (@sumn_ext k _ (fun _ => 0)); [now rewrite sumn_zero|].
    intros i Hi. unfold cut. destruct (Nat.leb k i) eqn:E; [lia|auto].
  - rewrite Nat.add_succ_r, !sumn_S, IH. f_equal. unfold cut. destruct (Nat.leb k (k + m)) eqn:E; [auto|lia].
Qed.
Lemma down_sum_R n : forall hi f s, (n <= hi + 1)%nat ->
  @down_sum R _ n hi f s = s + sumn n (fun k => f (hi + 1 - n + k)%nat).
Proof.
  induction n as [|n IH]; intros hi f s Hn; cbn [down_sum].
  - rewrite sumn_0. lra.
  - rewrite sumn_S. replace (hi + 1 - S n + n)%nat with hi by lia. change (nadd s (f hi)) with (s + f hi).
    destruct n as [|n].
    + cbn [down_sum]. rewrite sumn_0. lra.
    + rewrite IH by lia. rewrite (@sumn_ext (S n) (fun k => f (hi + 1 - S (S n) + k)%nat) (fun k => f (hi - 1 + 1 - S n + k)%nat)).
      * lra.
      * intros k _. f_equal. lia.
Qed.

(** An upper triangular system with nonzero diagonal has a solution. *)
Lemma triangular_solution (T : nat -> nat -> R) : forall k (rhs : nat -> R),
  (forall i, (i < k)%nat -> T i i <> 0) -> (forall i j, (j < i)%nat -> (i < k)%nat -> T i j = 0) ->
  exists c, forall i, (i < k)%nat -> sumn k (fun j => T i j * c j) = rhs i.
Proof.
  induction k as [|k IH]; intros rhs D U.
  - exists (fun _ => 0). intros; lia.
  - destruct (IH (fun i => rhs i - T i k * (rhs k / T k k))) as [c Hc].
    + intros; apply D; lia.
    + intros; apply U; lia.
    + exists (fun j => if Nat.eqb j k then rhs k / T k k else c j). intros i Hi. rewrite sumn_S, Nat.eqb_refl.
      rewrite (@sumn_ext k _ (fun j => T i j * c j)).
      2:{ intros j Hj. destruct (Nat.eqb j k) eqn:E; [lia|auto]. }
      destruct (Nat.eq_dec i k) as [->|Hne].
      * rewrite (@sumn_ext k _ (fun _ => 0)). 2:{ intros j Hj. rewrite U by lia. lra. }
        rewrite sumn_zero. field. apply D. lia.
      * rewrite Hc by lia. lra.
Qed.

Section Refl.
  Variables (nrow k : nat) (Rm : nat -> nat -> R).
  Hypothesis Hk : (k < nrow)%nat.
  Let u := cut k (fun i => Rm i k).
  Hypothesis nz : 0 < norm nrow u.
  Let a := norm nrow u.
  Let alpha := if Rltb 0 (Rm k k) then - a else a.
  Let x1 := fun i => u i - (if Nat.eqb i k then alpha else 0).

  Lemma cut_sq f g : sumn nrow (cut k (fun i => f i * g i)) = sumn nrow (fun i => cut k f i * g i).
  Proof. apply sumn_ext. intros i _. unfold cut. destruct (Nat.leb k i); lra. Qed.

  Lemma dot_ek f c : sumn nrow (fun i => f i * (if Nat.eqb i k then c else 0)) = f k * c.
  Proof.
    rewrite (@sumn_ext nrow _ (fun i => if Nat.eqb k (0 + i) then f k * c else 0)).
    - rewrite SparseDotProofs.sumn_single. destruct (Nat.leb 0 k && Nat.ltb k (0 + nrow)) eqn:E; [auto|lia].
    - intros i _. simpl. rewrite (Nat.eqb_sym k i). destruct (Nat.eqb i k) eqn:E; [apply Nat.eqb_eq in E; subst; lra|lra].
  Qed.

  Lemma hh_dots : let s := a * a - alpha * u k in
    dot nrow x1 x1 = 2 * s /\ dot nrow x1 u = s /\ 0 < s /\ alpha * alpha = a * a.
  Proof.
    assert (AA : alpha * alpha = a * a) by (unfold alpha; destruct (Rltb 0 (Rm k k)); lra).
    assert (UU : dot nrow u u = a * a) by (unfold a; now rewrite norm_sq).
    assert (UK : u k = Rm k k) by (unfold u, cut; now rewrite Nat.leb_refl).
    assert (E1 : dot nrow x1 u = a * a - alpha * u k).
    { unfold x1. rewrite dot_minus_l, UU. f_equal. rewrite dot_comm. unfold dot. rewrite dot_ek. lra. }
    assert (E2 : dot nrow x1 x1 = 2 * (a * a - alpha * u k)).
    { unfold x1 at 2. rewrite dot_minus_r, E1. unfold dot at 1. rewrite dot_ek. unfold x1. rewrite Nat.eqb_refl. nra. }
    cbv zeta. split; auto. split; auto. split; auto. rewrite UK. fold a in nz.
    unfold alpha, Rltb. destruct (Rlt_dec 0 (Rm k k)); nra.
  Qed.

  Let v := cut k (hh_vector nrow k Rm).
  Lemma hh_v i : v i = x1 i / norm nrow x1.
  Proof.
    unfold v, cut, hh_vector.
    assert (Ea : nsqrt (range_sum k nrow (fun i => nmul (Rm i k) (Rm i k))) = a).
    { rewrite range_sum_R by lia. unfold a, norm. change (nsqrt ?q) with (sqrt q). f_equal.
      change nmul with Rmult. unfold dot, u, cut. apply sumn_ext. intros j _. destruct (Nat.leb k j); lra. }
    rewrite Ea. change (nltb n0 (Rm k k)) with (Rltb 0 (Rm k k)). change (nopp a) with (- a). fold alpha.
    assert (En : nsqrt (range_sum k nrow (fun i => nmul (if Nat.eqb i k then nsub (Rm k k) alpha else Rm i k) (if Nat.eqb i k then nsub (Rm k k) alpha else Rm i k))) = norm nrow x1).
    { rewrite range_sum_R by lia. unfold norm. change (nsqrt ?q) with (sqrt q). f_equal. change nmul with Rmult. change nsub with Rminus.
      unfold dot, x1, u, cut. apply sumn_ext. intros j _. destruct (Nat.leb k j) eqn:E.
      - destruct (Nat.eqb j k) eqn:E2; [apply Nat.eqb_eq in E2; subst; lra|lra].
      - destruct (Nat.eqb j k) eqn:E2; [lia|lra]. }
    rewrite En. unfold x1, u, cut. change ndiv with Rdiv. change nsub with Rminus. destruct (Nat.leb k i) eqn:E.
    - destruct (Nat.eqb i k) eqn:E2; [apply Nat.eqb_eq in E2; subst; auto|]. unfold Rdiv. f_equal. lra.
    - destruct (Nat.eqb i k) eqn:E2; [lia|]. unfold Rdiv. lra.
  Qed.
  Lemma hh_unit : dot nrow v v = 1.
  Proof.
    destruct hh_dots as (E1 & _ & P & _).
    rewrite (@dot_ext nrow v (fun i => / norm nrow x1 * x1 i) v (fun i => / norm nrow x1 * x1 i)).
    2,3: intros i _; rewrite hh_v; unfold Rdiv; lra.
    rewrite dot_scal_l, dot_scal_r, <- norm_sq. field.
    intros Z. rewrite <- norm_sq, Z in E1. lra.
  Qed.
  (** The reflection sends the column to alpha e_k. *)
  Lemma hh_column i : u i - 2 * v i * dot nrow v u = if Nat.eqb i k then alpha else 0.
  Proof.
    destruct hh_dots as (E1 & E2 & P & _).
    assert (NN : norm nrow x1 * norm nrow x1 = 2 * (a * a - alpha * u k)) by now rewrite norm_sq.
    assert (Nz : norm nrow x1 <> 0) by (intros Z; rewrite Z in NN; lra).
    assert (ED : dot nrow v u = (a * a - alpha * u k) / norm nrow x1).
    { rewrite (@dot_ext nrow v (fun i => / norm nrow x1 * x1 i) u u); auto.
      - rewrite dot_scal_l, E2. unfold Rdiv. lra.
      - intros j _. rewrite hh_v. unfold Rdiv. lra. }
    rewrite ED, hh_v.
    replace (2 * (x1 i / norm nrow x1) * ((a * a - alpha * u k) / norm nrow x1)) with (x1 i).
    - unfold x1. lra.
    - transitivity (x1 i * ((norm nrow x1 * norm nrow x1) / (norm nrow x1 * norm nrow x1))); [field; auto|].
      rewrite NN at 1. field. auto.
  Qed.
End Refl.

(** Columns of M are orthonormal. *)
Definition orthonormal (n : nat) (M : nat -> nat -> R) : Prop :=
  forall j l, (j < n)%nat -> (l < n)%nat -> sumn n (fun i => M i j * M i l) = if Nat.eqb j l then 1 else 0.

Lemma orthonormal_norm n M w : orthonormal n M -> norm n (fun i => sumn n (fun j => M i j * w j)) = norm n w.
Proof.
  intros O. unfold norm. f_equal. unfold dot.
  rewrite (@sumn_ext n _ (fun i => sumn n (fun j => sumn n (fun l => (M i j * M i l) * (w j * w l))))).
  2:{ intros i _. rewrite <- (sumn_scal n (sumn n (fun l => M i l * w l))). apply sumn_ext. intros j _.
      rewrite Rmult_comm, <- sumn_scal. apply sumn_ext. intros l _. lra. }
  rewrite sumn_swap. apply sumn_ext. intros j Hj. rewrite sumn_swap.
  rewrite (@sumn_ext n _ (fun l => if Nat.eqb j (0 + l) then w j * w j else 0)).
  - rewrite SparseDotProofs.sumn_single. destruct (Nat.leb 0 j && Nat.ltb j (0 + n)) eqn:E; [auto|lia].
  - intros l Hl. rewrite (@sumn_ext n _ (fun i => (w j * w l) * (M i j * M i l))) by (intros; lra).
    rewrite sumn_scal, O by auto. simpl. destruct (Nat.eqb j l) eqn:E; [apply Nat.eqb_eq in E; subst; lra|lra].
Qed.

Lemma reflect_orthonormal n v M : dot n v v = 1 -> orthonormal n M ->
  orthonormal n (fun i j => M i j - 2 * v i * dot n v (fun i => M i j)).
Proof.
  intros V O j l Hj Hl. rewrite <- (O j l Hj Hl).
  set (p := dot n v (fun i => M i j)). set (q := dot n v (fun i => M i l)).
  rewrite (@sumn_ext n _ (fun i => (M i j * M i l - 2 * q * (v i * M i j)) - (2 * p * (v i * M i l) - 4 * p * q * (v i * v i)))) by (intros; lra).
  rewrite !sumn_minus, !sumn_scal. fold (dot n v v). fold (dot n v (fun i => M i j)). fold (dot n v (fun i => M i l)).
  fold p q. rewrite V. lra.
Qed.

Record hh_inv (nrow ncol : nat) (A : nat -> nat -> R) (k : nat) (Q Rm : nat -> nat -> R) : Prop := {
  hi_orth : orthonormal nrow Q;
  hi_prod : forall i j, (i < nrow)%nat -> (j < ncol)%nat -> sumn nrow (fun m => Q i m * A m j) = Rm i j;
  hi_upper : forall i j, (j < k)%nat -> (j < i)%nat -> (i < nrow)%nat -> Rm i j = 0;
  hi_diag : forall j, (j < k)%nat -> 1 / 10 ^ 10 < Rabs (Rm j j)
}.

Lemma hi_image nrow ncol A k Q Rm : hh_inv nrow ncol A k Q Rm -> forall m c i, (m <= ncol)%nat -> (i < nrow)%nat ->
  sumn nrow (fun r => Q i r * sumn m (fun j => A r j * c j)) = sumn m (fun j => Rm i j * c j).
Proof.
  intros [_ P _ _] m c i Hm Hi.
  rewrite (@sumn_ext nrow _ (fun r => sumn m (fun j => (Q i r * A r j) * c j))).
  2:{ intros r _. rewrite <- sumn_scal. apply sumn_ext. intros; lra. }
  rewrite sumn_swap. apply sumn_ext. intros j Hj.
  rewrite (@sumn_ext nrow _ (fun r => c j * (Q i r * A r j))) by (intros; lra).
  rewrite sumn_scal, P by lia. lra.
Qed.

Lemma subcolumn_long nrow ncol A k Q Rm : (ncol <= nrow)%nat -> (k < ncol)%nat -> separated nrow ncol (1 / 10 ^ 10) A ->
  hh_inv nrow ncol A k Q Rm -> 1 / 10 ^ 10 < norm nrow (cut k (fun i => Rm i k)).
Proof.
  intros Hn Hk SEP INV. pose proof INV as [O P U D].
  destruct (@triangular_solution Rm k (fun i => - Rm i k)) as [c0 Hc0].
  { intros i Hi Z. specialize (D i Hi). rewrite Z, Rabs_R0 in D. lra. }
  { intros i j Hj Hi. apply U; lia. }
  set (c := fun j => if Nat.eqb j k then 1 else c0 j).
  specialize (SEP k Hk c). unfold c at 1 in SEP. rewrite Nat.eqb_refl in SEP. specialize (SEP eq_refl).
  rewrite <- (orthonormal_norm _ O) in SEP.
  eapply Rlt_le_trans; [exact SEP|]. right. unfold norm. f_equal.
  apply dot_ext; intros i Hi; rewrite (hi_image INV) by lia; unfold c; rewrite sumn_S, Nat.eqb_refl;
    (rewrite (@sumn_ext k _ (fun j => Rm i j * c0 j)); [|intros j Hj; destruct (Nat.eqb j k) eqn:E; [lia|auto]]);
    unfold cut; destruct (Nat.leb k i) eqn:E.
  1,3: rewrite (@sumn_ext k _ (fun _ => 0)); [rewrite sumn_zero; lra|intros j Hj; rewrite U by lia; lra].
  all: rewrite Hc0 by lia; lra.
Qed.

Lemma hh_step_inv nrow ncol A k Q Rm : (ncol <= nrow)%nat -> (k < ncol)%nat -> separated nrow ncol (1 / 10 ^ 10) A ->
  hh_inv nrow ncol A k Q Rm ->
  hh_inv nrow ncol A (S k) (fst (hh_step nrow ncol k (Q, Rm))) (snd (hh_step nrow ncol k (Q, Rm))).
Proof.
  intros Hn Hk SEP INV. pose proof (subcolumn_long Hn Hk SEP INV) as LONG.
  set (u := cut k (fun i => Rm i k)) in *.
  assert (NZ : 0 < norm nrow u) by lra.
  assert (Hkn : (k < nrow)%nat) by lia.
  pose proof (@hh_unit nrow k Rm Hkn NZ) as UNIT. pose proof (@hh_column nrow k Rm Hkn NZ) as COL.
  set (v := cut k (hh_vector nrow k Rm)) in *.
  destruct INV as [O P U D]. cbn [hh_step fst snd].
  (* both updates are the reflection *)
  assert (EQ : forall i j, (if Nat.leb k i then nadd (Q i j) (nmul (nmul (nopp n2) (hh_vector nrow k Rm i)) (range_sum k nrow (fun m => nmul (hh_vector nrow k Rm m) (Q m j)))) else Q i j)
     = Q i j - 2 * v i * dot nrow v (fun m => Q m j)).
  { intros i j. rewrite range_sum_R by lia. change nmul with Rmult. rewrite cut_sq.
    change nadd with Rplus. change (nopp n2) with (-2). unfold dot. fold v. unfold v at 2, cut. destruct (Nat.leb k i); lra. }
  assert (ER : forall i j, (i < nrow)%nat -> (j < ncol)%nat ->
     (if Nat.leb k i && Nat.leb k j then nsub (Rm i j) (nmul (nmul n2 (hh_vector nrow k Rm i)) (range_sum k nrow (fun m => nmul (hh_vector nrow k Rm m) (Rm m j)))) else Rm i j)
     = Rm i j - 2 * v i * dot nrow v (fun m => Rm m j)).
  { intros i j Hi Hj. rewrite range_sum_R by lia. change nmul with Rmult. rewrite cut_sq.
    change nsub with Rminus. change n2 with 2. unfold dot. fold v.
    destruct (Nat.leb k j) eqn:E.
    - rewrite andb_true_r. unfold v at 2, cut. destruct (Nat.leb k i); lra.
    - rewrite andb_false_r.
      rewrite (@sumn_ext nrow _ (fun _ => 0)); [rewrite sumn_zero; lra|].
      intros m Hm. unfold v, cut. destruct (Nat.leb k m) eqn:E2; [|lra]. rewrite U by lia. lra. }
  constructor.
  - intros j l Hj Hl. rewrite <- (@reflect_orthonormal nrow v Q UNIT O j l Hj Hl).
    apply sumn_ext. intros i _. rewrite !EQ. reflexivity.
  - intros i j Hi Hj. rewrite ER by auto. rewrite <- (P i j Hi Hj).
    rewrite (@sumn_ext nrow _ (fun m => Q i m * A m j - (2 * v i) * (dot nrow v (fun r => Q r m) * A m j))).
    2:{ intros m _. rewrite EQ. lra. }
    rewrite sumn_minus, sumn_scal. f_equal. f_equal. unfold dot.
    rewrite (@sumn_ext nrow _ (fun m => sumn nrow (fun r => v r * (Q r m * A m j)))).
    2:{ intros m _. rewrite Rmult_comm, <- sumn_scal. apply sumn_ext. intros; lra. }
    rewrite sumn_swap. apply sumn_ext. intros r Hr. rewrite sumn_scal, P by auto. reflexivity.
  - intros i j Hj Hji Hi. rewrite ER by lia. destruct (Nat.eq_dec j k) as [->|Hne].
    + specialize (COL i). destruct (Nat.eqb i k) eqn:E; [lia|].
      assert (Du : dot nrow v (fun m => Rm m k) = dot nrow v u).
      { unfold dot. apply sumn_ext. intros m _. unfold v, u, cut. destruct (Nat.leb k m); lra. }
      rewrite Du. rewrite <- COL. f_equal. unfold u, cut. destruct (Nat.leb k i) eqn:E2; [auto|lia].
    + rewrite U by lia.
      replace (dot nrow v (fun m => Rm m j)) with 0; [lra|]. symmetry. unfold dot.
      rewrite (@sumn_ext nrow _ (fun _ => 0)); [apply sumn_zero|].
      intros m Hm. unfold v, cut. destruct (Nat.leb k m) eqn:E2; [|lra]. rewrite U by lia. lra.
  - intros j Hj. rewrite ER by lia. destruct (Nat.eq_dec j k) as [->|Hne].
    + assert (Du : dot nrow v (fun m => Rm m k) = dot nrow v u).
      { unfold dot. apply sumn_ext. intros m _. unfold v, u, cut. destruct (Nat.leb k m); lra. }
      rewrite Du. specialize (COL k). rewrite Nat.eqb_refl in COL.
      fold u in COL. assert (UK : u k = Rm k k) by (unfold u, cut; now rewrite Nat.leb_refl).
      rewrite UK in COL. rewrite COL.
      destruct (Rltb 0 (Rm k k)); rewrite ?Rabs_Ropp; rewrite Rabs_pos_eq; auto; lra.
    + unfold v at 1, cut. destruct (Nat.leb k j) eqn:E2; [lia|]. replace (Rm j j - _) with (Rm j j) by lra. apply D. lia.
Qed.

Lemma hh_loop_inv nrow ncol A : (ncol <= nrow)%nat -> separated nrow ncol (1 / 10 ^ 10) A ->
  forall n k Q Rm, (k + n = ncol)%nat -> hh_inv nrow ncol A k Q Rm ->
  hh_inv nrow ncol A ncol (fst (hh_loop n k nrow ncol (Q, Rm))) (snd (hh_loop n k nrow ncol (Q, Rm))).
Proof.
  intros Hn SEP. induction n as [|n IH]; intros k Q Rm Hk INV.
  - assert (k = ncol) by lia. subst k. exact INV.
  - cbn [hh_loop].
    pose proof (@hh_step_inv nrow ncol A k Q Rm Hn ltac:(lia) SEP INV) as I1.
    destruct (hh_step nrow ncol k (Q, Rm)) as [Q1 R1]. cbn [fst snd] in I1. apply IH; [lia|exact I1].
Qed.

Lemma hh_start nrow ncol A : hh_inv nrow ncol A 0 (fun i j => if Nat.eqb i j then 1 else 0) A.
Proof.
  assert (G : forall f i, (i < nrow)%nat -> sumn nrow (fun m => (if Nat.eqb i m then 1 else 0) * f m) = f i).
  { intros f i Hi. rewrite (@sumn_ext nrow _ (fun m => if Nat.eqb i (0 + m) then f i else 0)).
    - rewrite SparseDotProofs.sumn_single. destruct (Nat.leb 0 i && Nat.ltb i (0 + nrow)) eqn:E; [auto|lia].
    - intros m _. simpl. destruct (Nat.eqb i m) eqn:E; [apply Nat.eqb_eq in E; subst; lra|lra]. }
  constructor; try (intros; lia).
  - intros j l Hj Hl. rewrite (@sumn_ext nrow _ (fun i => (if Nat.eqb j i then 1 else 0) * (if Nat.eqb i l then 1 else 0))).
    + now rewrite (G (fun i => if Nat.eqb i l then 1 else 0) j Hj).
    + intros i _. now rewrite (Nat.eqb_sym i j).
  - intros i j Hi Hj. now rewrite (G (fun m => A m j) i Hi).
Qed.

(** What householder returns. *)
Theorem householder_ok nrow ncol A : (ncol <= nrow)%nat -> separated nrow ncol (1 / 10 ^ 10) A ->
  exists Q Rm, @householder R _ nrow ncol A = Ok (Q, Rm) /\ hh_inv nrow ncol A ncol (fun i j => Q j i) Rm.
Proof.
  intros Hn SEP. unfold householder. destruct (Nat.ltb nrow ncol) eqn:E; [lia|].
  pose proof (@hh_loop_inv nrow ncol A Hn SEP ncol 0 _ _ eq_refl (@hh_start nrow ncol A)) as I1.
  change (@n1 R _) with 1. change (@n0 R _) with 0.
  destruct (hh_loop ncol 0 nrow ncol (fun i j => if Nat.eqb i j then 1 else 0, A)) as [Q1 R1] eqn:EH. cbn [fst snd] in I1.
  match goal with |- context [hh_loop ?a ?b ?c ?d ?e] => assert (G : hh_loop a b c d e = (Q1, R1)) by exact EH; rewrite G end.
  exists (fun i j => Q1 j i), R1. split; [reflexivity|]. exact I1.
Qed.

Lemma back_solve_ok ncol (Rm : nat -> nat -> R) bmod : (forall j, (j < ncol)%nat -> 1 / 10 ^ 10 < Rabs (Rm j j)) ->
  forall n x, (n <= ncol)%nat ->
  (forall k, (n <= k < ncol)%nat -> sumn (ncol - 1 - k) (fun j => Rm k (k + 1 + j)%nat * x (k + 1 + j)%nat) + Rm k k * x k = bmod k) ->
  let z := back_solve n ncol Rm bmod x in
  (forall k, (k < ncol)%nat -> sumn (ncol - 1 - k) (fun j => Rm k (k + 1 + j)%nat * z (k + 1 + j)%nat) + Rm k k * z k = bmod k).
Proof.
  intros D. induction n as [|n IH]; intros x Hn Hx; cbn [back_solve].
  - intros k Hk. apply Hx. lia.
  - apply IH; [lia|]. intros k Hk.
    assert (Dn : 1 / 10 ^ 10 < Rabs (Rm n n)) by (apply D; lia).
    destruct (Nat.eqb k n) eqn:E.
    + apply Nat.eqb_eq in E. subst k.
      rewrite (@sumn_ext _ _ (fun j => Rm n (n + 1 + j)%nat * x (n + 1 + j)%nat)).
      2:{ intros j Hj. destruct (Nat.eqb (n + 1 + j) n) eqn:E; [lia|auto]. }
      rewrite SparseDotProofs.nlit10. change (nltb (1 / 10 ^ 10) (nabs (Rm n n))) with (Rltb (1 / 10 ^ 10) (Rabs (Rm n n))).
      unfold Rltb. destruct (Rlt_dec (1 / 10 ^ 10) (Rabs (Rm n n))) as [_|C]; [|lra].
      rewrite down_sum_R by lia. change (@n0 R _) with 0. change nmul with Rmult. change nsub with Rminus. change ndiv with Rdiv.
      rewrite (@sumn_ext _ (fun k => Rm n (ncol - 1 + 1 - (ncol - 1 - n) + k)%nat * x (ncol - 1 + 1 - (ncol - 1 - n) + k)%nat)
                (fun j => Rm n (n + 1 + j)%nat * x (n + 1 + j)%nat)).
      2:{ intros j _. replace (ncol - 1 + 1 - (ncol - 1 - n) + j)%nat with (n + 1 + j)%nat by lia. auto. }
      field. intros Z. rewrite Z, Rabs_R0 in Dn. lra.
    + apply Nat.eqb_neq in E. rewrite (@sumn_ext _ _ (fun j => Rm k (k + 1 + j)%nat * x (k + 1 + j)%nat)).
      * apply Hx. lia.
      * intros j Hj. destruct (Nat.eqb (k + 1 + j) n) eqn:E2; [lia|auto].
Qed.

Lemma sumn_split n m f : sumn (n + m) f = sumn n f + sumn m (fun k => f (n + k)%nat).
Proof. induction m as [|m IH]; rewrite ?Nat.add_0_r, ?Nat.add_succ_r, ?sumn_S, ?sumn_0; [lra|]. rewrite IH. lra. Qed.

Theorem ls_qr_ok nrow ncol A b x : (0 < ncol <= nrow)%nat -> separated nrow ncol (1 / 10 ^ 10) A ->
  exists z, @ls_qr R _ nrow ncol A b x = Ok z /\
    (forall w, residual nrow ncol A b z <= residual nrow ncol A b w) /\
    (nrow = ncol -> forall i, (i < nrow)%nat -> apply ncol A z i = b i).
Proof.
  intros Hn SEP. unfold ls_qr. destruct (Nat.eqb ncol 0) eqn:E0; [lia|].
  destruct (@householder_ok nrow ncol A ltac:(lia) SEP) as (Q & Rm & E & INV). rewrite E. cbn [bind].
  set (bmod := fun r => range_sum 0 nrow (fun c => nmul (Q c r) (b c))).
  pose proof INV as [O P U D].
  pose proof (@back_solve_ok ncol Rm bmod D ncol x (Nat.le_refl _) ltac:(intros; lia)) as BS. cbv zeta in BS.
  set (z := back_solve ncol ncol Rm bmod x) in *.
  assert (EB : forall r, bmod r = sumn nrow (fun c => Q c r * b c)).
  { intros r. unfold bmod. rewrite range_sum_R by lia. apply sumn_ext. intros c _. reflexivity. }
  assert (ROW : forall i w, (i < ncol)%nat -> sumn ncol (fun j => Rm i j * w j) = sumn (ncol - 1 - i) (fun j => Rm i (i + 1 + j)%nat * w (i + 1 + j)%nat) + Rm i i * w i).
  { intros i w Hi. replace ncol with (i + 1 + (ncol - 1 - i))%nat at 1 by lia. rewrite sumn_split.
    rewrite Nat.add_1_r at 1. rewrite sumn_S. rewrite (@sumn_ext i _ (fun _ => 0)). 2:{ intros j Hj. rewrite U by lia. lra. }
    rewrite sumn_zero. lra. }
  assert (ROW0 : forall i w, (ncol <= i < nrow)%nat -> sumn ncol (fun j => Rm i j * w j) = 0).
  { intros i w Hi. rewrite (@sumn_ext ncol _ (fun _ => 0)); [apply sumn_zero|]. intros j Hj. rewrite U by lia. lra. }
  assert (RES : forall w, residual nrow ncol A b w = norm nrow (fun i => sumn ncol (fun j => Rm i j * w j) - bmod i)).
  { intros w. unfold residual. rewrite <- (orthonormal_norm _ O). unfold norm. f_equal.
    apply dot_ext; intros i Hi; rewrite EB, <- (hi_image INV) by lia; rewrite <- sumn_minus; apply sumn_ext; intros; unfold apply; lra. }
  exists z. split; [reflexivity|]. split.
  - intros w. rewrite !RES. unfold norm. apply sqrt_le_1_alt. unfold dot. apply sumn_le. intros i Hi.
    destruct (lt_dec i ncol) as [L|L].
    + rewrite (ROW i z L), (BS i L). replace (bmod i - bmod i) with 0 by lra. rewrite Rmult_0_l. apply Rle_0_sqr.
    + rewrite !ROW0 by lia. lra.
  - intros -> i Hi.
    assert (Z : residual ncol ncol A b z = 0).
    { rewrite RES. unfold norm. rewrite (@dot_ext ncol _ (fun _ => 0) _ (fun _ => 0)).
      - unfold dot. rewrite (@sumn_ext ncol _ (fun _ => 0)) by (intros; lra). rewrite sumn_zero. apply sqrt_0.
      - intros j Hj. rewrite (ROW j z Hj), (BS j Hj). lra.
      - intros j Hj. rewrite (ROW j z Hj), (BS j Hj). lra. }
    pose proof (@coord_le_norm ncol (fun i => apply ncol A z i - b i) i Hi) as C. fold (residual ncol ncol A b z) in C.
    rewrite Z in C. pose proof (Rabs_pos (apply ncol A z i - b i)).
    assert (AB : Rabs (apply ncol A z i - b i) = 0) by lra.
    destruct (Req_dec (apply ncol A z i - b i) 0) as [K|K]; [lra|]. apply Rabs_no_R0 in K. lra.
Qed.

(** The circumcentre. *)
Theorem voronoi_vertex_ok d p x : (0 < d)%nat ->
  separated d d (1 / 10 ^ 10) (fun i k => p (i + 1)%nat k - p 0%nat k) ->
  exists v, @voronoi_vertex R _ d (d + 1) p x = Ok (Some v) /\
    forall i, (i <= d)%nat -> vdist d v (p i) = vdist d v (p 0%nat).
Proof.
  intros Hd SEP. unfold voronoi_vertex. rewrite Nat.eqb_refl. cbn [negb].
  change nsub with Rminus. change nadd with Rplus. change nmul with Rmult.
  match goal with |- context [ls_qr d d ?A ?b x] => destruct (@ls_qr_ok d d A b x ltac:(lia) SEP) as (v & E & _ & SOL) end.
  rewrite E. cbn [bind]. exists v. split; [reflexivity|]. specialize (SOL eq_refl).
  intros i Hi. destruct i as [|i]; [reflexivity|]. specialize (SOL i ltac:(lia)).
  unfold apply in SOL. rewrite range_sum_R in SOL by lia. rewrite Nat.add_1_r in SOL.
  unfold vdist, norm. f_equal. unfold dot.
  assert (Z : sumn d (fun k => (p (S i) k - p 0%nat k) * v k) - sumn d (fun k => (p (S i) k - p 0%nat k) * (5 / 10 * (p (S i) k + p 0%nat k))) = 0).
  { rewrite SOL. rewrite (@sumn_ext d (cut 0 _) (fun k => (p (S i) k - p 0%nat k) * (5 / 10 * (p (S i) k + p 0%nat k)))); [lra|].
    intros k _. unfold cut. simpl. unfold nlit. simpl. lra. }
  rewrite <- sumn_minus in Z. apply Rminus_diag_uniq. rewrite <- sumn_minus.
  rewrite (@sumn_ext d _ (fun k => -2 * ((p (S i) k - p 0%nat k) * v k - (p (S i) k - p 0%nat k) * (5 / 10 * (p (S i) k + p 0%nat k))))) by (intros; lra).
  rewrite sumn_scal, Z. lra.
Qed.
