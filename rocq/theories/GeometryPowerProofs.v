(** The power vertex of n spheres, in exact arithmetic. *)
From Coq Require Import Reals Lra.
From Verif Require Import Base Num Vec SamplingSpec SparseDotProofs SparseCholProofs DenseQR DenseQRProofs Geometry GeometrySpec GeometryProofs.
Local Open Scope R_scope.

Lemma sumn_shift m f : sumn (S m) f = f 0%nat + sumn m (fun k => f (S k)).
Proof. change (S m) with (1 + m)%nat. rewrite sumn_split, sumn_S, sumn_0. f_equal. lra. Qed.
Lemma sumn_one m r (g : nat -> R) : (r < m)%nat -> sumn m (fun k => if Nat.eqb k r then g k else 0) = g r.
Proof.
  intros H. rewrite (@sumn_ext m _ (fun k => if Nat.eqb r (0 + k) then g r else 0)).
  - rewrite sumn_single. cbn [Nat.leb Nat.add andb]. destruct (Nat.ltb r m) eqn:E; [reflexivity|lia].
  - intros k _. rewrite Nat.add_0_l, (Nat.eqb_sym r k). destruct (Nat.eqb k r) eqn:E; [apply Nat.eqb_eq in E; now subst|auto].
Qed.
Definition sw (i j k : nat) : nat := if Nat.eqb k i then j else if Nat.eqb k j then i else k.
Lemma sumn_sw k i j f : (i < k)%nat -> (j < k)%nat -> sumn k (fun m => f (sw i j m)) = sumn k f.
Proof.
  intros Hi Hj. destruct (Nat.eq_dec i j) as [->|N].
  - apply sumn_ext. intros m _. unfold sw. destruct (Nat.eqb m j) eqn:E; [apply Nat.eqb_eq in E; now subst|auto].
  - rewrite (@sumn_ext k _ (fun m => f m + ((if Nat.eqb m i then f j - f i else 0) + (if Nat.eqb m j then f i - f j else 0)))).
    + rewrite !sumn_plus. rewrite (@sumn_one k i (fun _ => f j - f i)), (@sumn_one k j (fun _ => f i - f j)) by auto. lra.
    + intros m _. unfold sw. destruct (Nat.eqb m i) eqn:E; destruct (Nat.eqb m j) eqn:E2; try lra.
      * apply Nat.eqb_eq in E, E2. lia.
      * apply Nat.eqb_eq in E. subst. lra.
      * apply Nat.eqb_eq in E2. subst. lra.
Qed.
Lemma sw_sw i j k : sw i j (sw i j k) = k.
Proof. unfold sw. destruct (Nat.eqb k i) eqn:?; destruct (Nat.eqb k j) eqn:?; repeat match goal with |- context [Nat.eqb ?a ?b] => destruct (Nat.eqb a b) eqn:? end; lia. Qed.
Lemma swap_at_sw {A} (c : nat -> A) i j k : swap_at c i j k = c (sw i j k).
Proof. unfold swap_at, sw. destruct (Nat.eqb k i), (Nat.eqb k j); auto. Qed.
Lemma swap_combination k i j (a : nat -> R) (c : nat -> nat -> R) d : (i < k)%nat -> (j < k)%nat ->
  sumn k (fun m => a m * swap_at c i j m d) = sumn k (fun m => a (sw i j m) * c m d).
Proof.
  intros Hi Hj. rewrite <- (@sumn_sw k i j (fun m => a (sw i j m) * c m d)) by auto.
  apply sumn_ext. intros m _. rewrite sw_sw, swap_at_sw. reflexivity.
Qed.
Lemma independent_swap n k e c i j : (i < k)%nat -> (j < k)%nat -> independent n k e c -> independent n k e (swap_at c i j).
Proof.
  intros Hi Hj I a S0 (m & Hm & M). rewrite (@norm_ext n _ (fun d => sumn k (fun m => a (sw i j m) * c m d))).
  - apply I; [now rewrite sumn_sw|]. exists (sw i j m). split; [|now rewrite sw_sw].
    unfold sw. destruct (Nat.eqb m i), (Nat.eqb m j); auto.
  - intros d _. now apply swap_combination.
Qed.
Lemma in_hull_swap n k c i j x : (i < k)%nat -> (j < k)%nat -> in_hull n k (swap_at c i j) x -> in_hull n k c x.
Proof.
  intros Hi Hj (a & S1 & X). exists (fun m => a (sw i j m)). split; [now rewrite sumn_sw|].
  intros d Hd. rewrite (X d Hd). now apply swap_combination.
Qed.

(** Spans *)
Definition span (n k : nat) (f : nat -> nat -> R) (u : nat -> R) : Prop :=
  exists x, forall d, (d < n)%nat -> u d = sumn k (fun j => x j * f j d).
Lemma span_elem n k f j : (j < k)%nat -> span n k f (f j).
Proof.
  intros Hj. exists (fun m => if Nat.eqb m j then 1 else 0). intros d _.
  rewrite (@sumn_ext k _ (fun m => if Nat.eqb m j then f m d else 0)).
  - now rewrite sumn_one.
  - intros m _. destruct (Nat.eqb m j); ring.
Qed.
Lemma span_lin n k f u v s t : span n k f u -> span n k f v -> span n k f (fun d => s * u d + t * v d).
Proof.
  intros (x & X) (y & Y). exists (fun j => s * x j + t * y j). intros d Hd. rewrite (X d Hd), (Y d Hd), <- !sumn_scal, <- sumn_plus.
  apply sumn_ext. intros; ring.
Qed.
Lemma span_ext n k f u v : (forall d, (d < n)%nat -> u d = v d) -> span n k f u -> span n k f v.
Proof. intros E (x & X). exists x. intros d Hd. rewrite <- E by auto. auto. Qed.
Lemma span_base n k f g u : (forall j d, (j < k)%nat -> (d < n)%nat -> f j d = g j d) -> span n k f u -> span n k g u.
Proof. intros E (x & X). exists x. intros d Hd. rewrite (X d Hd). apply sumn_ext. intros j Hj. now rewrite E. Qed.
Lemma span_zero n k f : span n k f (fun _ => 0).
Proof. exists (fun _ => 0). intros d _. rewrite (@sumn_ext k _ (fun _ => 0)) by (intros; ring). now rewrite sumn_zero. Qed.
Lemma span_more n k f u : span n k f u -> span n (S k) f u.
Proof.
  intros (x & X). exists (fun j => if Nat.ltb j k then x j else 0). intros d Hd. rewrite (X d Hd), sumn_S.
  destruct (Nat.ltb k k) eqn:E; [lia|]. rewrite Rmult_0_l, Rplus_0_r. apply sumn_ext. intros j Hj.
  destruct (Nat.ltb j k) eqn:E2; [auto|lia].
Qed.
Lemma span_trans n k m f g u : (forall j, (j < k)%nat -> span n m g (f j)) -> span n k f u -> span n m g u.
Proof.
  intros H (x & X). apply span_ext with (fun d => sumn k (fun j => x j * f j d)); [intros; symmetry; auto|]. clear X.
  induction k as [|k IH].
  - eapply span_ext; [|apply span_zero]. intros. now rewrite sumn_0.
  - apply span_ext with (fun d => 1 * sumn k (fun j => x j * f j d) + x k * f k d).
    + intros d _. rewrite sumn_S. ring.
    + apply span_lin; [apply IH; intros; apply H; lia|apply H; lia].
Qed.
Lemma span_orth n k f u v : (forall j, (j < k)%nat -> dot n (f j) v = 0) -> span n k f u -> dot n u v = 0.
Proof.
  intros H (x & X). rewrite (@dot_ext n u (fun d => sumn k (fun j => x j * f j d)) v v) by auto. clear X.
  unfold dot. rewrite (@sumn_ext n _ (fun d => sumn k (fun j => x j * (f j d * v d)))).
  - rewrite sumn_swap. rewrite (@sumn_ext k _ (fun _ => 0)); [apply sumn_zero|]. intros j Hj. rewrite sumn_scal.
    specialize (H j Hj). unfold dot in H. rewrite H. ring.
  - intros d _. rewrite Rmult_comm, <- sumn_scal. apply sumn_ext. intros; ring.
Qed.

(** Orthonormal families *)
Lemma family_less n k m b : (m <= k)%nat -> orthonormal_family n k b -> orthonormal_family n m b.
Proof. intros L H i j Hi Hj. apply H; lia. Qed.
Lemma family_ext n k b u : orthonormal_family n k b -> dot n u u = 1 -> (forall m, (m < k)%nat -> dot n u (b m) = 0) ->
  orthonormal_family n (S k) (set_vec b k u).
Proof.
  intros H U O i j Hi Hj. unfold set_vec. destruct (Nat.eqb i k) eqn:E1, (Nat.eqb j k) eqn:E2.
  - replace (Nat.eqb i j) with true by lia. exact U.
  - replace (Nat.eqb i j) with false by lia. apply O. lia.
  - replace (Nat.eqb i j) with false by lia. rewrite dot_comm. apply O. lia.
  - apply H; lia.
Qed.
Lemma rest_sq n k b v : orthonormal_family n k b ->
  dot n (rest n k b v) (rest n k b v) = dot n v v - sumn k (fun m => dot n v (b m) * dot n v (b m)).
Proof.
  intros O. unfold rest at 2. rewrite dot_minus_r.
  rewrite (dot_comm n (rest n k b v) (fun d => sumn k _)).
  rewrite (@span_orth n k b (fun d => sumn k (fun m => dot n v (b m) * b m d)) (rest n k b v)).
  - unfold rest. rewrite dot_minus_l. rewrite Rminus_0_r. f_equal.
    unfold dot at 1. rewrite (@sumn_ext n _ (fun d => sumn k (fun m => dot n v (b m) * (v d * b m d)))).
    + rewrite sumn_swap. apply sumn_ext. intros m _. rewrite sumn_scal. reflexivity.
    + intros d _. rewrite Rmult_comm, <- sumn_scal. apply sumn_ext. intros; ring.
  - intros j Hj. rewrite dot_comm. now apply rest_orth.
  - eexists. intros d _. reflexivity.
Qed.
Definition axis (i : nat) : nat -> R := fun d => if Nat.eqb d i then 1 else 0.
Lemma dot_axis n i u : (i < n)%nat -> dot n (axis i) u = u i.
Proof.
  intros H. unfold dot, axis. rewrite (@sumn_ext n _ (fun d => if Nat.eqb d i then u d else 0)).
  - now rewrite sumn_one.
  - intros d _. destruct (Nat.eqb d i); ring.
Qed.
Lemma sumn_const n x : sumn n (fun _ => x) = INR n * x.
Proof. induction n; rewrite ?sumn_0, ?sumn_S, ?S_INR; [simpl; ring|]. rewrite IHn. ring. Qed.
Lemma rest_axes n k b : orthonormal_family n k b ->
  sumn n (fun i => dot n (rest n k b (axis i)) (rest n k b (axis i))) = INR n - INR k.
Proof.
  intros O. rewrite (@sumn_ext n _ (fun i => 1 - sumn k (fun m => b m i * b m i))).
  - rewrite sumn_minus, sumn_const, sumn_swap. rewrite (@sumn_ext k _ (fun _ => 1)).
    + rewrite sumn_const. ring.
    + intros m Hm. pose proof (O m m Hm Hm) as E. rewrite Nat.eqb_refl in E. exact E.
  - intros i Hi. rewrite rest_sq by auto. rewrite dot_axis by auto. unfold axis at 1. rewrite Nat.eqb_refl. f_equal.
    apply sumn_ext. intros m _. now rewrite dot_axis.
Qed.
(** n orthonormal vectors span everything. *)
Lemma parseval n b v d : orthonormal_family n n b -> (d < n)%nat -> v d = sumn n (fun m => dot n v (b m) * b m d).
Proof.
  intros O Hd. pose proof (rest_axes O) as S0. rewrite Rminus_diag_eq in S0 by auto.
  assert (A : forall i e, (i < n)%nat -> (e < n)%nat -> rest n n b (axis i) e = 0).
  { intros i e Hi He. pose proof (@sumn_ge n (fun i => dot n (rest n n b (axis i)) (rest n n b (axis i))) i (fun k _ => dot_self_nonneg n _) Hi) as L.
    rewrite S0 in L. cbv beta in L. apply (@norm_zero_dot n (rest n n b (axis i))); auto. unfold norm.
    pose proof (dot_self_nonneg n (rest n n b (axis i))). replace (dot n _ _) with 0 by lra. apply sqrt_0. }
  assert (AX : forall i e, (i < n)%nat -> (e < n)%nat -> axis i e = sumn n (fun m => b m i * b m e)).
  { intros i e Hi He. specialize (A i e Hi He). unfold rest in A. rewrite (@sumn_ext n _ (fun m => dot n (axis i) (b m) * b m e)); [lra|].
    intros m _. now rewrite dot_axis. }
  rewrite (@sumn_ext n _ (fun m => sumn n (fun e => v e * (b m d * b m e)))).
  - rewrite sumn_swap. rewrite (@sumn_ext n _ (fun e => if Nat.eqb e d then v e else 0)).
    + now rewrite sumn_one.
    + intros e He. rewrite sumn_scal. rewrite <- (AX d e Hd He). unfold axis. destruct (Nat.eqb e d); ring.
  - intros m _. unfold dot. rewrite Rmult_comm, <- sumn_scal. apply sumn_ext. intros; ring.
Qed.

Lemma tol_half : @nlit R _ 1 1 = 1 / 10. Proof. unfold nlit. cbn. lra. Qed.
Lemma tenpos k : 0 < 10 ^ k. Proof. apply pow_lt. lra. Qed.

Lemma scaled_unit n w u : 0 < norm n w -> (forall d, (d < n)%nat -> u d = w d / norm n w) -> dot n u u = 1.
Proof. intros P E. rewrite (@dot_ext n u (fun d => w d / norm n w) u (fun d => w d / norm n w)) by auto. now apply normalized_unit. Qed.
Lemma scaled_orth n w u v : (forall d, (d < n)%nat -> u d = w d / norm n w) -> dot n w v = 0 -> dot n u v = 0.
Proof.
  intros E Z. rewrite (@dot_ext n u (fun d => / norm n w * w d) v v); auto.
  - rewrite dot_scal_l, Z. ring.
  - intros d Hd. rewrite E by auto. unfold Rdiv. ring.
Qed.
Lemma first_axis_R n jb b : orthonormal_family n jb b -> forall k idim last, (k + idim = n)%nat ->
  (exists i, (idim <= i < n)%nat /\ 1 / 10 ^ 10 <= dot n (rest n jb b (axis i)) (rest n jb b (axis i))) ->
  let u := first_axis k idim n jb b last in
  dot n u u = 1 /\ forall m, (m < jb)%nat -> dot n u (b m) = 0.
Proof.
  intros O. induction k as [|k IH]; intros idim last Hk (i & Hi & L); [lia|]. cbn [first_axis].
  change (fun d : nat => if Nat.eqb d idim then n1 else n0) with (axis idim).
  rewrite tol_half. change nltb with Rltb.
  destruct (normal_component_R (axis idim) O) as [(L2 & u & -> & _)|(L2 & u & -> & E)].
  - replace (Rltb (1 / 10) _) with false.
    2:{ symmetry. apply Rltb_false. apply Rlt_le. eapply Rlt_le_trans; [exact L2|].
        unfold Rdiv. rewrite !Rmult_1_l. apply Rinv_le_contravar; [lra|]. lra. }
    apply IH; [lia|]. exists i. split; [|exact L]. destruct (Nat.eq_dec i idim) as [->|]; [lra|lia].
  - set (w := rest n jb b (axis idim)) in *. pose proof tol_pos as TP.
    assert (P : 0 < norm n w) by (apply sqrt_lt_R0; lra).
    replace (Rltb (1 / 10) _) with true.
    2:{ symmetry. apply Rltb_true. assert (norm n w <= 1).
        { rewrite <- sqrt_1. apply sqrt_le_1_alt. unfold w. rewrite rest_sq by auto. rewrite dot_axis by lia.
          unfold axis at 1. rewrite Nat.eqb_refl.
          pose proof (@sumn_nonneg jb (fun m => dot n (axis idim) (b m) * dot n (axis idim) (b m)) (fun k _ => Rle_0_sqr _)). lra. }
        apply Rlt_le_trans with 1; [lra|]. unfold Rdiv. rewrite Rmult_1_l. rewrite <- Rinv_1 at 1. apply Rinv_le_contravar; auto. }
    split; [eapply scaled_unit; eauto|]. intros m Hm. eapply scaled_orth; eauto. now apply rest_orth.
Qed.
Lemma axis_exists n jb b : INR n <= 10 ^ 10 -> (jb < n)%nat -> orthonormal_family n jb b ->
  exists i, (0 <= i < n)%nat /\ 1 / 10 ^ 10 <= dot n (rest n jb b (axis i)) (rest n jb b (axis i)).
Proof.
  intros B Hj O. pose proof (rest_axes O) as E.
  assert (D : forall m, (exists i, (i < m)%nat /\ 1 / 10 ^ 10 <= dot n (rest n jb b (axis i)) (rest n jb b (axis i))) \/
    (m = 0%nat \/ sumn m (fun i => dot n (rest n jb b (axis i)) (rest n jb b (axis i))) < INR m * (1 / 10 ^ 10))).
  { induction m as [|m [(i & Hi & L)|IH]]; [auto|left; exists i; split; [lia|auto]|].
    destruct (Rle_lt_dec (1 / 10 ^ 10) (dot n (rest n jb b (axis m)) (rest n jb b (axis m)))) as [L|L].
    - left. exists m. split; [lia|auto].
    - right. right. rewrite sumn_S, S_INR. destruct IH as [->|IH]; [rewrite sumn_0; simpl; lra|lra]. }
  destruct (D n) as [(i & Hi & L)|[Z|L]]; [exists i; split; [lia|auto]|lia|].
  exfalso. rewrite E in L. assert (1 <= INR n - INR jb).
  { assert (INR jb + 1 <= INR n) by (rewrite <- S_INR; apply le_INR; lia). lra. }
  assert (INR n * (1 / 10 ^ 10) <= 1).
  { apply Rmult_le_reg_r with (10 ^ 10); [apply tenpos|]. unfold Rdiv. rewrite Rmult_assoc, Rmult_assoc, Rinv_l by (pose proof (tenpos 10); lra). lra. }
  lra.
Qed.
Lemma complete_basis_R n : INR n <= 10 ^ 10 -> forall k jb b v, (k + jb = n)%nat -> orthonormal_family n jb b ->
  let '(b', _) := complete_basis k jb n b v in
  orthonormal_family n n b' /\ forall m, (m < jb)%nat -> b' m = b m.
Proof.
  intros B. induction k as [|k IH]; intros jb b v Hk O; cbn [complete_basis].
  - replace jb with n in * by lia. split; auto.
  - pose proof (@first_axis_R n jb b O n 0%nat v ltac:(lia) (@axis_exists n jb b B ltac:(lia) O)) as [U Z].
    set (u := first_axis _ _ _ _ _ _) in *.
    pose proof (IH (S jb) (set_vec b jb u) u ltac:(lia) (@family_ext n jb b u O U Z)) as H.
    destruct (complete_basis k (S jb) n (set_vec b jb u) u) as [b' v']. destruct H as (H1 & H2). split; auto.
    intros m Hm. rewrite H2 by lia. unfold set_vec. destruct (Nat.eqb m jb) eqn:E; [lia|auto].
Qed.
Lemma project_out_R n b : orthonormal_family n n b -> forall k jb v, (k + jb = n)%nat ->
  let v' := project_out k jb n b v in
  (forall m, (jb <= m < n)%nat -> dot n v' (b m) = 0) /\
  exists x, forall d, (d < n)%nat -> v' d = v d - sumn k (fun i => x i * b (jb + i)%nat d).
Proof.
  intros O. induction k as [|k IH]; intros jb v Hk; cbn [project_out].
  - split; [intros; lia|]. exists (fun _ => 0). intros d _. rewrite sumn_0. ring.
  - rewrite range0_R. change (sumn n _) with (dot n v (b jb)). change nsub with Rminus. change nmul with Rmult.
    set (v1 := fun d => v d - dot n v (b jb) * b jb d).
    destruct (IH (S jb) v1 ltac:(lia)) as (Z & x & X).
    set (v' := project_out k (S jb) n b v1) in *.
    assert (XX : forall d, (d < n)%nat -> v' d = v1 d - sumn k (fun i => x i * b (S jb + i)%nat d)) by exact X.
    split.
    + intros m Hm. destruct (Nat.eq_dec m jb) as [->|]; [|apply Z; lia].
      rewrite (@dot_ext n v' (fun d => v1 d - sumn k (fun i => x i * b (S jb + i)%nat d)) (b jb) (b jb)) by auto.
      rewrite dot_minus_l.
      rewrite (@span_orth n k (fun i => b (S jb + i)%nat) (fun d => sumn k (fun i => x i * b (S jb + i)%nat d)) (b jb)).
      * unfold v1. rewrite dot_minus_l, dot_scal_l, (O jb jb) by lia. rewrite Nat.eqb_refl. ring.
      * intros j Hj. rewrite O by lia. destruct (Nat.eqb (S jb + j) jb) eqn:E; [lia|auto].
      * exists x. intros; reflexivity.
    + exists (fun i => match i with 0%nat => dot n v (b jb) | S i => x i end). intros d Hd. rewrite XX by auto.
      rewrite sumn_shift, Nat.add_0_r. unfold v1.
      rewrite (@sumn_ext k (fun i => x i * b (S jb + i)%nat d) (fun i => x i * b (jb + S i)%nat d)); [ring|].
      intros i _. do 2 f_equal. lia.
Qed.

(** The trimming loop *)
Lemma trim_spoke_R n c r (xst dir : nat -> R) : forall k ip best alpha nb,
  trim_spoke k ip n c r xst dir best = (alpha, nb) ->
  (alpha, nb) = best \/
  ((ip <= nb < ip + k)%nat /\
   dot n (fun d => xst d + alpha * dir d - power_vertex2 n (c 0%nat) (r 0%nat) (c nb) (r nb) d) (fun d => c nb d - c 0%nat d) = 0).
Proof.
  induction k as [|k IH]; intros ip best alpha nb E; cbn [trim_spoke] in E; [left; auto|].
  rewrite !range0_R in E. change nsub with Rminus in E. change nmul with Rmult in E. rewrite tol_eq in E.
  change nltb with Rltb in E. change nabs with Rabs in E. change ndiv with Rdiv in E.
  set (qv := power_vertex2 n (c 0%nat) (r 0%nat) (c ip) (r ip)) in *.
  set (mv := fun d => c ip d - c 0%nat d) in *.
  change (sumn n (fun d => dir d * (c ip d - c 0%nat d))) with (dot n dir mv) in E.
  change (sumn n (fun d => (qv d - xst d) * (c ip d - c 0%nat d))) with (dot n (fun d => qv d - xst d) mv) in E.
  destruct (Rltb (Rabs (dot n dir mv)) (1 / 10 ^ 10)) eqn:P.
  { destruct (IH _ _ _ _ E) as [H|[H1 H2]]; [auto|right; split; [lia|auto]]. }
  apply Rltb_false in P.
  destruct (Rltb (Rabs (dot n (fun d => qv d - xst d) mv / dot n dir mv)) (Rabs (fst best))) eqn:Q.
  - destruct (IH _ _ _ _ E) as [H|[H1 H2]]; [|right; split; [lia|auto]].
    injection H as -> ->. right. split; [lia|]. fold qv. fold mv.
    assert (NZ : dot n dir mv <> 0). { intros Z. rewrite Z, Rabs_R0 in P. pose proof tol_pos. lra. }
    set (al := dot n (fun d => qv d - xst d) mv / dot n dir mv).
    rewrite (@dot_ext n _ (fun d => al * dir d - (qv d - xst d)) mv mv) by (auto; intros; ring).
    rewrite dot_minus_l, dot_scal_l. unfold al. field. exact NZ.
  - destruct (IH _ _ _ _ E) as [H|[H1 H2]]; [auto|right; split; [lia|auto]].
Qed.

(** On the radical hyperplane the powers agree. *)
Lemma radical n x c0 r0 c1 r1 : 0 < vdist n c0 c1 ->
  dot n (fun d => x d - power_vertex2 n c0 r0 c1 r1 d) (fun d => c1 d - c0 d) = 0 ->
  power n x c1 r1 = power n x c0 r0.
Proof.
  intros P H. destruct (@power_vertex2_R n c0 r0 c1 r1 P) as (_ & E).
  set (q := power_vertex2 n c0 r0 c1 r1) in *. unfold power in *. rewrite !vdist_sq in *.
  assert (D : forall c, dot n (fun k => x k - c k) (fun k => x k - c k) =
    dot n (fun k => x k - q k) (fun k => x k - q k) + dot n (fun k => q k - c k) (fun k => q k - c k) + 2 * dot n (fun k => x k - q k) (fun k => q k - c k)).
  { intros c. rewrite (@dot_ext n (fun k => x k - c k) (fun k => (x k - q k) + (q k - c k)) _ (fun k => (x k - q k) + (q k - c k))) by (intros; ring).
    rewrite dot_plus_l, !dot_plus_r. rewrite (dot_comm n (fun k => q k - c k) (fun k => x k - q k)). ring. }
  rewrite (D c0), (D c1).
  assert (S : dot n (fun k => x k - q k) (fun k => q k - c1 k) = dot n (fun k => x k - q k) (fun k => q k - c0 k) - dot n (fun k => x k - q k) (fun k => c1 k - c0 k)).
  { rewrite <- dot_minus_r. apply dot_ext; intros; ring. }
  rewrite S, H. lra.
Qed.

Definition diff (c : nat -> nat -> R) (j : nat) : nat -> R := fun d => c (S j) d - c 0%nat d.
Lemma diffs_combination c x k d : sumn k (fun j => x j * diff c j d) =
  sumn (S k) (fun i => match i with 0%nat => - sumn k x | S j => x j end * c i d).
Proof.
  rewrite sumn_shift. unfold diff.
  rewrite (@sumn_ext k _ (fun j => x j * c (S j) d - c 0%nat d * x j)) by (intros; ring).
  rewrite sumn_minus, sumn_scal. ring.
Qed.
Lemma independent_less n k m e c : (m <= k)%nat -> independent n k e c -> independent n m e c.
Proof.
  intros L H a S0 (i & Hi & A).
  assert (T : forall f, sumn k (fun i => if Nat.ltb i m then f i else 0) = sumn m f).
  { intros f. rewrite (@sumn_trunc k m); [|exact L|intros j Hj; destruct (Nat.ltb j m) eqn:E; [lia|auto]].
    apply sumn_ext. intros j Hj. destruct (Nat.ltb j m) eqn:E; [auto|lia]. }
  rewrite (@norm_ext n _ (fun d => sumn k (fun i => (if Nat.ltb i m then a i else 0) * c i d))).
  - apply H; [now rewrite T|]. exists i. split; [lia|]. destruct (Nat.ltb i m) eqn:E; [auto|lia].
  - intros d _. rewrite <- (T (fun i => a i * c i d)). apply sumn_ext. intros j _. destruct (Nat.ltb j m); ring.
Qed.
Lemma independent_diffs n k e c x w : independent n (S (S k)) e c -> x k = 1 ->
  (forall d, (d < n)%nat -> w d = sumn (S k) (fun j => x j * diff c j d)) -> e <= norm n w.
Proof.
  intros I X W.
  rewrite (@norm_ext n w (fun d => sumn (S (S k)) (fun i => match i with 0%nat => - sumn (S k) x | S j => x j end * c i d))).
  - apply I.
    + rewrite sumn_shift. change (- sumn (S k) x + sumn (S k) x = 0). ring.
    + exists (S k). split; [lia|exact X].
  - intros d Hd. rewrite W by auto. apply diffs_combination.
Qed.

Section Loop.
  Variables (n np : nat) (centers : nat -> nat -> R) (radii : nat -> R) (darts : nat -> nat -> R).
  Hypothesis Small : INR n <= 10 ^ 10.
  Hypothesis Ind : independent n np (1 / 10 ^ 5) centers.

  Record pv_inv (k : nat) (s : @pv_state R) : Prop := {
    pi_family : orthonormal_family n n (pv_basis s);
    pi_diff : forall j, (j < k)%nat -> span n k (pv_basis s) (diff (pv_c s) j);
    pi_span : forall m, (m < k)%nat -> span n k (diff (pv_c s)) (pv_basis s m);
    pi_plane : forall j, (j < k)%nat ->
      dot n (fun d => pv_xst s d - power_vertex2 n (pv_c s 0%nat) (pv_r s 0%nat) (pv_c s (S j)) (pv_r s (S j)) d) (diff (pv_c s) j) = 0;
    pi_c0 : pv_c s 0%nat = centers 0%nat;
    pi_r0 : pv_r s 0%nat = radii 0%nat;
    pi_all : forall i, (i < np)%nat -> exists j, (j < np)%nat /\ centers i = pv_c s j /\ radii i = pv_r s j;
    pi_hull : forall x, in_hull n np (pv_c s) x -> in_hull n np centers x;
    pi_ind : independent n np (1 / 10 ^ 5) (pv_c s) }.

  Lemma orth_span k b u m : orthonormal_family n n b -> (k <= n)%nat -> span n k b u -> (k <= m < n)%nat -> dot n u (b m) = 0.
  Proof.
    intros O Hk S Hm. apply (@span_orth n k b u (b m)); auto. intros j Hj. rewrite O by lia.
    destruct (Nat.eqb j m) eqn:E; [lia|auto].
  Qed.

  Lemma pv_loop_R : forall k ispoke s s', (k + ispoke = np - 1)%nat -> (np <= n + 1)%nat -> pv_inv ispoke s ->
    pv_loop k ispoke n np darts s = Some s' -> pv_inv (np - 1)%nat s'.
  Proof.
    induction k as [|k IH]; intros ispoke s s' Hk Hnp INV E; cbn [pv_loop] in E.
    { injection E as <-. now replace (np - 1)%nat with ispoke by lia. }
    set (dir := spoke_dir n ispoke (pv_basis s) (darts ispoke)) in *.
    destruct (trim_spoke _ _ _ _ _ _ _ _) as [alpha nb] eqn:T.
    destruct (Nat.eqb nb 0) eqn:NB; [discriminate|]. apply Nat.eqb_neq in NB.
    destruct (trim_spoke_R _ _ _ _ _ _ _ _ T) as [H|[HB HP]]; [injection H as _ H; lia|]. clear T.
    set (c := swap_at (pv_c s) nb (S ispoke)) in *. set (r := swap_at (pv_r s) nb (S ispoke)) in *.
    pose proof (pi_family INV) as FAM.
    assert (SWl : forall {A} (f : nat -> A) j, (j <= ispoke)%nat -> swap_at f nb (S ispoke) j = f j).
    { intros A f j Hj. unfold swap_at. destruct (Nat.eqb j nb) eqn:E1; [lia|]. destruct (Nat.eqb j (S ispoke)) eqn:E2; [lia|auto]. }
    assert (SWn : forall {A} (f : nat -> A), swap_at f nb (S ispoke) (S ispoke) = f nb).
    { intros A f. unfold swap_at. destruct (Nat.eqb (S ispoke) nb) eqn:E1; [apply Nat.eqb_eq in E1; now rewrite E1|]. now rewrite Nat.eqb_refl. }
    assert (DIF : forall j, (j < ispoke)%nat -> diff c j = diff (pv_c s) j).
    { intros j Hj. unfold diff, c. rewrite !SWl by lia. reflexivity. }
    assert (IND' : independent n np (1 / 10 ^ 5) c) by (apply independent_swap; [lia|lia|apply (pi_ind INV)]).
    (* the new direction vector *)
    change nsub with Rminus in E. change (fun d : nat => c (S ispoke) d - c 0%nat d) with (diff c ispoke) in E.
    assert (FK : orthonormal_family n ispoke (pv_basis s)) by (apply family_less with n; [lia|auto]).
    assert (BS : forall m, (m < ispoke)%nat -> span n ispoke (diff c) (pv_basis s m)).
    { intros m Hm. apply span_base with (diff (pv_c s)); [|apply (pi_span INV); auto]. intros j d Hj _. now rewrite DIF. }
    set (w := rest n ispoke (pv_basis s) (diff c ispoke)) in *.
    assert (WS : span n ispoke (diff c) (fun d => sumn ispoke (fun m => dot n (diff c ispoke) (pv_basis s m) * pv_basis s m d))).
    { apply (@span_trans n ispoke ispoke (pv_basis s)); auto. eexists. intros; reflexivity. }
    assert (WL : 1 / 10 ^ 5 <= norm n w).
    { destruct WS as (x & X). apply (@independent_diffs n ispoke (1 / 10 ^ 5) c (fun j => if Nat.eqb j ispoke then 1 else - x j) w).
      - apply independent_less with np; [lia|auto].
      - now rewrite Nat.eqb_refl.
      - intros d Hd. rewrite sumn_S, Nat.eqb_refl. unfold w, rest. rewrite (X d Hd).
        rewrite (@sumn_ext ispoke (fun j => (if Nat.eqb j ispoke then 1 else - x j) * diff c j d) (fun j => (-1) * (x j * diff c j d))).
        + rewrite sumn_scal. ring.
        + intros j Hj. destruct (Nat.eqb j ispoke) eqn:E1; [lia|ring]. }
    assert (T5 : 0 < 1 / 10 ^ 5) by (apply Rdiv_lt_0_compat; [lra|apply tenpos]).
    assert (WP : 0 < norm n w) by lra.
    destruct (normal_component_R (diff c ispoke) FK) as [(L & _)|(L & u & NC & UE)].
    { exfalso. fold w in L. rewrite <- norm_sq in L.
      assert (1 / 10 ^ 10 <= norm n w * norm n w); [|lra].
      replace (1 / 10 ^ 10) with (1 / 10 ^ 5 * (1 / 10 ^ 5)) by field. apply Rmult_le_compat; lra. }
    fold w in UE. rewrite NC in E.
    assert (UU : dot n u u = 1) by (eapply scaled_unit; eauto).
    assert (UO : forall m, (m < ispoke)%nat -> dot n u (pv_basis s m) = 0).
    { intros m Hm. eapply scaled_orth; eauto. now apply rest_orth. }
    pose proof (@complete_basis_R n Small (n - S ispoke)%nat (S ispoke) (set_vec (pv_basis s) ispoke u) u ltac:(lia) (@family_ext n ispoke (pv_basis s) u FK UU UO)) as CB.
    destruct (complete_basis _ _ _ _ _) as [basis v]. destruct CB as (FAM' & OLD).
    assert (OLDm : forall m, (m < ispoke)%nat -> basis m = pv_basis s m).
    { intros m Hm. rewrite OLD by lia. unfold set_vec. destruct (Nat.eqb m ispoke) eqn:E1; [lia|auto]. }
    assert (OLDk : basis ispoke = u).
    { rewrite OLD by lia. unfold set_vec. now rewrite Nat.eqb_refl. }
    (* dir is orthogonal to the differences treated so far *)
    assert (DIR : forall j, (j < ispoke)%nat -> dot n dir (diff c j) = 0).
    { intros j Hj. rewrite DIF by auto. pose proof (pi_diff INV Hj) as SD.
      rewrite dot_comm. unfold dir, spoke_dir.
      rewrite (@dot_ext n (diff (pv_c s) j) (diff (pv_c s) j) _ (fun d => sumn n (fun m => cut ispoke (fun jb => darts ispoke (jb - ispoke)%nat) m * pv_basis s m d))); auto.
      - rewrite dot_comm. apply (@span_orth n n (fun m => if Nat.leb ispoke m then pv_basis s m else fun _ => 0)).
        + intros m Hm. destruct (Nat.leb ispoke m) eqn:E1.
          * rewrite dot_comm. apply (@orth_span ispoke (pv_basis s)); auto; lia.
          * unfold dot. rewrite (@sumn_ext n _ (fun _ => 0)) by (intros; ring). apply sumn_zero.
        + exists (fun m => darts ispoke (m - ispoke)%nat). intros d _. apply sumn_ext. intros m _. unfold cut. destruct (Nat.leb ispoke m); ring.
      - intros d _. rewrite range_sum_R by lia. apply sumn_ext. intros m _. unfold cut. destruct (Nat.leb ispoke m); [reflexivity|ring]. }
    eapply IH; [| |  |exact E]; [lia|lia|]. constructor; cbn [pv_c pv_r pv_basis pv_xst].
    - exact FAM'.
    - intros j Hj. destruct (Nat.eq_dec j ispoke) as [->|].
      + apply span_ext with (fun d => norm n w * u d + 1 * sumn ispoke (fun m => dot n (diff c ispoke) (pv_basis s m) * pv_basis s m d)).
        * intros d Hd. rewrite UE by auto. unfold w at 2, rest. field. lra.
        * apply span_lin; [rewrite <- OLDk; apply span_elem; lia|].
          apply span_more. apply span_base with (pv_basis s); [intros; now rewrite OLDm|]. eexists. intros; reflexivity.
      + rewrite DIF by lia. apply span_more. apply span_base with (pv_basis s); [intros; now rewrite OLDm|]. apply (pi_diff INV). lia.
    - intros m Hm. destruct (Nat.eq_dec m ispoke) as [->|].
      + rewrite OLDk. apply span_ext with (fun d => / norm n w * diff c ispoke d + (- / norm n w) * sumn ispoke (fun m => dot n (diff c ispoke) (pv_basis s m) * pv_basis s m d)).
        * intros d Hd. rewrite UE by auto. unfold w at 3, rest. field. lra.
        * apply span_lin; [apply span_elem; lia|]. apply span_more. exact WS.
      + rewrite OLDm by lia. apply span_more. apply BS. lia.
    - change nadd with Rplus. change nmul with Rmult. intros j Hj. destruct (Nat.eq_dec j ispoke) as [->|].
      + unfold diff, c, r. rewrite !SWn, !SWl by lia. exact HP.
      + replace (power_vertex2 n (c 0%nat) (r 0%nat) (c (S j)) (r (S j))) with (power_vertex2 n (pv_c s 0%nat) (pv_r s 0%nat) (pv_c s (S j)) (pv_r s (S j))).
        2:{ unfold c, r. rewrite !SWl by lia. reflexivity. }
        set (q := power_vertex2 _ _ _ _ _).
        rewrite (@dot_ext n _ (fun d => (pv_xst s d - q d) + alpha * dir d) (diff c j) (diff c j)) by (auto; intros; ring).
        rewrite dot_plus_l, dot_scal_l, DIR by lia. rewrite DIF by lia.
        assert (Hj2 : (j < ispoke)%nat) by lia. pose proof (pi_plane INV Hj2) as PL. fold q in PL. rewrite PL. ring.
    - unfold c. rewrite SWl by lia. apply (pi_c0 INV).
    - unfold r. rewrite SWl by lia. apply (pi_r0 INV).
    - intros i Hi. destruct (pi_all INV Hi) as (j & Hj & E1 & E2). exists (sw nb (S ispoke) j). split.
      + unfold sw. destruct (Nat.eqb j nb), (Nat.eqb j (S ispoke)); lia.
      + unfold c, r. rewrite !swap_at_sw, sw_sw. auto.
    - intros x X. apply (pi_hull INV). eapply in_hull_swap; [| |exact X]; lia.
    - exact IND'.
  Qed.

  Lemma power_vertex_R v : power_vertex n np centers radii darts = Ok (Some v) ->
    (forall i, (i < np)%nat -> power n v (centers i) (radii i) = power n v (centers 0%nat) (radii 0%nat)) /\
    in_hull n np centers v.
  Proof.
    unfold power_vertex. destruct (Nat.eqb np 0 || Nat.ltb (n + 1) np) eqn:B; [discriminate|].
    apply orb_false_iff in B. destruct B as [B1 B2]. apply Nat.eqb_neq in B1. apply Nat.ltb_ge in B2.
    set (s0 := {| pv_c := centers |}). destruct (pv_loop _ _ _ _ _ s0) as [s|] eqn:L; [|discriminate].
    intros E. injection E as <-.
    assert (I0 : pv_inv 0 s0).
    { constructor; cbn [s0 pv_c pv_r pv_basis pv_xst]; auto; try (intros; lia).
      - intros i j Hi Hj. change (dot n (axis i) (axis j) = if Nat.eqb i j then 1 else 0). rewrite dot_axis by auto. reflexivity.
      - intros i Hi. exists i. auto. }
    pose proof (@pv_loop_R (np - 1)%nat 0%nat s0 s ltac:(lia) B2 I0 L) as INV. clear I0 L.
    pose proof (pi_family INV) as FAM.
    destruct (@project_out_R n (pv_basis s) FAM (n - (np - 1))%nat (np - 1)%nat (fun d => nsub (pv_xst s d) (pv_c s 0%nat d)) ltac:(lia)) as (Z & x & X).
    set (v := project_out _ _ _ _ _) in *. change nadd with Rplus in *. change nsub with Rminus in *.
    split.
    - intros i Hi. destruct (pi_all INV Hi) as (j & Hj & -> & ->). rewrite <- (pi_c0 INV), <- (pi_r0 INV).
      destruct j as [|j]; [reflexivity|]. apply radical.
      + assert (I2 : independent n np (1 / 10 ^ 5) (pv_c s)) by apply (pi_ind INV).
        specialize (I2 (fun i => (if Nat.eqb i (S j) then 1 else 0) - (if Nat.eqb i 0 then 1 else 0))).
        assert (T5 : 0 < 1 / 10 ^ 5) by (apply Rdiv_lt_0_compat; [lra|apply tenpos]).
        apply Rlt_le_trans with (1 / 10 ^ 5); [exact T5|]. rewrite vdist_sym. unfold vdist.
        erewrite norm_ext; [apply I2|].
        * rewrite sumn_minus, (@sumn_one np (S j) (fun _ => 1)), (@sumn_one np 0%nat (fun _ => 1)) by lia. ring.
        * exists (S j). split; [lia|]. rewrite Nat.eqb_refl. cbn [Nat.eqb]. ring.
        * intros d _. cbv beta. rewrite (@sumn_ext np _ (fun i => (if Nat.eqb i (S j) then pv_c s i d else 0) - (if Nat.eqb i 0 then pv_c s i d else 0))).
          -- rewrite sumn_minus, (@sumn_one np (S j) (fun i => pv_c s i d)), (@sumn_one np 0%nat (fun i => pv_c s i d)) by lia. reflexivity.
          -- intros i0 _. destruct (Nat.eqb i0 (S j)), (Nat.eqb i0 0); ring.
      + assert (Hj' : (j < np - 1)%nat) by lia.
        pose proof (pi_plane INV Hj') as PL. pose proof (pi_diff INV Hj') as SD.
        set (q := power_vertex2 _ _ _ _ _) in *.
        change (fun d : nat => pv_c s (S j) d - pv_c s 0%nat d) with (diff (pv_c s) j).
        rewrite (@dot_ext n _ (fun d => (pv_xst s d - q d) - sumn (n - (np - 1)) (fun i => x i * pv_basis s (np - 1 + i)%nat d)) (diff (pv_c s) j) (diff (pv_c s) j)); auto.
        * rewrite dot_minus_l, PL.
          rewrite (@span_orth n (n - (np - 1)) (fun i => pv_basis s (np - 1 + i)%nat)); [ring| |eexists; intros; reflexivity].
          intros m Hm. rewrite dot_comm. apply (@orth_span (np - 1)%nat (pv_basis s)); auto; lia.
        * intros d Hd. rewrite (X d Hd). ring.
    - apply (pi_hull INV).
      assert (SV : span n (np - 1) (diff (pv_c s)) v).
      { apply (@span_trans n (np - 1) (np - 1) (pv_basis s)); [intros; now apply (pi_span INV)|].
        exists (fun m => dot n v (pv_basis s m)). intros d Hd. rewrite (@parseval n (pv_basis s) v d FAM Hd).
        apply sumn_trunc; [lia|]. intros m Hm. rewrite Z by lia. ring. }
      destruct SV as (y & Y).
      exists (fun i => match i with 0%nat => 1 - sumn (np - 1) y | S j => y j end). split.
      + replace np with (S (np - 1)) at 1 by lia. rewrite sumn_shift. change (1 - sumn (np - 1) y + sumn (np - 1) y = 1). ring.
      + intros d Hd. rewrite (Y d Hd), diffs_combination.
        assert (NP : forall f, sumn np f = sumn (S (np - 1)) f) by (intros; f_equal; lia).
        rewrite NP, !sumn_shift. ring.
  Qed.
End Loop.
