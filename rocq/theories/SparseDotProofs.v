(** Dot products of sparse vectors and the Cholesky factorization, in exact arithmetic. *)
From Coq Require Import Reals Lra.
From Verif Require Import Base Num Vec Sparse SparseSpec SparseProofs.
Local Open Scope R_scope.

Lemma entry_lval (v : @svec R) l r : rep v l -> entry v r = lval l r.
Proof.
  intros H. destruct v as [p|].
  - unfold entry. rewrite (get_entry_ok r H) by discriminate. reflexivity.
  - destruct H as (_ & _ & ->). reflexivity.
Qed.

Fixpoint lsum (l : list (nat * R)) (lo hi : nat) (g : nat -> R) : R :=
  match l with
  | [] => 0
  | (r, x) :: t => (if Nat.leb lo r && Nat.leb r hi then x * g r else 0) + lsum t lo hi g
  end.

Lemma sumn_single m lo r c : sumn m (fun k => if Nat.eqb r (lo + k) then c else 0) =
  if Nat.leb lo r && Nat.ltb r (lo + m) then c else 0.
Proof.
  induction m as [|m IH].
  - rewrite sumn_0. destruct (Nat.leb lo r && Nat.ltb r (lo + 0)) eqn:E; [lia|reflexivity].
  - rewrite sumn_S, IH. destruct (Nat.eqb r (lo + m)) eqn:E1, (Nat.leb lo r && Nat.ltb r (lo + m)) eqn:E2,
      (Nat.leb lo r && Nat.ltb r (lo + S m)) eqn:E3; try lia; lra.
Qed.

Lemma lval_cons r (x : R) t q : lval ((r, x) :: t) q = if Nat.eqb r q then x else lval t q.
Proof. unfold lval. simpl. destruct (r =? q); reflexivity. Qed.

Lemma lsum_sumn l lo hi g : StronglySorted lt (map fst l) ->
  lsum l lo hi g = sumn (hi + 1 - lo) (fun k => lval l (lo + k) * g (lo + k)%nat).
Proof.
  induction l as [|[r x] t IH]; intros S0; cbn [lsum].
  - rewrite (@sumn_ext _ _ (fun _ => 0)). now rewrite sumn_zero. intros. unfold lval. simpl. unfold n0. simpl. lra.
  - inversion S0 as [|? ? S1 F1]; subst. rewrite IH by auto.
    assert (Z : lval t r = 0).
    { unfold lval. rewrite lookup_none; auto. intros K. rewrite Forall_forall in F1. specialize (F1 _ K). simpl in F1. lia. }
    rewrite (@sumn_ext _ (fun k => lval ((r, x) :: t) (lo + k) * g (lo + k)%nat)
       (fun k => (if Nat.eqb r (lo + k) then x * g r else 0) + lval t (lo + k) * g (lo + k)%nat)).
    + rewrite sumn_plus, sumn_single. f_equal.
      destruct (Nat.leb lo r && Nat.leb r hi) eqn:E1, (Nat.leb lo r && Nat.ltb r (lo + (hi + 1 - lo))) eqn:E2; auto; lia.
    + intros k _. rewrite lval_cons. destruct (Nat.eqb r (lo + k)) eqn:E.
      * apply Nat.eqb_eq in E. subst r. rewrite Z. lra.
      * lra.
Qed.

Lemma lsum_above l lo hi g : (forall a, In a (map fst l) -> (hi < a)%nat) -> lsum l lo hi g = 0.
Proof.
  induction l as [|[r x] t IH]; intros A; cbn [lsum]; auto.
  assert (hi < r)%nat by (apply A; simpl; auto).
  destruct (Nat.leb lo r && Nat.leb r hi) eqn:E; [lia|]. rewrite IH; [lra|]. intros; apply A; simpl; auto.
Qed.

Lemma arr_keys_at cap n (la : list (nat * R)) r x t ji :
  get (cap :: n :: map fst (la ++ (r, x) :: t) ++ ji) (2 + length la) = Ok r.
Proof. rewrite arr_key. rewrite Nat.add_comm, <- (len_key cap n la). apply get_app. Qed.
Lemma arr_vals_at (la : list (nat * R)) r x t jv : get (map snd (la ++ (r, x) :: t) ++ jv) (length la) = Ok x.
Proof. rewrite arr_val. rewrite <- (map_length snd la). apply get_app. Qed.

Lemma dot_loop_ok cap n ji jv other lo' flip lo hi lb : rep other lo' -> other <> None ->
  forall la d, StronglySorted lt (map fst (la ++ lb)) ->
  dot_loop (length lb) (length la) (cap :: n :: map fst (la ++ lb) ++ ji) (map snd (la ++ lb) ++ jv) other flip lo hi d
  = Ok (d + lsum lb lo hi (lval lo')).
Proof.
  intros R N. induction lb as [|[r x] t IH]; intros la d S0; cbn [length dot_loop].
  - cbn [lsum]. f_equal. lra.
  - rewrite arr_keys_at. cbn [bind].
    assert (IH' : forall d, dot_loop (length t) (S (length la)) (cap :: n :: map fst (la ++ (r, x) :: t) ++ ji) (map snd (la ++ (r, x) :: t) ++ jv) other flip lo hi d = Ok (d + lsum t lo hi (lval lo'))).
    { intros d'. specialize (IH (la ++ [(r, x)]) d'). rewrite <- app_assoc, app_length in IH. simpl in IH.
      rewrite Nat.add_1_r in IH. apply IH. exact S0. }
    cbn [lsum].
    destruct (Nat.ltb r lo) eqn:E1.
    { rewrite IH'. destruct (Nat.leb lo r && Nat.leb r hi) eqn:E; [lia|]. f_equal. lra. }
    destruct (Nat.ltb hi r) eqn:E2.
    { destruct (Nat.leb lo r && Nat.leb r hi) eqn:E; [lia|]. rewrite lsum_above; [f_equal; lra|].
      intros a Ha. rewrite map_app in S0. apply sorted_app in S0 as (_ & B & _). simpl in B. inversion B as [|? ? _ B2]; subst.
      rewrite Forall_forall in B2. specialize (B2 _ Ha). lia. }
    rewrite (get_entry_ok r R N). cbn [bind]. rewrite arr_vals_at. cbn [bind]. rewrite IH'.
    destruct (Nat.leb lo r && Nat.leb r hi) eqn:E; [|lia]. f_equal. unfold nadd, nmul; simpl.
    destruct flip; lra.
Qed.

Lemma dot_sparse_ok (v1 v2 : @svec R) lo hi : well_formed v1 -> well_formed v2 ->
  dot_sparse v1 v2 lo hi = Ok (sumn (hi + 1 - lo) (fun k => entry v1 (lo + k) * entry v2 (lo + k))).
Proof.
  intros W1 W2.
  assert (Z : forall f, (forall k, f k = 0) -> Ok n0 = Ok (sumn (hi + 1 - lo) f)).
  { intros f Hf. rewrite (@sumn_ext _ f (fun _ => 0)) by auto. now rewrite sumn_zero. }
  destruct v1 as [[ix1 vx1]|]; [|apply Z; intros; simpl; lra].
  destruct v2 as [[ix2 vx2]|]; [|apply Z; intros; simpl; lra].
  destruct (wf_rep _ W1) as [l1 R1], (wf_rep _ W2) as [l2 R2].
  rewrite (@sumn_ext _ _ (fun k => lval l1 (lo + k) * lval l2 (lo + k))).
  2:{ intros. now rewrite (entry_lval _ R1), (entry_lval _ R2). }
  pose proof R1 as (S1 & _ & cap1 & ji1 & jv1 & E1 & F1 & _).
  pose proof R2 as (S2 & _ & cap2 & ji2 & jv2 & E2 & F2 & _).
  subst ix1 ix2 vx1 vx2. unfold dot_sparse. cbn [get nth_error bind].
  destruct (Nat.ltb (length l1) (length l2)).
  - etransitivity; [apply (@dot_loop_ok cap1 (length l1) ji1 jv1 _ _ false lo hi l1 R2 ltac:(discriminate) [] n0 S1)|].
    rewrite lsum_sumn by auto. f_equal. unfold n0. simpl. lra.
  - etransitivity; [apply (@dot_loop_ok cap2 (length l2) ji2 jv2 _ _ true lo hi l2 R1 ltac:(discriminate) [] n0 S2)|].
    rewrite lsum_sumn by auto. f_equal. unfold n0. simpl.
    rewrite (@sumn_ext _ (fun k => lval l2 (lo + k) * lval l1 (lo + k)) (fun k => lval l1 (lo + k) * lval l2 (lo + k))) by (intros; lra). lra.
Qed.

Lemma dense_loop_ok cap n ji jv x lo hi lb : (hi < length x)%nat ->
  forall la d, StronglySorted lt (map fst (la ++ lb)) ->
  dense_loop (length lb) (length la) (cap :: n :: map fst (la ++ lb) ++ ji) (map snd (la ++ lb) ++ jv) x lo hi d
  = Ok (d + lsum lb lo hi (fun r => nth r x 0)).
Proof.
  intros HX. induction lb as [|[r y] t IH]; intros la d S0; cbn [length dense_loop].
  - cbn [lsum]. f_equal. lra.
  - rewrite arr_keys_at. cbn [bind].
    assert (IH' : forall d, dense_loop (length t) (S (length la)) (cap :: n :: map fst (la ++ (r, y) :: t) ++ ji) (map snd (la ++ (r, y) :: t) ++ jv) x lo hi d = Ok (d + lsum t lo hi (fun r => nth r x 0))).
    { intros d'. specialize (IH (la ++ [(r, y)]) d'). rewrite <- app_assoc, app_length in IH. simpl in IH.
      rewrite Nat.add_1_r in IH. apply IH. exact S0. }
    cbn [lsum].
    destruct (Nat.ltb r lo) eqn:E1.
    { rewrite IH'. destruct (Nat.leb lo r && Nat.leb r hi) eqn:E; [lia|]. f_equal. lra. }
    destruct (Nat.ltb hi r) eqn:E2.
    { destruct (Nat.leb lo r && Nat.leb r hi) eqn:E; [lia|]. rewrite lsum_above; [f_equal; lra|].
      intros a Ha. rewrite map_app in S0. apply sorted_app in S0 as (_ & B & _). simpl in B. inversion B as [|? ? _ B2]; subst.
      rewrite Forall_forall in B2. specialize (B2 _ Ha). lia. }
    rewrite arr_vals_at. cbn [bind].
    destruct (@nth_error_lt _ x r) as [b Hb]; [lia|]. rewrite (get_some Hb). cbn [bind]. rewrite IH'.
    destruct (Nat.leb lo r && Nat.leb r hi) eqn:E; [|lia]. f_equal.
    rewrite (nth_error_nth _ _ 0 Hb). unfold nadd, nmul; simpl. lra.
Qed.

Lemma dot_dense_ok (v : @svec R) x lo hi : well_formed v -> (hi < length x)%nat ->
  dot_dense v x lo hi = Ok (sumn (hi + 1 - lo) (fun k => entry v (lo + k) * nth (lo + k) x 0)).
Proof.
  intros W HX. destruct v as [[ix vx]|].
  2:{ simpl. rewrite (@sumn_ext _ _ (fun _ => 0)) by (intros; simpl; lra). now rewrite sumn_zero. }
  destruct (wf_rep _ W) as [l R].
  rewrite (@sumn_ext _ _ (fun k => lval l (lo + k) * nth (lo + k) x 0)).
  2:{ intros. now rewrite (entry_lval _ R). }
  pose proof R as (S1 & _ & cap1 & ji1 & jv1 & E1 & F1 & _).
  subst ix vx. unfold dot_dense. cbn [get nth_error bind].
  etransitivity; [apply (@dense_loop_ok cap1 (length l) ji1 jv1 x lo hi l HX [] n0 S1)|].
  rewrite lsum_sumn by auto. f_equal. unfold n0. simpl. lra.
Qed.

(** ** Rows of a matrix. *)
Definition drop (x : R) : R := if dropped x then 0 else x.

Lemma set_entry_R v row val : well_formed v -> v <> None ->
  exists v', set_entry row val v = Ok v' /\ well_formed v' /\ v' <> None /\
    forall r, entry v' r = if Nat.eqb row r then drop val else entry v r.
Proof.
  intros W N. destruct (wf_rep _ W) as [l Rl].
  destruct (set_entry_ok row val Rl) as (v' & l' & E & R' & U & Z).
  exists v'. split; auto. split; [eapply rep_wf; eauto|]. split; [tauto|].
  intros r. rewrite (entry_lval _ R'), (entry_lval _ Rl). unfold lval. rewrite U.
  destruct (Nat.eqb row r); auto. unfold drop. change (tiny val) with (dropped val). destruct (dropped val); reflexivity.
Qed.

Lemma get_entry_R (v : @svec R) row : well_formed v -> v <> None -> get_entry row v = Ok (entry v row).
Proof. intros W N. destruct (wf_rep _ W) as [l Rl]. now rewrite (get_entry_ok row Rl N), (entry_lval _ Rl). Qed.

Lemma wf_entry (v : @svec R) r : well_formed v -> entry v r = 0 \/ dropped (entry v r) = false.
Proof.
  intros W. destruct (wf_rep _ W) as [l Rl]. rewrite (entry_lval _ Rl). unfold lval.
  destruct (lookup l r) as [x|] eqn:E; [right|left; reflexivity].
  apply lookup_some_in in E. destruct Rl as (_ & NZ & _). rewrite Forall_forall in NZ. exact (NZ _ E).
Qed.

Lemma row_get n A i : matrix_ok n A -> (i < n)%nat ->
  exists v, get A i = Ok v /\ well_formed v /\ v <> None /\ forall c, mentry A i c = entry v c.
Proof.
  intros [L W] Hi. destruct (@nth_error_lt _ A i) as [v Hv]; [lia|].
  exists v. rewrite (get_some Hv). destruct (W _ _ Hv). repeat split; auto. intros c. unfold mentry. now rewrite Hv.
Qed.

Lemma row_set n A i v : matrix_ok n A -> (i < n)%nat -> well_formed v -> v <> None ->
  exists A', set A i v = Ok A' /\ matrix_ok n A' /\
    forall r c, mentry A' r c = if Nat.eqb r i then entry v c else mentry A r c.
Proof.
  intros [L W] Hi Wv N. exists (upd A i v). rewrite set_Ok by lia. split; auto. split.
  - split; [now rewrite upd_length|]. intros r w. rewrite upd_nth.
    destruct ((r =? i) && (i <? length A)); [intros K; inversion K; subst; auto|apply W].
  - intros r c. unfold mentry. rewrite upd_nth. destruct (Nat.eqb r i) eqn:E; simpl; auto.
    destruct (Nat.ltb i (length A)) eqn:E2; [reflexivity|lia].
Qed.

(** Setting one entry of a matrix. *)
Lemma mat_set n A i c val v : matrix_ok n A -> (i < n)%nat -> get A i = Ok v ->
  exists v' A', set_entry c val v = Ok v' /\ set A i v' = Ok A' /\ matrix_ok n A' /\
    forall r d, mentry A' r d = if Nat.eqb r i && Nat.eqb d c then drop val else mentry A r d.
Proof.
  intros M Hi Hv. destruct (row_get M Hi) as (w & Ew & Ww & Nw & Mw). rewrite Ew in Hv. inversion Hv; subst w.
  destruct (@set_entry_R v c val) as (v' & E1 & W' & N' & U); auto.
  destruct (@row_set n A i v') as (A' & E2 & M' & U'); auto.
  exists v', A'. split; auto. split; auto. split; auto.
  intros r d. rewrite U'. destruct (Nat.eqb r i) eqn:E; simpl; auto. rewrite U, (Nat.eqb_sym c d).
  apply Nat.eqb_eq in E. subst r. destruct (Nat.eqb d c); auto.
Qed.

Lemma dot_rows n A i j : matrix_ok n A -> (i < n)%nat -> (j < n)%nat -> forall vi vj, get A i = Ok vi -> get A j = Ok vj -> forall m,
  (if Nat.ltb 0 m then dot_sparse vi vj 0 (m - 1) else Ok n0) = Ok (sumn m (fun k => mentry A i k * mentry A j k)).
Proof.
  intros M Hi Hj vi vj Ei Ej m.
  destruct (row_get M Hi) as (w & Ew & Ww & Nw & Mw). rewrite Ew in Ei. inversion Ei; subst w.
  destruct (row_get M Hj) as (u & Eu & Wu & Nu & Mu). rewrite Eu in Ej. inversion Ej; subst u.
  destruct (Nat.ltb 0 m) eqn:E.
  - rewrite dot_sparse_ok by auto. replace (m - 1 + 1 - 0)%nat with m by lia. f_equal. apply sumn_ext. intros k _.
    simpl. now rewrite Mw, Mu.
  - assert (m = 0)%nat by lia. subst m. rewrite sumn_0. reflexivity.
Qed.

Definition quot (A0 L : nat -> nat -> R) (r c : nat) : R := (A0 r c - sumn c (fun k => L c k * L r k)) / L c c.

Lemma chol_row_ok n i lii j A : matrix_ok n A -> (i < n)%nat -> (j < n)%nat ->
  exists A', chol_row i lii j A = Ok A' /\ matrix_ok n A' /\
    forall r c, mentry A' r c = if Nat.eqb r j && Nat.eqb c i
       then drop ((mentry A j i - sumn i (fun k => mentry A i k * mentry A j k)) / lii) else mentry A r c.
Proof.
  intros M Hi Hj. unfold chol_row.
  destruct (row_get M Hi) as (vi & Ei & Wi & Ni & Mi). destruct (row_get M Hj) as (vj & Ej & Wj & Nj & Mj).
  rewrite Ei, Ej. cbn [bind]. rewrite (dot_rows M Hi Hj Ei Ej i). cbn [bind].
  rewrite get_entry_R by auto. cbn [bind]. rewrite <- Mj.
  destruct (@mat_set n A j i (((mentry A j i - sumn i (fun k => (mentry A i k * mentry A j k)%R)) / lii)%num) vj M Hj Ej)
    as (v' & A' & E1 & E2 & M' & U).
  rewrite E1. cbn [bind]. rewrite E2. exists A'. split; [reflexivity|]. split; [exact M'|]. exact U.
Qed.

Record chol_inv (n : nat) (A0 : nat -> nat -> R) (i : nat) (A : @smat R) : Prop := {
  ci_ok : matrix_ok n A;
  ci_old : forall r c, (i <= c)%nat \/ (r < c)%nat -> mentry A r c = A0 r c;
  ci_piv : forall c, (c < i)%nat -> 1 / 10 ^ 10 <= A0 c c - sumn c (fun k => mentry A c k * mentry A c k) /\
                     mentry A c c = sqrt (A0 c c - sumn c (fun k => mentry A c k * mentry A c k));
  ci_low : forall r c, (c < i)%nat -> (c < r < n)%nat -> mentry A r c = drop (quot A0 (mentry A) r c)
}.

Lemma nlit10 : @nlit R _ 1 10 = 1 / 10 ^ 10.
Proof. unfold nlit. simpl. lra. Qed.
Lemma nlit12 : @nlit R _ 1 12 = 1 / 10 ^ 12.
Proof. unfold nlit. simpl. lra. Qed.
Lemma dropped_iff (x : R) : dropped x = true <-> Rabs x < 1 / 10 ^ 12.
Proof. unfold dropped. rewrite nlit12. simpl. unfold Rltb. destruct (Rlt_dec _ _); split; intros; auto; try lra; try discriminate. Qed.
Lemma drop_err x : Rabs (x - drop x) <= 1 / 10 ^ 12.
Proof.
  unfold drop. destruct (dropped x) eqn:E.
  - apply dropped_iff in E. rewrite Rminus_0_r. lra.
  - replace (x - x) with 0 by lra. rewrite Rabs_R0. lra.
Qed.
Lemma drop_nz x : drop x <> 0 -> drop x = x.
Proof. unfold drop. destruct (dropped x); congruence. Qed.
Lemma drop_idem x : drop (drop x) = drop x.
Proof.
  unfold drop. destruct (dropped x) eqn:E; [|now rewrite E].
  destruct (dropped 0); auto.
Qed.
Lemma pivot_sqrt x : 1 / 10 ^ 10 <= x -> 1 / 10 ^ 5 <= sqrt x.
Proof.
  intros H. replace (1 / 10 ^ 5) with (sqrt (1 / 10 ^ 10)).
  - apply sqrt_le_1_alt. auto.
  - replace (1 / 10 ^ 10) with ((1 / 10 ^ 5) * (1 / 10 ^ 5)) by lra. apply sqrt_square. lra.
Qed.
Lemma drop_big x : 1 / 10 ^ 5 <= x -> drop x = x.
Proof.
  intros H. unfold drop. destruct (dropped x) eqn:E; auto. apply dropped_iff in E. rewrite Rabs_pos_eq in E; lra.
Qed.

Lemma chol_loop_ok n A0 : forall m i A, (i + m = n)%nat -> chol_inv n A0 i A ->
  (chol_loop m i n A = Ok None /\ exists i' A', (i' < n)%nat /\ chol_inv n A0 i' A' /\
     A0 i' i' - sumn i' (fun k => mentry A' i' k * mentry A' i' k) < 1 / 10 ^ 10) \/
  exists A', chol_loop m i n A = Ok (Some A') /\ chol_inv n A0 n A'.
Proof.
  induction m as [|m IH]; intros i A Hn I0.
  - right. exists A. split; auto. assert (i = n) by lia. subst i. exact I0.
  - cbn [chol_loop]. pose proof I0 as [M OLD PIV LOW].
    assert (Hi : (i < n)%nat) by lia.
    destruct (row_get M Hi) as (vi & Ei & Wi & Ni & Mi). rewrite Ei. cbn [bind].
    rewrite (dot_rows M Hi Hi Ei Ei i). cbn [bind]. rewrite get_entry_R by auto. cbn [bind]. rewrite <- Mi.
    rewrite nlit10. destruct (nltb _ _) eqn:C.
    { left. split; auto. exists i, A. split; auto. split; auto. rewrite <- (OLD i i) by lia.
      revert C. simpl. unfold Rltb. destruct (Rlt_dec _ _); [|discriminate]. auto. }
    assert (P : 1 / 10 ^ 10 <= mentry A i i - sumn i (fun k => mentry A i k * mentry A i k)).
    { revert C. simpl. unfold Rltb. destruct (Rlt_dec _ _); [discriminate|]. intros _. lra. }
    clear C. change (nsqrt ?x) with (sqrt x). change (nsub ?x ?y) with (x - y).
    set (lii := sqrt (mentry A i i - sumn i (fun k => mentry A i k * mentry A i k))).
    assert (Pl : 1 / 10 ^ 5 <= lii) by (apply pivot_sqrt; auto).
    destruct (@mat_set n A i i lii vi M Hi Ei) as (v' & A1 & E1 & E2 & M1 & U1).
    cbv zeta. rewrite E1. cbn [bind]. rewrite E2. cbn [bind].
    rewrite (drop_big Pl) in U1.
    (* the column loop *)
    destruct (@for_res_inv _ (fun j B => matrix_ok n B /\ forall r c, mentry B r c =
        if Nat.eqb c i && Nat.ltb i r && Nat.ltb r j then drop ((mentry A r i - sumn i (fun k => mentry A i k * mentry A r k)) / lii)
        else mentry A1 r c) (n - (i + 1)) (i + 1) (chol_row i lii) A1) as (A2 & E3 & M2 & U2).
    { split; auto. intros r c. destruct (Nat.eqb c i && Nat.ltb i r && Nat.ltb r (i + 1)) eqn:E; auto. lia. }
    { intros j B Hj (MB & UB). destruct (@chol_row_ok n i lii j B MB Hi ltac:(lia)) as (B' & EB & MB' & UB').
      exists B'. split; auto. split; auto. intros r c. rewrite UB'.
      destruct (Nat.eqb r j && Nat.eqb c i) eqn:E.
      - assert (r = j /\ c = i) as [-> ->] by lia.
        destruct (Nat.eqb i i && Nat.ltb i j && Nat.ltb j (S j)) eqn:E'; [|lia]. f_equal. f_equal. f_equal.
        + rewrite UB. destruct (Nat.eqb i i && Nat.ltb i j && Nat.ltb j j) eqn:E4; [lia|].
          rewrite U1. destruct (Nat.eqb j i && Nat.eqb i i) eqn:E5; [lia|auto].
        + apply sumn_ext. intros k Hk. rewrite !UB.
          destruct (Nat.eqb k i && Nat.ltb i i && Nat.ltb i j) eqn:E4; [lia|].
          destruct (Nat.eqb k i && Nat.ltb i j && Nat.ltb j j) eqn:E5; [lia|]. rewrite !U1.
          destruct (Nat.eqb i i && Nat.eqb k i) eqn:E6; [lia|].
          destruct (Nat.eqb j i && Nat.eqb k i) eqn:E7; [lia|]. auto.
      - rewrite UB. destruct (Nat.eqb c i && Nat.ltb i r && Nat.ltb r j) eqn:E4,
          (Nat.eqb c i && Nat.ltb i r && Nat.ltb r (S j)) eqn:E5; auto; lia. }
    rewrite E3. cbn [bind].
    replace (i + 1 + (n - (i + 1)))%nat with n in U2 by lia.
    assert (SAME : forall r c, (c < i)%nat -> mentry A2 r c = mentry A r c).
    { intros r c Hc. rewrite U2. destruct (Nat.eqb c i && Nat.ltb i r && Nat.ltb r n) eqn:E; [lia|]. rewrite U1.
      destruct (Nat.eqb r i && Nat.eqb c i) eqn:E'; [lia|auto]. }
    assert (SUM : forall r c m, (m <= i)%nat -> sumn m (fun k => mentry A2 r k * mentry A2 c k) = sumn m (fun k => mentry A r k * mentry A c k)).
    { intros r c m' Hm. apply sumn_ext. intros k Hk. rewrite !SAME by lia. auto. }
    assert (DI : mentry A2 i i = lii).
    { rewrite U2. destruct (Nat.eqb i i && Nat.ltb i i && Nat.ltb i n) eqn:E; [lia|]. rewrite U1.
      destruct (Nat.eqb i i && Nat.eqb i i) eqn:E'; [auto|lia]. }
    apply IH; [lia|]. constructor; auto.
    + intros r c Hc. rewrite U2. destruct (Nat.eqb c i && Nat.ltb i r && Nat.ltb r n) eqn:E; [lia|]. rewrite U1.
      destruct (Nat.eqb r i && Nat.eqb c i) eqn:E'; [lia|]. apply OLD. lia.
    + intros c Hc. rewrite SUM by lia. destruct (Nat.eq_dec c i) as [->|Hne].
      * rewrite DI. rewrite <- (OLD i i) by lia. split; auto.
      * rewrite SAME by lia. apply PIV. lia.
    + intros r c Hc Hr. unfold quot. rewrite SUM by lia. destruct (Nat.eq_dec c i) as [->|Hne].
      * rewrite DI, U2. destruct (Nat.eqb i i && Nat.ltb i r && Nat.ltb r n) eqn:E; [|lia].
        rewrite (OLD r i) by lia. reflexivity.
      * rewrite !SAME by lia. apply LOW; lia.
Qed.
