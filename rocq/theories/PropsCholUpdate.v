(** C81, C82: adding a row to a Cholesky factorization and the rank-one update. *)
From Coq Require Import Floats Reals Lra Psatz.
From Verif Require Import Base Num Vec Sparse SparseSpec SparseProofs SparseDotProofs SparseCholProofs CholUpdate CholUpdateSpec CholUpdateProofs CholRankProofs.
Local Open Scope R_scope.

(** The factor bordered by the row s with diagonal d. *)
Lemma border_factors n C A A' (a : @svec R) s d : stored_factor n C -> factors n n A (factor_of n C) ->
  (forall r c, (r < n)%nat -> (c < n)%nat -> A' r c = A r c) -> (forall c, (c <= n)%nat -> A' n c = entry a c) -> solved C a n s ->
  let L := fun r c => if Nat.eqb r n then (if Nat.ltb c n then s c else if Nat.eqb c n then d else 0) else factor_of n C r c in
  (d = 0 -> factors (S n) n A' L) /\
  (1 / 10 ^ 5 <= d -> entry a n - sumn n (fun k => s k * s k) = d * d -> factors (S n) (S n) A' L).
Proof.
  intros SF (FZ & FD & FX) HA Ha (SZ & Ss) L.
  assert (Lr : forall r c, (r < n)%nat -> L r c = factor_of n C r c) by (intros r c Hr; unfold L; destruct (Nat.eqb r n) eqn:E; [lia|auto]).
  assert (Ln : forall c, (c < n)%nat -> L n c = s c) by (intros c Hc; unfold L; rewrite Nat.eqb_refl; destruct (Nat.ltb c n) eqn:E; [auto|lia]).
  assert (Lo : forall r c, (r < n)%nat -> (c < n)%nat -> llt (S n) L r c = llt n (factor_of n C) r c).
  { intros r c Hr Hc. unfold llt. rewrite sumn_S. rewrite (Lr r n), (FZ r n) by lia. rewrite Rmult_0_l, Rplus_0_r. apply sumn_ext. intros k Hk. now rewrite !Lr. }
  assert (Old : forall r c, (c <= r < n)%nat -> (Rabs (A' r c - llt (S n) L r c) <= 1 / 10 ^ 12 * L c c)%R /\ (L r c <> 0%R -> A' r c = llt (S n) L r c)).
  { intros r c Hc. rewrite Lo, HA, !Lr by lia. apply FX; lia. }
  assert (New : forall c, (c < n)%nat -> (Rabs (A' n c - llt (S n) L n c) <= 1 / 10 ^ 12 * L c c)%R /\ (L n c <> 0%R -> A' n c = llt (S n) L n c)).
  { intros c Hc. pose proof (sf_diag SF Hc) as Dc. rewrite Ha by lia. rewrite Ln, Lr by lia. set (D := mentry C c c) in *.
    assert (ED : factor_of n C c c = D). { unfold factor_of, lower. destruct (Nat.ltb c n) eqn:E; [|lia]. now rewrite Nat.leb_refl. }
    assert (El : llt (S n) L n c = sumn c (fun k => mentry C c k * s k) + D * s c).
    { unfold llt. replace (S n) with ((S c) + (n - c))%nat by lia. rewrite (@sumn_trunc _ (S c)); [|lia|].
      - rewrite sumn_S, Ln, Lr, ED by lia. rewrite (Rmult_comm (s c)). f_equal. apply sumn_ext. intros k Hk. rewrite Ln, Lr by lia.
        unfold factor_of, lower. destruct (Nat.ltb k n) eqn:E1; [|lia]. destruct (Nat.leb k c) eqn:E2; [|lia]. lra.
      - intros k Hk. rewrite (Lr c k) by lia. rewrite (FZ c k) by lia. lra. }
    rewrite El, ED. specialize (Ss c Hc). fold D in Ss. set (q := (entry a c - sumn c (fun k => mentry C c k * s k)) / D) in *.
    assert (Eq : entry a c = sumn c (fun k => mentry C c k * s k) + D * q) by (unfold q; field; lra).
    rewrite Eq. split.
    - replace (_ - _) with ((q - s c) * D) by ring. rewrite Rabs_mult, (Rabs_pos_eq D) by lra. apply Rmult_le_compat_r; [lra|]. rewrite Ss. apply drop_err.
    - intros N. rewrite Ss in *. now rewrite (@drop_nz q N). }
  split.
  - intros ->. split; [|split].
    + intros r c H. unfold L. destruct (Nat.eqb r n) eqn:E; [|apply FZ; lia]. destruct (Nat.ltb c n) eqn:E1; [lia|]. now destruct (Nat.eqb c n).
    + intros c Hc. rewrite Lr by lia. apply FD. auto.
    + intros r c Hc Hr. destruct (Nat.eq_dec r n) as [->|]; [apply New; auto|apply Old; lia].
  - intros Hd Hp. assert (Lnn : L n n = d). { unfold L. rewrite Nat.eqb_refl. destruct (Nat.ltb n n) eqn:E; [lia|auto]. } split; [|split].
    + intros r c H. unfold L. destruct (Nat.eqb r n) eqn:E.
      * destruct (Nat.ltb c n) eqn:E1; [lia|]. destruct (Nat.eqb c n) eqn:E2; [lia|auto].
      * destruct (le_lt_dec n c); [apply FZ; lia|]. apply FZ. lia.
    + intros c Hc. destruct (Nat.eq_dec c n) as [->|]; [now rewrite Lnn|]. rewrite Lr by lia. apply FD. lia.
    + intros r c Hc Hr. destruct (Nat.eq_dec r n) as [->|]; [|apply Old; lia]. destruct (Nat.eq_dec c n) as [->|]; [|apply New; lia].
      assert (E : A' n n = llt (S n) L n n).
      { rewrite Ha by lia. unfold llt. rewrite sumn_S, Lnn. rewrite (@sumn_ext n _ (fun k => s k * s k)) by (intros; rewrite Ln by lia; auto). lra. }
      split; auto. rewrite E, Lnn. replace (_ - _) with 0 by ring. rewrite Rabs_R0. lra.
Qed.

(** ** C81: given the stored factor of A and a new row, the call either reports failure, and then
    the last pivot of the bordered matrix is below 1e-10; or it returns a stored factor with one
    more row, the old part unchanged, that factors the bordered matrix in the same sense as the
    factorization itself (C17).  There is no undefined behaviour. *)
Theorem C81_add_row n C A A' a : stored_factor n C -> factors n n A (factor_of n C) -> well_formed a -> a <> None ->
  (forall r c, (r < n)%nat -> (c < n)%nat -> A' r c = A r c) -> (forall c, (c <= n)%nat -> A' n c = entry a c) ->
  (add_row n C a = Ok None /\ exists L, factors (S n) n A' L /\ A' n n - llt (S n) L n n < 1 / 10 ^ 10) \/
  exists C', add_row n C a = Ok (Some C') /\ stored_factor (S n) C' /\
    (forall r c, (r < n)%nat -> (c < n)%nat -> mentry C' r c = mentry C r c) /\
    factors (S n) (S n) A' (factor_of (S n) C').
Proof.
  intros SF Fa Wa Na HA Ha.
  assert (Nar : forall i j, (n <= j)%nat -> mentry C i j = 0).
  { intros i j Hj. destruct (lt_dec i n) as [Hi|Hi]; [apply SF; auto|]. unfold mentry. destruct SF as [[Lc _] _ _ _]. assert (E : nth_error C i = None) by (apply nth_error_None; lia). now rewrite E. }
  destruct (@add_row_ok n C a (sf_ok SF) Wa Na Nar) as (s & Hs & [(E & Hp)|(Hp & C' & E & M' & V)]).
  - left. split; auto. destruct (@border_factors n C A A' a s 0 SF Fa HA Ha Hs) as (F1 & _). specialize (F1 eq_refl). eexists. split; [exact F1|].
    rewrite Ha by lia. unfold llt. rewrite sumn_S. rewrite Nat.eqb_refl. destruct (Nat.ltb n n) eqn:E1; [lia|].
    rewrite (@sumn_ext n _ (fun k => s k * s k)); [lra|]. intros k Hk. destruct (Nat.ltb k n) eqn:E2; [auto|lia].
  - right. exists C'. split; auto. set (p := entry a n - sumn n (fun k => s k * s k)) in *.
    pose proof (pivot_sqrt Hp) as P5. destruct Hs as (Sz & Ss).
    assert (Vo : forall r c, (r < n)%nat -> (c < n)%nat -> mentry C' r c = mentry C r c).
    { intros r c Hr Hc. rewrite V by lia. destruct (Nat.eqb r n) eqn:E1; [lia|]. destruct (Nat.eqb c n) eqn:E2; [lia|auto]. }
    assert (Vn : forall c, (c < n)%nat -> mentry C' n c = s c). { intros c Hc. rewrite V, Nat.eqb_refl by lia. destruct (Nat.eqb c n) eqn:E2; [lia|auto]. }
    assert (Vt : forall r, (r < n)%nat -> mentry C' r n = s r). { intros r Hr. rewrite V, Nat.eqb_refl by lia. destruct (Nat.eqb r n) eqn:E2; [lia|auto]. }
    assert (Vd : mentry C' n n = R_sqrt.sqrt p). { rewrite V, Nat.eqb_refl by lia. auto. }
    split; [|split; auto].
    + split; auto.
      * intros r c Hr Hc. destruct (Nat.eq_dec r n) as [->|]; [destruct (Nat.eq_dec c n) as [->|]; auto; rewrite Vn, Vt by lia; auto|].
        destruct (Nat.eq_dec c n) as [->|]; [rewrite Vn, Vt by lia; auto|]. rewrite !Vo by lia. apply SF; lia.
      * intros r c Hr Hc. rewrite V by lia. destruct (Nat.eqb r n) eqn:E1, (Nat.eqb c n) eqn:E2; try lia; [apply Sz; lia|apply Nar; lia].
      * intros j Hj. destruct (Nat.eq_dec j n) as [->|]; [rewrite Vd; auto|]. rewrite Vo by lia. apply SF. lia.
    + destruct (@border_factors n C A A' a s (R_sqrt.sqrt p) SF Fa HA Ha (conj Sz Ss)) as (_ & F1).
      specialize (F1 P5). rewrite sqrt_sqrt in F1 by lra. specialize (F1 eq_refl). eapply factors_ext; [| |lia|exact F1].
      * intros r c Hr Hc. cbv beta. unfold factor_of, lower. destruct (Nat.ltb c (S n)) eqn:E0; [|lia]. destruct (Nat.eqb r n) eqn:E1.
        -- apply Nat.eqb_eq in E1. subst r. destruct (Nat.leb c n) eqn:E2; [|lia]. destruct (Nat.ltb c n) eqn:E3; [rewrite Vn by lia; auto|]. destruct (Nat.eqb c n) eqn:E4; [|lia]. apply Nat.eqb_eq in E4. subst c. auto.
        -- destruct (Nat.ltb c n) eqn:E3; [destruct (Nat.leb c r) eqn:E2; auto; rewrite Vo by lia; auto|]. destruct (Nat.leb c r) eqn:E2; [lia|auto].
      * intros r c H. unfold factor_of, lower. destruct (Nat.ltb c (S n)) eqn:E0; auto. destruct (Nat.leb c r) eqn:E2; [lia|auto].
Qed.

(** ** C82: the rank-one update of a stored factor with room in its rows has no undefined
    behaviour and returns a stored factor C' whose diagonal is at least the old one; L' L'^T is
    L L^T + x x^T up to the entries below 1e-12 that are dropped on the way: with the rows of
    (L, x) of length at most B, the error is at most n (4 eps B + 8 n eps^2 + 2 eps^2). *)
Theorem C82_rank_one n C x B : stored_factor n C -> roomy n C -> well_formed x -> (forall j, (n <= j)%nat -> entry x j = 0) ->
  0 <= B -> (forall r, (r < n)%nat -> llt n (lower (mentry C)) r r + entry x r * entry x r <= B * B) ->
  exists C' x', rank_one n C x = Ok (C', x') /\ stored_factor n C' /\ roomy n C' /\
    (forall j, (j < n)%nat -> mentry C j j <= mentry C' j j) /\
    forall r j, (r < n)%nat -> (j < n)%nat ->
      Rabs (llt n (lower (mentry C')) r j - (llt n (lower (mentry C)) r j + entry x r * entry x j))
        <= INR n * (1 / 10 ^ 12 * (4 * B) + (1 / 10 ^ 12) ^ 2 * (8 * INR n + 2)).
Proof.
  intros SF Ro Wx Nx HB HQ.
  assert (G : good n C).
  { destruct (sf_ok SF) as [Lc Wc]. split; auto. intros i v Hv. destruct (Wc i v Hv). split; auto. split; auto. specialize (Ro i v Hv). destruct v as [[ix vx]|]; [exact Ro|congruence]. }
  destruct (@rank_one_ok n C x B G (sf_sym SF) (sf_narrow SF) (sf_diag SF) Wx Nx HB HQ) as (C' & x' & E & G' & Sy & Na & Di & Q).
  exists C', x'. split; auto. split; [split; auto|split; [|split; auto]].
  - apply good_ok. auto.
  - intros j Hj. pose proof (sf_diag SF Hj). specialize (Di j Hj). lra.
  - intros i v Hv. destruct G' as [_ G']. destruct (G' i v Hv) as (N & _ & K). destruct v as [[ix vx]|]; [exact K|congruence].
  - intros r j Hr Hj. eapply Rle_trans; [apply Q; auto|]. apply Req_le. unfold Ebound, eps. ring.
Qed.

(** A concrete factor and vectors. *)
Definition dvec (a b : R) : @svec R := Some (10 :: 2 :: 0 :: 1 :: repeat 0 8, [a; b] ++ repeat 0%R 8)%nat.
Lemma dvec_ok a b : 1 <= a -> 1 <= b -> rep (dvec a b) [(0%nat, a); (1%nat, b)].
Proof.
  assert (Big : forall x : R, 1 <= x -> dropped x = false). { intros x Hx. destruct (dropped x) eqn:E; auto. apply dropped_iff in E. rewrite Rabs_pos_eq in E; lra. }
  intros Ha Hb. split; [repeat constructor|]. split; [repeat constructor; cbn [snd]; auto|]. exists 10%nat, (repeat 0%nat 8), (repeat 0%R 8). repeat split; cbn; lia.
Qed.
Definition ex_factor : @smat R := [dvec 2 1; dvec 1 3].
Lemma ex_entry a b j : 1 <= a -> 1 <= b -> entry (dvec a b) j = match j with 0%nat => a | 1%nat => b | _ => 0 end.
Proof. intros Ha Hb. rewrite (entry_lval j (dvec_ok Ha Hb)). destruct j as [|[|j]]; reflexivity. Qed.
Lemma ex_stored : stored_factor 2 ex_factor.
Proof.
  assert (E : forall r c, (r < 2)%nat -> mentry ex_factor r c = match r, c with 0%nat, 0%nat => 2 | 0%nat, 1%nat => 1 | 1%nat, 0%nat => 1 | 1%nat, 1%nat => 3 | _, _ => 0 end).
  { intros r c Hr. unfold mentry, ex_factor. destruct r as [|[|r]]; [| |lia]; cbn [nth_error]; rewrite ex_entry by lra; destruct c as [|[|c]]; reflexivity. }
  split.
  - split; auto. intros [|[|[|i]]] v; cbn [nth_error ex_factor]; intros K; inversion K; subst; (split; [discriminate|]); eapply rep_wf, dvec_ok; lra.
  - intros [|[|r]] [|[|c]] Hr Hc; try lia; rewrite !E by lia; reflexivity.
  - intros [|[|r]] [|[|c]] Hr Hc; try lia; rewrite !E by lia; reflexivity.
  - intros [|[|j]] Hj; try lia; rewrite E by lia; lra.
Qed.
Lemma ex_roomy : roomy 2 ex_factor.
Proof. intros [|[|[|i]]] v; cbn [nth_error ex_factor]; intros K; inversion K; subst; cbn; lia. Qed.

(** Every stored factor factors its own L L^T, so the hypotheses of C81 hold for the factor
    with rows (2, 1) and (1, 3) and a new row (4, 5). *)
Example C81_hypotheses : stored_factor 2 ex_factor /\
  factors 2 2 (llt 2 (factor_of 2 ex_factor)) (factor_of 2 ex_factor) /\ well_formed (dvec 4 5) /\ dvec 4 5 <> None.
Proof.
  split; [exact ex_stored|]. split; [|split; [eapply rep_wf, dvec_ok; lra|discriminate]].
  assert (D : forall c, (c < 2)%nat -> 1 / 10 ^ 5 <= factor_of 2 ex_factor c c).
  { intros c Hc. unfold factor_of, lower. destruct (Nat.ltb c 2) eqn:E; [|lia]. rewrite Nat.leb_refl. apply (sf_diag ex_stored Hc). }
  split; [|split; [exact D|]].
  - intros r c H. unfold factor_of, lower. destruct (Nat.ltb c 2) eqn:E1; auto. destruct (Nat.leb c r) eqn:E2; auto. lia.
  - intros r c Hc Hr. split; auto. replace (_ - _) with 0 by ring. rewrite Rabs_R0. specialize (D c Hc). lra.
Qed.
Example C82_hypotheses : stored_factor 2 ex_factor /\ roomy 2 ex_factor /\ well_formed (dvec 4 5) /\
  (forall j, (2 <= j)%nat -> entry (dvec 4 5) j = 0) /\
  forall r, (r < 2)%nat -> llt 2 (lower (mentry ex_factor)) r r + entry (dvec 4 5) r * entry (dvec 4 5) r <= 10 * 10.
Proof.
  split; [exact ex_stored|]. split; [exact ex_roomy|]. split; [eapply rep_wf, dvec_ok; lra|]. split.
  - intros [|[|j]] Hj; try lia. now rewrite ex_entry by lra.
  - intros r Hr. unfold llt. rewrite !sumn_S, sumn_0. unfold lower, mentry, ex_factor. destruct r as [|[|r]]; [| |lia]; cbn [Nat.leb nth_error]; rewrite !ex_entry by lra; lra.
Qed.

(** Runs in binary64: the factor of ((4, 2), (2, 10)) gets the row (2, 4, 11); and the vector
    (0, 4) is added to the factor with rows (2, 1), (1, 3). *)
Definition fvec (l : list PrimFloat.float) : res (@svec PrimFloat.float) :=
  fold_left (fun v e => 'w <- v ;; set_entry (fst e) (snd e) w) (combine (seq 0 (length l)) l) (Ok None).
Definition fmat (l : list (list PrimFloat.float)) : res (@smat PrimFloat.float) :=
  fold_left (fun m r => 'a <- m ;; 'v <- fvec r ;; Ok (a ++ [v])) l (Ok []).
Definition frows (C : @smat PrimFloat.float) : list (list PrimFloat.float) :=
  map (fun v => map (fun j => match get_entry j v with Ok x => x | _ => PrimFloat.nan end) (seq 0 (length C))) C.
Example C81_run : ('C <- fmat [[2; 1]; [1; 3]]%float ;; 'a <- fvec [2; 4; 11]%float ;; 'o <- add_row 2 C a ;; Ok (option_map frows o))
  = Ok (Some [[2; 1; 1]; [1; 3; 1]; [1; 1; 3]]%float).
Proof. vm_compute. reflexivity. Qed.
Example C82_run : ('C <- fmat [[2; 1]; [1; 3]]%float ;; 'x <- fvec [0; 4]%float ;; '(C', _) <- rank_one 2 C x ;; Ok (frows C'))
  = Ok [[2; 1]; [1; 5]]%float.
Proof. vm_compute. reflexivity. Qed.

(** Room in the rows is needed: with ten rows, all ten places of the last row are in use, and the
    search for the entry behind the diagonal reads one place further (line 302).  The factor is
    the one the code computes for the matrix with 11 on the diagonal and 1 elsewhere. *)
Theorem C82_full_row_refuted : exists A C x, length A = 10%nat /\ @cholesky PrimFloat.float _ 10 A = Ok (Some C) /\ rank_one 10 C x = UB.
Proof.
  assert (E : match fmat (map (fun i => map (fun j => if Nat.eqb i j then 11 else 1)%float (seq 0 10)) (seq 0 10)) with
    | Ok A => match @cholesky PrimFloat.float _ 10 A, fvec [0; 0; 0; 0; 0; 0; 0; 0; 0; 1]%float with
              | Ok (Some C), Ok x => Nat.eqb (length A) 10 && (match rank_one 10 C x with UB => true | _ => false end)
              | _, _ => false end
    | _ => false end = true) by (vm_compute; reflexivity).
  destruct (fmat _) as [A| |]; try discriminate. destruct (cholesky 10 A) as [[C|]| |] eqn:Ec; try discriminate. destruct (fvec _) as [x| |]; try discriminate.
  apply andb_true_iff in E as [E1 E2]. exists A, C, x. split; [now apply Nat.eqb_eq|]. split; auto. destruct (rank_one 10 C x); try discriminate. reflexivity.
Qed.
(** A null row cannot be added: its first entry is read without a test (line 549). *)
Theorem C81_null_row_refuted : exists C : @smat PrimFloat.float, length C = 1%nat /\ add_row 1 C None = UB.
Proof.
  destruct (fmat [[2]]%float) as [C| |] eqn:E; try (vm_compute in E; discriminate). exists C. vm_compute in E. inversion E; subst. split; vm_compute; reflexivity.
Qed.

Print Assumptions C81_add_row.
Print Assumptions C81_null_row_refuted.
Print Assumptions C82_rank_one.
Print Assumptions C82_full_row_refuted.
