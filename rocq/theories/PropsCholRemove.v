(** C83: removing a row from a Cholesky factorization. *)
From Coq Require Import Floats Reals Lra Psatz.
From Verif Require Import Base Num Vec Sparse SparseSpec SparseProofs SparseDotProofs SparseCholProofs CholUpdate CholUpdateSpec CholUpdateProofs CholRankProofs CholRemoveProofs PropsCholUpdate.
Local Open Scope R_scope.

(** ** C83: removing row d from the stored factor of an n-row matrix, with fewer than ten rows
    below it, has no undefined behaviour and returns a stored factor with one row less.  Its
    L' L'^T is L L^T without row and column d: exactly, for the entries with a row or a column
    above d; up to the bound of the rank-one update (C82), for the entries below and right of d.
    For the last row there is nothing below, so the result is exact. *)
Theorem C83_remove_row n C d B : stored_factor n C -> (d < n)%nat -> (n - d - 1 < 10)%nat ->
  0 <= B -> (forall r, (r < n)%nat -> llt n (lower (mentry C)) r r <= B * B) ->
  exists C', remove_row n C d = Ok C' /\ stored_factor (n - 1) C' /\
    forall r j, (r < n - 1)%nat -> (j < n - 1)%nat ->
      let new := llt (n - 1) (lower (mentry C')) r j in
      let old := llt n (lower (mentry C)) (before_removal d r) (before_removal d j) in
      let m := INR (n - d - 1) in
      ((r < d)%nat \/ (j < d)%nat -> new = old) /\
      Rabs (new - old) <= m * (1 / 10 ^ 12 * (4 * B) + (1 / 10 ^ 12) ^ 2 * (8 * m + 2)).
Proof.
  intros SF Hd H10 HB HQ. destruct (@remove_row_ok n C d B SF Hd H10 HB HQ) as (C' & E & SF' & Q). exists C'. split; auto. split; auto.
  intros r j Hr Hj. cbv zeta. specialize (Q r j Hr Hj).
  pose proof (pos_INR (n - d - 1)) as Pm.
  destruct (Nat.ltb r d || Nat.ltb j d) eqn:X.
  - assert (K : forall x, Rabs x <= 0 -> x = 0). { intros x Hx. destruct (Req_dec x 0); auto. pose proof (Rabs_pos_lt x H). lra. }
    specialize (K _ Q). split; [intros _; lra|]. rewrite K, Rabs_R0. nra.
  - split; [intros [?|?]; lia|]. eapply Rle_trans; [exact Q|]. apply Req_le. unfold Ebound, eps. ring.
Qed.

(** Adding a row and removing it again gives back the entries of the factor. *)
Theorem C83_remove_undoes_add n C a C' : stored_factor n C -> well_formed a -> a <> None ->
  add_row n C a = Ok (Some C') ->
  exists C'', remove_row (S n) C' n = Ok C'' /\ stored_factor n C'' /\
    forall r c, (r < n)%nat -> mentry C'' r c = mentry C r c.
Proof.
  intros SF Wa Na E.
  set (A := factor_of n C). 
  assert (Fa : factors n n (llt n A) A).
  { assert (D : forall c, (c < n)%nat -> 1 / 10 ^ 5 <= A c c). { intros c Hc. unfold A, factor_of, lower. destruct (Nat.ltb c n) eqn:X; [|lia]. rewrite Nat.leb_refl. now apply SF. }
    split; [|split; [exact D|]].
    - intros r c H. unfold A, factor_of, lower. destruct (Nat.ltb c n) eqn:E1; auto. destruct (Nat.leb c r) eqn:E2; auto. lia.
    - intros r c Hc Hr. split; auto. replace (_ - _) with 0 by ring. rewrite Rabs_R0. specialize (D c Hc). lra. }
  destruct (@C81_add_row n C (llt n A) (fun r c => if Nat.ltb r n then llt n A r c else entry a c) a SF Fa Wa Na) as [(E1 & _)|(D & E1 & SFD & Old & _)].
  - intros r c Hr Hc. destruct (Nat.ltb r n) eqn:X; [auto|lia].
  - intros c Hc. destruct (Nat.ltb n n) eqn:X; [lia|auto].
  - congruence.
  - assert (D = C') by congruence. subst D. unfold remove_row. replace (S n - 1)%nat with n by lia. rewrite Nat.eqb_refl.
    destruct (@remove_last_ok (S n) n C' SFD ltac:(lia)) as (out & Eo & (W & V)). exists out. split; auto.
    assert (Vl : forall r c, (r < n)%nat -> mentry out r c = mentry C r c).
    { intros r c Hr. rewrite V by auto. destruct (Nat.ltb c n) eqn:X; [apply Old; lia|]. symmetry. apply SF; lia. }
    split; auto. split.
    + apply wf_full; auto. intros r Hr. exists r. rewrite Vl by auto. pose proof (@sf_diag _ _ SF r Hr). lra.
    + intros r c Hr Hc. rewrite !Vl by auto. now apply SF.
    + intros r c Hr Hc. rewrite Vl by auto. now apply SF.
    + intros j Hj. rewrite Vl by auto. now apply SF.
Qed.

(** The hypotheses hold for the factor with rows (2, 1), (1, 3), and removing its first row. *)
Example C83_hypotheses : stored_factor 2 ex_factor /\
  forall r, (r < 2)%nat -> llt 2 (lower (mentry ex_factor)) r r <= 4 * 4.
Proof.
  split; [exact ex_stored|]. intros r Hr. unfold llt. rewrite !sumn_S, sumn_0. unfold lower, mentry, ex_factor.
  destruct r as [|[|r]]; [| |lia]; cbn [Nat.leb nth_error]; rewrite !ex_entry by lra; lra.
Qed.

(** The row (2, 4, 100) can be added to that factor, and so be removed again. *)
Definition new_row : @svec R := Some ((10 :: 3 :: 0 :: 1 :: 2 :: repeat 0 7)%nat, [2; 4; 100] ++ repeat 0 7).
Example C83_undo_hypotheses : well_formed new_row /\ new_row <> None /\ exists C', add_row 2 ex_factor new_row = Ok (Some C').
Proof.
  assert (Big : forall x : R, 1 <= x -> dropped x = false). { intros x Hx. destruct (dropped x) eqn:E; auto. apply dropped_iff in E. rewrite Rabs_pos_eq in E; lra. }
  assert (Re : rep new_row [(0%nat, 2); (1%nat, 4); (2%nat, 100)]).
  { split; [repeat constructor|]. split; [repeat constructor; cbn [snd]; apply Big; lra|]. exists 10%nat, (repeat 0%nat 7), (repeat 0%R 7). repeat split; cbn; lia. }
  assert (W : well_formed new_row) by (eapply rep_wf; exact Re). split; auto. split; [discriminate|].
  assert (Nar : forall i j, (2 <= j)%nat -> mentry ex_factor i j = 0).
  { intros i j Hj. destruct (lt_dec i 2) as [Hi|Hi]; [apply ex_stored; auto|]. unfold mentry. assert (E : nth_error ex_factor i = None) by (apply nth_error_None; cbn; lia). now rewrite E. }
  destruct (@add_row_ok 2 ex_factor new_row (sf_ok ex_stored) W ltac:(discriminate) Nar) as (s & (_ & Hs) & [(E & Hp)|(Hp & C' & E & _)]); [exfalso|exists C'; exact E].
  pose proof (Hs 0%nat ltac:(lia)) as H0. pose proof (Hs 1%nat ltac:(lia)) as H1.
  assert (A0 : entry new_row 0 = 2) by (rewrite (entry_lval _ Re); reflexivity). assert (A1 : entry new_row 1 = 4) by (rewrite (entry_lval _ Re); reflexivity). assert (A2 : entry new_row 2 = 100) by (rewrite (entry_lval _ Re); reflexivity).
  assert (M0 : mentry ex_factor 0 0 = 2) by (unfold mentry, ex_factor; cbn [nth_error]; now rewrite ex_entry by lra).
  assert (M1 : mentry ex_factor 1 0 = 1) by (unfold mentry, ex_factor; cbn [nth_error]; now rewrite ex_entry by lra).
  assert (M2 : mentry ex_factor 1 1 = 3) by (unfold mentry, ex_factor; cbn [nth_error]; now rewrite ex_entry by lra).
  rewrite !sumn_S, sumn_0 in H1. rewrite !sumn_S, sumn_0 in Hp. rewrite sumn_0 in H0. rewrite A0, M0 in H0. rewrite A1, M1, M2 in H1. rewrite A2 in Hp. clear Hs.
  assert (S0 : s 0%nat = 1). { rewrite H0. unfold drop. match goal with |- (if dropped ?x then _ else _) = _ => replace x with 1 by lra end. rewrite (Big 1) by lra. reflexivity. }
  rewrite S0 in *. assert (S1 : s 1%nat = 1). { rewrite H1. unfold drop. match goal with |- (if dropped ?x then _ else _) = _ => replace x with 1 by lra end. rewrite (Big 1) by lra. reflexivity. }
  rewrite S1 in *. lra.
Qed.

(** Runs in binary64: the last, a middle and the first of three rows are removed. *)
Example C83_run_last : ('C <- fmat [[2; 1; 1]; [1; 3; 1]; [1; 1; 3]]%float ;; 'D <- remove_row 3 C 2 ;; Ok (frows D))
  = Ok [[2; 1]; [1; 3]]%float.
Proof. vm_compute. reflexivity. Qed.
Example C83_run_middle : ('C <- fmat [[2; 1; 1]; [1; 3; 4]; [1; 4; 3]]%float ;; 'D <- remove_row 3 C 1 ;; Ok (frows D))
  = Ok [[2; 1]; [1; 5]]%float.
Proof. vm_compute. reflexivity. Qed.
Example C83_run_first : ('C <- fmat [[2; 4; 0]; [4; 3; 7]; [0; 7; 6]]%float ;; 'D <- remove_row 3 C 0 ;; Ok (length D))
  = Ok 2%nat.
Proof. vm_compute. reflexivity. Qed.

(** The bound on the rows below is needed: removing the first of eleven rows of the factor that the
    code computes for the matrix with 12 on the diagonal and 1 elsewhere reads out of bounds. *)
Theorem C83_full_rows_refuted : exists A C, length A = 11%nat /\ @cholesky PrimFloat.float _ 11 A = Ok (Some C) /\ remove_row 11 C 0 = UB.
Proof.
  assert (E : match fmat (map (fun i => map (fun j => if Nat.eqb i j then 12 else 1)%float (seq 0 11)) (seq 0 11)) with
    | Ok A => match @cholesky PrimFloat.float _ 11 A with
              | Ok (Some C) => Nat.eqb (length A) 11 && (match remove_row 11 C 0 with UB => true | _ => false end)
              | _ => false end
    | _ => false end = true) by (vm_compute; reflexivity).
  destruct (fmat _) as [A| |]; try discriminate. destruct (cholesky 11 A) as [[C|]| |] eqn:Ec; try discriminate.
  apply andb_true_iff in E as [E1 E2]. exists A, C. split; [now apply Nat.eqb_eq|]. split; auto. destruct (remove_row 11 C 0); try discriminate. reflexivity.
Qed.

Print Assumptions C83_remove_row.
Print Assumptions C83_remove_undoes_add.
Print Assumptions C83_full_rows_refuted.
