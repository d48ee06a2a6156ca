(** C15, C16, C17, C60, C61: the linear solver. *)
From Coq Require Import Reals Lra Psatz.
From Verif Require Import Base Num Vec Sparse SparseSpec SparseProofs SparseDotProofs SparseCholProofs.
From Verif Require Import DenseQR DenseQRSpec DenseQRProofs.

(** ** C15: after any calls to set_sparse_vector_entry on a fresh vector, reading a row
    gives the last value written to it, zero if there is none or if it was below the
    tolerance; the rows in use are exactly those last written with a kept value, they are
    strictly increasing and fit in the capacity.  This holds for any number type, binary64
    included. *)
Theorem C15_sparse_vector {F} `{Num F} (ops : list (nat * F)) :
  exists v, set_all ops None = Ok v /\ well_formed v /\
    (v = None <-> Forall (fun op => dropped (snd op) = true) ops) /\
    (v <> None -> forall row, get_entry row v = Ok (last_value n0 ops row)) /\
    match v with
    | None => forall row, last_kept false ops row = false
    | Some (ix, vx) => in_capacity ix vx /\ forall row, In row (used_rows ix) <-> last_kept false ops row = true
    end.
Proof. exact (sparse_map ops). Qed.

(** Reading a vector nothing was kept in is a null dereference. *)
Theorem C15_unset_vector_refuted {F} `{Num F} (ops : list (nat * F)) row :
  Forall (fun op => dropped (snd op) = true) ops ->
  exists v, set_all ops None = Ok v /\ get_entry row v = UB.
Proof.
  intros D. destruct (sparse_map ops) as (v & E & _ & Z & _). exists v. split; auto.
  apply Z in D. subst v. reflexivity.
Qed.

(** Any well-formed vector can be updated: only the row that is set changes. *)
Theorem C15_set_entry row val (v : @svec R) : well_formed v -> v <> None ->
  exists v', set_entry row val v = Ok v' /\ well_formed v' /\ v' <> None /\
    forall r, entry v' r = if Nat.eqb row r then (if dropped val then 0%R else val) else entry v r.
Proof. exact (@set_entry_R v row val). Qed.

(* growth past ten entries, deletion, overwriting, out-of-order insertion *)
Definition sample_ops : list (nat * PrimFloat.float) :=
  map (fun k => (k, nofZ (Z.of_nat k + 1))) [7; 3; 11; 1; 20; 5; 9; 13; 2; 8; 4; 30] ++ [(11, nofZ 0); (3, nofZ 99); (40, nofZ 0)].
Example C15_run :
  match set_all sample_ops None with
  | Ok (Some (ix, vx)) => ix = [20; 11; 1; 2; 3; 4; 5; 7; 8; 9; 13; 20; 30; 30] ++ repeat 0 8 /\ length vx = 20
  | _ => False
  end.
Proof. vm_compute. split; reflexivity. Qed.

Local Open Scope R_scope.

(** ** C16: the dot product over rows lo..hi is the sum over all those rows. *)
Theorem C16_sparse_sparse (v1 v2 : @svec R) lo hi : well_formed v1 -> well_formed v2 ->
  dot_sparse v1 v2 lo hi = Ok (sumn (hi + 1 - lo) (fun k => entry v1 (lo + k) * entry v2 (lo + k))).
Proof. exact (@dot_sparse_ok v1 v2 lo hi). Qed.
Theorem C16_sparse_dense (v : @svec R) x lo hi : well_formed v -> (hi < length x)%nat ->
  dot_dense v x lo hi = Ok (sumn (hi + 1 - lo) (fun k => entry v (lo + k) * nth (lo + k) x 0)).
Proof. exact (@dot_dense_ok v x lo hi). Qed.

Example C16_run :
  (v <- set_all [(2%nat, nofZ 3); (5%nat, nofZ 7); (9%nat, nofZ 1)] None ;;
   w <- set_all [(5%nat, nofZ 2); (2%nat, nofZ 10); (1%nat, nofZ 4); (9%nat, nofZ 8)] None ;;
   dot_sparse v w 0 8) = Ok (@nofZ PrimFloat.float _ 44).
Proof. vm_compute. reflexivity. Qed.

(** ** C17: for a matrix with allocated rows the factorization never fails with undefined
    behaviour.  Either it reports failure, and then some pivot of the (partial) factor is below
    1e-10; or it returns L + L^T in place of A, L lower triangular with positive
    diagonal, where L L^T is A on and below the diagonal up to the entries of L that were
    dropped because they are below 1e-12. *)
Theorem C17_factorization n A : matrix_ok n A ->
  (cholesky n A = Ok None /\ exists i L, (i < n)%nat /\ factors n i (mentry A) L /\ mentry A i i - llt n L i i < 1 / 10 ^ 10) \/
  exists C, cholesky n A = Ok (Some C) /\ matrix_ok n C /\
    (forall i j, (i < n)%nat -> (j < n)%nat -> mentry C i j = mentry C j i) /\
    factors n n (mentry A) (fun r c => if Nat.ltb c n then lower (mentry C) r c else 0).
Proof. exact (@cholesky_ok n A). Qed.

(** The two triangular solves return x with L L^T x = b. *)
Theorem C17_solve n C b x : matrix_ok n C -> (0 < n)%nat -> (n <= length b)%nat -> (n <= length x)%nat ->
  (forall i j, (i < n)%nat -> (j < n)%nat -> mentry C i j = mentry C j i) ->
  (forall i, (i < n)%nat -> mentry C i i <> 0) ->
  exists z, cholesky_solve n C b x = Ok z /\ length z = length x /\
    forall i, (i < n)%nat -> matvec n (llt n (lower (mentry C))) (fun k => nth k z 0) i = nth i b 0.
Proof. exact (@solve_ok n C b x). Qed.

(** Factoring a symmetric matrix and solving: A x = b, when no entry of the factor was dropped. *)
Theorem C17_factor_solve n A C b x :
  matrix_ok n A -> (0 < n)%nat -> (n <= length b)%nat -> (n <= length x)%nat ->
  (forall i j, (i < n)%nat -> (j < n)%nat -> mentry A i j = mentry A j i) ->
  cholesky n A = Ok (Some C) ->
  exists z, cholesky_solve n C b x = Ok z /\
    ((forall i j, (j < i < n)%nat -> mentry C i j = 0 -> mentry A i j = llt n (lower (mentry C)) i j) ->
     forall i, (i < n)%nat -> matvec n (mentry A) (fun k => nth k z 0) i = nth i b 0).
Proof.
  intros M Hn Hb Hx SYM E. destruct (cholesky_ok M) as [(E' & _)|(C' & E' & M' & S' & (_ & DG & X))]; [congruence|].
  assert (C' = C) by congruence. subst C'.
  assert (D' : forall i, (i < n)%nat -> 1 / 10 ^ 5 <= mentry C i i).
  { intros i Hi. specialize (DG i Hi). destruct (Nat.ltb i n) eqn:E1; [|lia]. unfold lower in DG. now rewrite Nat.leb_refl in DG. }
  destruct (@solve_ok n C b x M' Hn Hb Hx S') as (z & Ez & _ & SOL).
  { intros i Hi. specialize (D' i Hi). lra. }
  exists z. split; auto. intros ND i Hi. rewrite <- (SOL i Hi). unfold matvec. apply sumn_ext. intros k Hk. f_equal.
  assert (EL : forall r c, llt n (fun r c => if Nat.ltb c n then lower (mentry C) r c else 0) r c = llt n (lower (mentry C)) r c).
  { intros r c. apply sumn_ext. intros q Hq. destruct (Nat.ltb q n) eqn:E1; [auto|lia]. }
  assert (LOW : forall r c, (c <= r < n)%nat -> mentry A r c = llt n (lower (mentry C)) r c).
  { intros r c Hc. destruct (X r c ltac:(lia) Hc) as [_ X2]. rewrite EL in X2. destruct (Nat.ltb c n) eqn:E1; [|lia].
    unfold lower in X2 at 1. destruct (Nat.leb c r) eqn:E2; [|lia].
    destruct (Nat.eq_dec c r) as [->|Hne]. { apply X2. specialize (D' r ltac:(lia)). lra. }
    destruct (Req_dec (mentry C r c) 0) as [Z|Z]; auto. apply ND; auto. lia. }
  destruct (le_dec k i) as [L|L]; [apply LOW; lia|].
  rewrite SYM by lia. rewrite LOW by lia. apply sumn_ext. intros; lra.
Qed.

(** Concrete matrices, built by setting entries. *)
Lemma keep_big (x : R) : 1 <= x -> dropped x = false.
Proof. intros Hx. destruct (dropped x) eqn:E; auto. apply dropped_iff in E. rewrite Rabs_pos_eq in E; lra. Qed.
Lemma sym2 (a b c : R) : 1 <= a -> 1 <= b -> 1 <= c -> exists A, matrix_ok 2 A /\
  mentry A 0 0 = a /\ mentry A 0 1 = b /\ mentry A 1 0 = b /\ mentry A 1 1 = c.
Proof.
  intros Ha Hb Hc.
  destruct (sparse_map [(0%nat, a); (1%nat, b)]) as (v & _ & W & Z & G & _).
  destruct (sparse_map [(0%nat, b); (1%nat, c)]) as (w & _ & W' & Z' & G' & _).
  assert (N : v <> None). { rewrite Z. intros K. apply Forall_inv in K. cbn [snd] in K. rewrite keep_big in K; auto; discriminate. }
  assert (N' : w <> None). { rewrite Z'. intros K. apply Forall_inv in K. cbn [snd] in K. rewrite keep_big in K; auto; discriminate. }
  specialize (G N). specialize (G' N'). cbn [last_value] in G, G'. rewrite !keep_big in G by auto. rewrite !keep_big in G' by auto.
  exists [v; w]. split.
  - split; auto. intros [|[|[|i]]] u; simpl; intros K; inversion K; subst; auto.
  - unfold mentry. simpl nth_error. cbv iota beta. unfold entry.
    destruct v as [v|]; [|congruence]. destruct w as [w|]; [|congruence]. rewrite !G, !G'. auto.
Qed.

(** The factor is not exact in general: the entry 1/10^13 of L is replaced by zero. *)
Theorem C17_exact_refuted : exists A C, matrix_ok 2 A /\ mentry A 0 1 = mentry A 1 0 /\
  cholesky 2 A = Ok (Some C) /\ mentry A 1 0 = 1 /\ llt 2 (lower (mentry C)) 1 0 = 0.
Proof.
  destruct (@sym2 (10 ^ 26) 1 1) as (A & M & E00 & E01 & E10 & E11); try lra.
  destruct (cholesky_ok M) as [(_ & i & L & Hi & (Z & D & X) & SM)|(C & E & MC & SC & (Z & D & X))].
  - exfalso. destruct i as [|[|i]]; [| |lia].
    + unfold llt in SM. rewrite !sumn_S, sumn_0, !(Z 0%nat) in SM by lia. lra.
    + destruct (X 0%nat 0%nat) as [_ X0]; [lia|lia|]. destruct (X 1%nat 0%nat) as [X1 X2]; [lia|lia|].
      specialize (D 0%nat ltac:(lia)). unfold llt in *. rewrite !sumn_S, !sumn_0 in *.
      rewrite ?(Z 0%nat 1%nat), ?(Z 1%nat 1%nat) in * by lia. rewrite E00 in X0. rewrite E10 in X1, X2. rewrite E11 in SM.
      assert (L00 : L 0%nat 0%nat * L 0%nat 0%nat = 10 ^ 26) by (assert (L 0%nat 0%nat <> 0) by lra; specialize (X0 H); lra).
      assert (H13 : L 0%nat 0%nat = 10 ^ 13) by nra.
      destruct (Req_dec (L 1%nat 0%nat) 0) as [K|K]; [rewrite K in SM; lra|]. specialize (X2 K). rewrite H13 in X2.
      assert (L 1%nat 0%nat = 1 / 10 ^ 13) by lra. rewrite H in SM. lra.
  - exists A, C. split; auto. split; [congruence|]. split; auto. split; auto.
    pose proof (X 0%nat 0%nat ltac:(lia) ltac:(lia)) as [_ X0]. pose proof (X 1%nat 0%nat ltac:(lia) ltac:(lia)) as [X1 X2].
    specialize (D 0%nat ltac:(lia)). unfold llt in *. rewrite !sumn_S, !sumn_0 in *.
    simpl in X0, X1, X2, D. unfold lower in *. simpl in *.
    set (p := mentry C 0 0) in *. set (q := mentry C 1 0) in *.
    rewrite E00 in X0. rewrite E10 in X1, X2.
    assert (L00 : p * p = 10 ^ 26) by (assert (p <> 0) by lra; specialize (X0 H); lra).
    assert (H13 : p = 10 ^ 13) by nra.
    destruct (Req_dec q 0) as [K|K]; [rewrite K; lra|].
    exfalso. assert (EQ1 := X2 K). rewrite H13 in EQ1. assert (Q : q = 1 / 10 ^ 13) by lra.
    (* a kept entry is at least 1e-12 *)
    destruct (@row_get 2 C 1 MC ltac:(lia)) as (w & _ & Ww & _ & Mw).
    assert (QE : entry w 0 = q) by (unfold q; symmetry; apply Mw).
    destruct (@wf_entry w 0 Ww) as [K'|K']; rewrite QE in K'; [contradiction|].
    assert (DQ : dropped q = true) by (apply dropped_iff; rewrite Q, Rabs_pos_eq; lra). congruence.
Qed.

Example C17_run :
  (r0 <- set_all [(0%nat, nofZ 4); (1%nat, nofZ 2); (2%nat, nofZ (-2))] None ;;
   r1 <- set_all [(0%nat, nofZ 2); (1%nat, nofZ 10); (2%nat, nofZ 2)] None ;;
   r2 <- set_all [(0%nat, nofZ (-2)); (1%nat, nofZ 2); (2%nat, nofZ 6)] None ;;
   f <- cholesky 3 [r0; r1; r2] ;;
   match f with
   | None => Ok []
   | Some C => cholesky_solve 3 C [nofZ 2; nofZ 28; nofZ 20] (repeat n0 3)
   end) = Ok (map (@nofZ PrimFloat.float _) [1; 2; 3]%Z).
Proof. vm_compute. reflexivity. Qed.
Example C17_hypotheses : exists A, matrix_ok 2 A /\ mentry A 0 0 = 4 /\ mentry A 0 1 = 2 /\ mentry A 1 0 = 2 /\ mentry A 1 1 = 5.
Proof. apply sym2; lra. Qed.

(** A row that was never set makes the factorization dereference null; so does the
    solver for zero rows. *)
Theorem C17_empty_row_refuted {F} `{Num F} (A : @smat F) n : nth_error A 0 = Some None -> (0 < n)%nat -> cholesky n A = UB.
Proof. intros E Hn. destruct n; [lia|]. unfold cholesky. cbn [chol_loop]. rewrite (get_some E). reflexivity. Qed.
Theorem C17_solve_empty_refuted {F} `{Num F} (C : @smat F) b x : cholesky_solve 0 C b x = UB.
Proof. reflexivity. Qed.

(** ** C60: the QR solver returns a least-squares solution, and the solution of the system
    when the matrix is square, if every column is farther than 1e-10 from the span of
    the columns before it. *)
Theorem C60_least_squares nrow ncol A b x :
  (0 < ncol <= nrow)%nat -> separated nrow ncol (1 / 10 ^ 10) A ->
  exists z, ls_qr nrow ncol A b x = Ok z /\
    (forall w, residual nrow ncol A b z <= residual nrow ncol A b w) /\
    (nrow = ncol -> forall i, (i < nrow)%nat -> apply ncol A z i = b i).
Proof. exact (@ls_qr_ok nrow ncol A b x). Qed.

(** householder: A = Q R, Q orthogonal, R upper triangular. *)
Theorem C60_householder nrow ncol A :
  (ncol <= nrow)%nat -> separated nrow ncol (1 / 10 ^ 10) A ->
  exists Q Rm, householder nrow ncol A = Ok (Q, Rm) /\
    (forall i l, (i < nrow)%nat -> (l < nrow)%nat -> sumn nrow (fun j => Q i j * Q l j) = if Nat.eqb i l then 1 else 0) /\
    (forall i j, (i < nrow)%nat -> (j < ncol)%nat -> sumn nrow (fun m => Q m i * A m j) = Rm i j) /\
    (forall i j, (j < ncol)%nat -> (j < i < nrow)%nat -> Rm i j = 0).
Proof.
  intros Hn SEP. destruct (householder_ok Hn SEP) as (Q & Rm & E & [O P U D]).
  exists Q, Rm. split; auto. split; [|split].
  - intros i l Hi Hl. exact (O i l Hi Hl).
  - intros i j Hi Hj. exact (P i j Hi Hj).
  - intros i j Hj Hi. apply U; lia.
Qed.

Example C60_hypotheses : separated 3 2 (1 / 10 ^ 10)
  (fun i j => match i, j with 0%nat, 0%nat => 3 | 0%nat, 1%nat => 1 | 1%nat, 1%nat => 2 | 2%nat, 0%nat => 1 | _, _ => 0 end).
Proof.
  intros j Hj c Hc. assert (j = 0 \/ j = 1)%nat as [-> | ->] by lia.
  - eapply Rlt_le_trans; [|apply (@coord_le_norm 3 _ 0); lia]. cbv beta. rewrite sumn_S, sumn_0, Hc.
    rewrite Rabs_pos_eq; lra.
  - eapply Rlt_le_trans; [|apply (@coord_le_norm 3 _ 1); lia]. cbv beta. rewrite !sumn_S, sumn_0, Hc.
    rewrite Rabs_pos_eq; lra.
Qed.

(** More unknowns than equations: Q and R are read uninitialised. *)
Theorem C60_underdetermined_refuted {F} `{Num F} nrow ncol (A : @mat F) b x : (nrow < ncol)%nat -> ls_qr nrow ncol A b x = UB.
Proof.
  intros L. unfold ls_qr, householder. destruct (Nat.eqb ncol 0) eqn:E; auto.
  destruct (Nat.ltb nrow ncol) eqn:E2; [reflexivity|lia].
Qed.
(** A zero column, which the code means to treat as a null space, makes the reflection
    0/0: every comparison with the NaN fails and the answer is 0 for all unknowns,
    although (0, 1) solves the system exactly. *)
Theorem C60_null_column_refuted : exists A b x z, @ls_qr PrimFloat.float _ 2 2 A b x = Ok z /\
  (forall i, A i 0%nat = n0) /\ (forall i, A i 1%nat = b i) /\ b 0%nat = n1 /\
  z 0%nat = n0 /\ z 1%nat = n0.
Proof.
  exists (fun _ j => if Nat.eqb j 1 then n1 else n0), (fun _ => n1), (fun _ => n1).
  eexists. split; [reflexivity|]. split; [reflexivity|]. split; [reflexivity|]. split; [reflexivity|]. vm_compute. split; reflexivity.
Qed.

(** ** C61: the Voronoi vertex of d+1 seeds in d dimensions is equidistant from them. *)
Theorem C61_voronoi_vertex d p x : (0 < d)%nat ->
  separated d d (1 / 10 ^ 10) (fun i k => p (i + 1)%nat k - p 0%nat k) ->
  exists v, voronoi_vertex d (d + 1) p x = Ok (Some v) /\
    forall i, (i <= d)%nat -> vdist d v (p i) = vdist d v (p 0%nat).
Proof. exact (@voronoi_vertex_ok d p x). Qed.
Theorem C61_wrong_count {F} `{Num F} d k (p : nat -> nat -> F) x : k <> (d + 1)%nat -> voronoi_vertex d k p x = Ok None.
Proof. intros N. unfold voronoi_vertex. destruct (Nat.eqb k (d + 1)) eqn:E; [lia|reflexivity]. Qed.
Example C61_hypotheses :
  let p := fun i k : nat => match i, k with 1%nat, 0%nat => 3 | 1%nat, 1%nat => 1 | 2%nat, 1%nat => 2 | _, _ => 0 end in
  separated 2 2 (1 / 10 ^ 10) (fun i k => p (i + 1)%nat k - p 0%nat k).
Proof.
  intros p j Hj c Hc. assert (j = 0 \/ j = 1)%nat as [-> | ->] by lia.
  - eapply Rlt_le_trans; [|apply (@coord_le_norm 2 _ 0); lia]. cbv beta. rewrite sumn_S, sumn_0, Hc. simpl.
    rewrite Rabs_pos_eq; lra.
  - eapply Rlt_le_trans; [|apply (@coord_le_norm 2 _ 1); lia]. cbv beta. rewrite !sumn_S, sumn_0, Hc. simpl.
    match goal with |- _ < Rabs ?t => replace t with 2 by lra end. rewrite Rabs_pos_eq; lra.
Qed.

Print Assumptions C15_sparse_vector.
Print Assumptions C15_unset_vector_refuted.
Print Assumptions C15_set_entry.
Print Assumptions C16_sparse_sparse.
Print Assumptions C16_sparse_dense.
Print Assumptions C17_factorization.
Print Assumptions C17_solve.
Print Assumptions C17_factor_solve.
Print Assumptions C17_exact_refuted.
Print Assumptions C17_empty_row_refuted.
Print Assumptions C17_solve_empty_refuted.
Print Assumptions C60_least_squares.
Print Assumptions C60_householder.
Print Assumptions C60_underdetermined_refuted.
Print Assumptions C60_null_column_refuted.
Print Assumptions C61_voronoi_vertex.
Print Assumptions C61_wrong_count.
