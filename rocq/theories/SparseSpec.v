(** Specification vocabulary for sparse vectors and the Cholesky factorization. *)
From Coq Require Import Reals.
From Verif Require Import Base Num Vec Sparse.

Section SparseSpec.
  Context {F : Type} `{Num F}.

  (** Calling set_sparse_vector_entry for each (row, value), starting from a vector. *)
  Fixpoint set_all (ops : list (nat * F)) (v : svec) : res svec :=
    match ops with
    | [] => Ok v
    | (row, val) :: rest => v' <- set_entry row val v ;; set_all rest v'
    end.

  (** A value smaller than 1e-12 in magnitude counts as zero. *)
  Definition dropped (val : F) : bool := nltb (nabs val) (nlit 1 12).
  (** The last value written to [row] ([acc]: the value before the calls). *)
  Fixpoint last_value (acc : F) (ops : list (nat * F)) (row : nat) : F :=
    match ops with
    | [] => acc
    | (r, val) :: rest =>
      last_value (if Nat.eqb r row then (if dropped val then n0 else val) else acc) rest row
    end.
  Fixpoint last_kept (acc : bool) (ops : list (nat * F)) (row : nat) : bool :=
    match ops with
    | [] => acc
    | (r, val) :: rest => last_kept (if Nat.eqb r row then negb (dropped val) else acc) rest row
    end.

  (** The shape of the arrays: capacity and count in the first two cells, room for
      [capacity] entries, at most that many used, the used rows strictly increasing. *)
  Definition in_capacity (ix : list nat) (vx : list F) : Prop :=
    exists cap num, nth_error ix 0 = Some cap /\ nth_error ix 1 = Some num /\
      length ix = cap + 2 /\ length vx = cap /\ num <= cap /\
      StronglySorted lt (firstn num (skipn 2 ix)).
  Definition used_rows (ix : list nat) : list nat := firstn (nth 1 ix 0) (skipn 2 ix).
  (** A well-formed vector: as above, and no stored value below the tolerance. *)
  Definition well_formed (v : svec) : Prop :=
    match v with
    | None => True
    | Some (ix, vx) => in_capacity ix vx /\ 0 < length vx /\ Forall (fun x => dropped x = false) (firstn (nth 1 ix 0) vx)
    end.
End SparseSpec.

(** The entry of a sparse vector as a number (0 in a null vector). *)
Definition entry (v : @svec R) (row : nat) : R :=
  match v with
  | None => 0
  | Some _ => match get_entry row v with Ok x => x | _ => 0 end
  end.
Definition mentry (A : @smat R) (i j : nat) : R :=
  match nth_error A i with Some v => entry v j | None => 0%R end.
(** Every row of an n-row matrix is allocated and well formed. *)
Definition matrix_ok (n : nat) (A : @smat R) : Prop :=
  length A = n /\ forall i v, nth_error A i = Some v -> v <> None /\ well_formed v.

(** What "the factorization succeeded" promises about C, for the lower triangle of A:
    with L the lower triangle of C, C is L + L^T, the diagonal of L is positive and
    A = L L^T, except that an entry of L below 1e-12 is replaced by zero. *)
Definition lower (C : nat -> nat -> R) (i j : nat) : R := if Nat.leb j i then C i j else 0%R.
Definition llt (n : nat) (L : nat -> nat -> R) (i j : nat) : R := sumn n (fun k => (L i k * L j k)%R).
Definition matvec (n : nat) (A : nat -> nat -> R) (x : nat -> R) (i : nat) : R := sumn n (fun k => (A i k * x k)%R).

(** L is a factor of the first [i] columns of the lower triangle of an n-row matrix A. *)
Definition factors (n i : nat) (A L : nat -> nat -> R) : Prop :=
  (forall r c, (r < c)%nat \/ (i <= c)%nat -> L r c = 0%R) /\
  (forall c, (c < i)%nat -> (1 / 10 ^ 5 <= L c c)%R) /\
  (forall r c, (c < i)%nat -> (c <= r < n)%nat ->
     (Rabs (A r c - llt n L r c) <= 1 / 10 ^ 12 * L c c)%R /\ (L r c <> 0%R -> A r c = llt n L r c)).
