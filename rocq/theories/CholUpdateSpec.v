(** Specification vocabulary for changing a Cholesky factorization. *)
From Coq Require Import Reals.
From Verif Require Import Base Num Vec Sparse SparseSpec.

(** The factor that C = L + L^T stores for an n-row matrix. *)
Definition factor_of (n : nat) (C : @smat R) (r c : nat) : R := if Nat.ltb c n then lower (mentry C) r c else 0%R.
(** Symmetric storage of a factor, nothing outside the n columns, diagonal as the factorization leaves it. *)
Record stored_factor (n : nat) (C : @smat R) : Prop := {
  sf_ok : matrix_ok n C;
  sf_sym : forall r c, (r < n)%nat -> (c < n)%nat -> mentry C r c = mentry C c r;
  sf_narrow : forall r c, (r < n)%nat -> (n <= c)%nat -> mentry C r c = 0%R;
  sf_diag : forall j, (j < n)%nat -> (1 / 10 ^ 5 <= mentry C j j)%R
}.
(** Every row has room for more than n entries, as every row of a matrix with fewer than ten rows has. *)
Definition capacity {F} (v : option (list nat * list F)) : nat := match v with None => 0 | Some (ix, _) => nth 0 ix 0 end.
Definition roomy (n : nat) (C : @smat R) : Prop := forall i v, nth_error C i = Some v -> (n < capacity v)%nat.
(** Number of a row before row d is taken out. *)
Definition before_removal (d r : nat) : nat := if Nat.ltb r d then r else S r.
