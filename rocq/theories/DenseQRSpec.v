(** Specification vocabulary for the least-squares solver. *)
From Coq Require Import Reals.
From Verif Require Import Base Vec.
Local Open Scope R_scope.

(** (A c)_i and the length of the residual A z - b. *)
Definition apply (ncol : nat) (A : nat -> nat -> R) (c : nat -> R) (i : nat) : R := sumn ncol (fun j => A i j * c j).
Definition residual (nrow ncol : nat) (A : nat -> nat -> R) (b z : nat -> R) : R :=
  norm nrow (fun i => apply ncol A z i - b i).
(** Every column is farther than [d] from the span of the columns before it. *)
Definition separated (nrow ncol : nat) (d : R) (A : nat -> nat -> R) : Prop :=
  forall j, (j < ncol)%nat -> forall c : nat -> R, c j = 1 ->
    d < norm nrow (fun i => sumn (S j) (fun k => A i k * c k)).
