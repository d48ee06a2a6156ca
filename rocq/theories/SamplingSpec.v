(** Specification vocabulary for sampling: independent of the model. *)
From Verif Require Import Base.
From Coq Require Import Reals.
Local Open Scope R_scope.

Definition rsum (l : list R) : R := fold_right Rplus 0 l.
Arguments rsum : simpl never.

(** Coordinate [d] of the point  sum_c w_c x_c. *)
Definition weighted_coord (w : list R) (x : list (list R)) (d : nat) : R :=
  rsum (map (fun p => fst p * nth d (snd p) 0) (combine w x)).

(** Barycentric weights. *)
Definition convex_weights (w : list R) : Prop :=
  Forall (fun a => 0 <= a) w /\ rsum w = 1.

Definition nondecreasing (l : list R) : Prop :=
  forall i j a b, (i <= j)%nat -> nth_error l i = Some a -> nth_error l j = Some b -> a <= b.

(** Cell [i] of a cumulative table: from the previous entry (0 for the first)
    to its own entry. *)
Definition cell_lo (cdf : list R) (i : nat) : R := if (i =? 0)%nat then 0 else nth (i - 1) cdf 0.
Definition cell_hi (cdf : list R) (i : nat) : R := nth i cdf 0.

Definition norm2 (x : list R) : R := rsum (map (fun a => a * a) x).
