(** Specification vocabulary for the geometry routines: Euclidean notions over R. *)
From Coq Require Import Reals.
From Verif Require Import Base Vec.
Local Open Scope R_scope.

Definition sub (u v : nat -> R) : nat -> R := fun d => u d - v d.
Definition unit (n : nat) (u : nat -> R) : Prop := dot n u u = 1.
Definition orthogonal (n : nat) (u v : nat -> R) : Prop := dot n u v = 0.
(** Pairwise orthogonal unit vectors. *)
Definition orthonormal_family (n k : nat) (b : nat -> nat -> R) : Prop :=
  forall i j, (i < k)%nat -> (j < k)%nat -> dot n (b i) (b j) = if Nat.eqb i j then 1 else 0.

(** The vector product in three dimensions. *)
Definition vprod (a b : nat -> R) : nat -> R := fun d =>
  match d with
  | 0%nat => a 1%nat * b 2%nat - a 2%nat * b 1%nat
  | 1%nat => a 2%nat * b 0%nat - a 0%nat * b 2%nat
  | _ => a 0%nat * b 1%nat - a 1%nat * b 0%nat
  end.

Definition on_segment (xo xn x : nat -> R) : Prop :=
  exists u, 0 <= u <= 1 /\ forall d, (d < 3)%nat -> x d = xo d + u * (xn d - xo d).
(** [x] has barycentric coordinates [m] in the triangle [c]. *)
Definition barycentric (c : nat -> nat -> R) (m : nat -> R) (x : nat -> R) : Prop :=
  m 0%nat + m 1%nat + m 2%nat = 1 /\
  forall d, (d < 3)%nat -> x d = m 0%nat * c 0%nat d + m 1%nat * c 1%nat d + m 2%nat * c 2%nat d.
Definition in_triangle (c : nat -> nat -> R) (x : nat -> R) : Prop :=
  exists m, barycentric c m x /\ forall k, (k < 3)%nat -> 0 <= m k.
(** A triangle that counts as degenerate: an edge at corner 0 shorter than 1e-10, or the
    sine of the angle at corner 0 below 1e-10. *)
Definition sliver (c : nat -> nat -> R) : Prop :=
  let a := sub (c 1%nat) (c 0%nat) in
  let b := sub (c 2%nat) (c 0%nat) in
  norm 3 a < 1 / 10 ^ 10 \/ norm 3 b < 1 / 10 ^ 10 \/
  norm 3 (vprod a b) < 1 / 10 ^ 10 * (norm 3 a * norm 3 b).
(** The triangle with corner k moved to q. *)
Definition moved (c : nat -> nat -> R) (k : nat) (q : nat -> R) : nat -> nat -> R :=
  fun i => if Nat.eqb i k then q else c i.

(** Power of x with respect to the sphere (c, r). *)
Definition power (n : nat) (x c : nat -> R) (r : R) : R := vdist n x c * vdist n x c - r * r.
(** Affine combinations of the first [k] points whose largest weight is 1 in modulus stay
    away from zero: no point lies within [e] of the affine hull of others. *)
Definition independent (n k : nat) (e : R) (c : nat -> nat -> R) : Prop :=
  forall a : nat -> R, sumn k a = 0 -> (exists i, (i < k)%nat /\ a i = 1) ->
    e <= norm n (fun d => sumn k (fun i => a i * c i d)).
(** [x] is an affine combination of the first [k] points. *)
Definition in_hull (n k : nat) (c : nat -> nat -> R) (x : nat -> R) : Prop :=
  exists a, sumn k a = 1 /\ forall d, (d < n)%nat -> x d = sumn k (fun i => a i * c i d).
