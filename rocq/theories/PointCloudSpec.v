(** Specification vocabulary for the surface point clouds: independent of the model. *)
From Coq Require Import Reals.
From Verif Require Import Base Vec GeometrySpec.
Local Open Scope R_scope.

(** Corner [i] (0, 1, 2) of a face [num_corners; corners...]. *)
Definition tri (points : list (list R)) (f : list nat) : nat -> nat -> R :=
  fun i d => nth d (nth (nth (S i) f 0%nat) points []) 0.
(** Three corners, all of them points. *)
Definition valid_face (points : list (list R)) (f : list nat) : Prop :=
  (4 <= length f)%nat /\ forall i, (1 <= i <= 3)%nat -> (nth i f 0 < length points)%nat.
Definition degenerate (points : list (list R)) (f : list nat) : Prop := sliver (tri points f).
(** Area: half the length of the vector product of two edges. *)
Definition face_area (points : list (list R)) (f : list nat) : R :=
  let c := tri points f in / 2 * norm 3 (vprod (sub (c 1%nat) (c 0%nat)) (sub (c 2%nat) (c 0%nat))).
(** A point of the face. *)
Definition on_face (points : list (list R)) (f : list nat) (x : list R) : Prop :=
  length x = 3%nat /\ in_triangle (tri points f) (fun d => nth d x 0).
(** The unit normal that sees the corners anticlockwise. *)
Definition normal_to (points : list (list R)) (f : list nat) (v : list R) : Prop :=
  let c := tri points f in
  let N := vprod (sub (c 1%nat) (c 0%nat)) (sub (c 2%nat) (c 0%nat)) in
  length v = 3%nat /\ unit 3 (fun d => nth d v 0) /\ 0 < norm 3 N /\
  forall d, (d < 3)%nat -> nth d v 0 = N d / norm 3 N.
(** The corners and the midpoints of the edges. *)
Definition landmarks (points : list (list R)) (f : list nat) : list (list R) :=
  let c := tri points f in
  let row := fun x : nat -> R => [x 0%nat; x 1%nat; x 2%nat] in
  let mid := fun a b : nat -> R => row (fun d => (a d + b d) / 2) in
  [row (c 0%nat); row (c 1%nat); row (c 2%nat);
   mid (c 0%nat) (c 1%nat); mid (c 1%nat) (c 2%nat); mid (c 2%nat) (c 0%nat)].
(** [i] is the cell of the cumulated areas [a] that contains the fraction [U] of the total. *)
Definition total (a : list R) : R := fold_right Rplus 0 a.
Definition chosen (a : list R) (U : R) (i : nat) : Prop :=
  (i < length a)%nat /\ total (firstn i a) <= U * total a <= total (firstn (S i) a).
