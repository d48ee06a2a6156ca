(** What the corner spheres should be. *)
From Coq Require Import Reals.
From Verif Require Import Base Num Vec KdSpec SmartTree SmartTreeSpec SpheresSpec ActivePoolSpec SamplePoolSpec CornerSpheres.
Local Open Scope R_scope.

(** The coordinates of the point with number c of the input. *)
Definition place (points : list (list R)) (c : nat) : list R := firstn 3 (nth c points []).

(** Usable arguments: clouds of points with normals, a sizing function with a point within the range of
    the numbers; corners are numbers of points; an upper limit and a tolerance within range. *)
Definition good_setting (k : csetting R) (points : list (list R)) (corners : list nat) : Prop :=
  cloud (k_cloud k) (normals_of (k_cloud k)) /\ cloud (k_edges k) (normals_of (k_edges k))
  /\ (forall c, In c corners -> (c < length points)%nat /\ (3 <= length (nth c points []))%nat)
  /\ (forall t, k_input k = Some t -> spheres t /\ forall c, In c corners -> exists j, (j < count t)%nat /\ vdist 3 (vec (place points c)) (center t j) < dbl_max)
  /\ k_rmax k <= 2 / 5 * dbl_max /\ k_tol k <= dbl_max.

(** No two entries of the list are at the same place. *)
Definition distinct_places (points : list (list R)) (corners : list nat) : Prop :=
  forall a b, (a < b < length corners)%nat ->
    0 < vdist 3 (vec (place points (nth a corners 0%nat))) (vec (place points (nth b corners 0%nat))).

(** The size allowed at x: at most rmax; at most 0.4 times the distance to every point of the two clouds that is not
    smoothly connected to x; at most the input size at a nearest point of the sizing function. *)
Definition clear_of_features (k : csetting R) (x : list R) (r : R) : Prop :=
  r <= k_rmax k
  /\ (forall j, (j < count (k_cloud k))%nat -> ~ smooth_from (k_cloud k) (normals_of (k_cloud k)) x (k_tol k) (k_thr k) j ->
        r <= 2 / 5 * vdist 3 (vec x) (center (k_cloud k) j))
  /\ (forall j, (j < count (k_edges k))%nat -> ~ smooth_edge (k_edges k) (normals_of (k_edges k)) x (k_tol k) (k_thr k) j ->
        r <= 2 / 5 * vdist 3 (vec x) (center (k_edges k) j)).
Definition closest_size (t : stree R) (x : nat -> R) (c : nat) : Prop :=
  (c < count t)%nat /\ forall j, (j < count t)%nat -> vdist 3 x (center t c) <= vdist 3 x (center t j).

(** The record of sphere i names the corner. *)
Definition corner_of (s : stree R) (i c : nat) : Prop :=
  match st_att s with Some l => nth_error l i = Some (Some [2; c]%nat) | None => False end.
