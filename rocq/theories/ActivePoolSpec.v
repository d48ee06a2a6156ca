(** What the active pool should do, in terms of triangles, segments and spheres. *)
From Verif Require Import Base Num Vec KdSpec SmartTree SmartTreeSpec GeometrySpec SpheresSpec.
From Coq Require Import Reals.

(** A mesh that can be read: three coordinates per point; a face is the row [3; i; j; k],
    an edge the row [i; j]. *)
Definition good_points {F} (points : list (list F)) : Prop := forall p, In p points -> 3 <= length p.
Definition good_faces {F} (points : list (list F)) (faces : list (list nat)) : Prop :=
  forall f, In f faces -> 4 <= length f /\ forall k, 1 <= k <= 3 -> nth k f 0 < length points.
Definition good_edges {F} (points : list (list F)) (edges : list (list nat)) : Prop :=
  forall e, In e edges -> 2 <= length e /\ forall k, k < 2 -> nth k e 0 < length points.

(** The first three coordinates of point i. *)
Definition point3 {F} (points : list (list F)) (i : nat) : list F := firstn 3 (nth i points []).

(** Corner k of face f, end k of edge e. *)
Definition face_corner {F} (points : list (list F)) (faces : list (list nat)) (f k : nat) : list F :=
  point3 points (nth (S k) (nth f faces []) 0).
Definition edge_end {F} (points : list (list F)) (edges : list (list nat)) (e k : nat) : list F :=
  point3 points (nth k (nth e edges []) 0).

(** Halving a segment and quartering a triangle through midpoints [mid]. *)
Section Cut.
  Context {P : Type}.
  Variable mid : P -> P -> P.
  Definition half (c : nat) (s : P * P) : P * P :=
    let '(a, b) := s in match c with 0 => (a, mid a b) | _ => (mid a b, b) end.
  Definition quarter (c : nat) (t : P * P * P) : P * P * P :=
    let '(x, y, z) := t in
    match c with
    | 0 => (x, mid x y, mid z x)
    | 1 => (mid x y, y, mid y z)
    | 2 => (mid z x, mid y z, z)
    | _ => (mid x y, mid y z, mid z x)
    end.
End Cut.

Local Open Scope R_scope.
(** The triangle with the given corners (lists of coordinates), as corner functions. *)
Definition tri (t : list R * list R * list R) : nat -> nat -> R :=
  fun k => vec (match k with 0%nat => fst (fst t) | 1%nat => snd (fst t) | _ => snd t end).
Definition in_tri (t : list R * list R * list R) (p : nat -> R) : Prop := in_triangle (tri t) p.
(** Interior: positive barycentric coordinates. *)
Definition inside_tri (t : list R * list R * list R) (p : nat -> R) : Prop :=
  exists m, barycentric (tri t) m p /\ forall k, (k < 3)%nat -> 0 < m k.
Definition flat_tri (t : list R * list R * list R) : Prop :=
  forall d, (d < 3)%nat -> vprod (sub (tri t 1%nat) (tri t 0%nat)) (sub (tri t 2%nat) (tri t 0%nat)) d = 0.
Definition in_seg (s : list R * list R) (p : nat -> R) : Prop := on_segment (vec (fst s)) (vec (snd s)) p.
Definition inside_seg (s : list R * list R) (p : nat -> R) : Prop :=
  exists u, 0 < u < 1 /\ forall d, (d < 3)%nat -> p d = vec (fst s) d + u * (vec (snd s) d - vec (fst s) d).

(** The three sets of spheres at one moment. *)
Record scene := Scene { surface_of : stree R; edges_of : stree R; corners_of : stree R }.
(** Usable sets of spheres: empty, or a proper tree with a centre at a finite distance
    of every point of [region]. *)
Definition usable (region : (nat -> R) -> Prop) (s : stree R) : Prop :=
  st_pts s = [] \/ (spheres s /\ forall p, region p -> exists j, (j < count s)%nat /\ vdist 3 p (center s j) < @dbl_max R _).
(** p lies in a sphere (reduced to the fraction b of its radius). *)
Definition in_sphere_of (s : stree R) (b : R) (p : nat -> R) : Prop :=
  exists j, (j < count s)%nat /\ covers s b j p.
Definition covered_surface (ratio : R) (sc : scene) (p : nat -> R) : Prop :=
  in_sphere_of (surface_of sc) (sqrt (1 - ratio * ratio)) p \/ in_sphere_of (edges_of sc) 1 p \/ in_sphere_of (corners_of sc) 1 p.
Definition covered_edge (ratio : R) (sc : scene) (p : nat -> R) : Prop :=
  in_sphere_of (corners_of sc) 1 p \/ in_sphere_of (edges_of sc) (sqrt (1 - ratio * ratio)) p.

(** Spheres are only added. *)
Definition grows (s s' : stree R) : Prop := exists more, st_pts s' = st_pts s ++ more.
Definition scene_grows (a b : scene) : Prop :=
  grows (surface_of a) (surface_of b) /\ grows (edges_of a) (edges_of b) /\ grows (corners_of a) (corners_of b).
