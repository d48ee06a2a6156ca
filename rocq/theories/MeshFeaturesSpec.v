(** What a surface mesh should hold after its construction. *)
From Coq Require Import Reals.
From Verif Require Import Base Vec GeometrySpec PolyMeshSpec FeatureSpec.
Local Open Scope R_scope.

(** The faces run around the other way, all of them or none. *)
Definition all_turned (faces faces' : list (list nat)) : Prop :=
  length faces' = length faces /\
  forall i f f', nth_error faces i = Some f -> nth_error faces' i = Some f' ->
    Permutation f f' /\ forall a b, runs f' a b <-> runs f b a.

(** The product of the normals of two faces. *)
Definition facing (pts : list (list R)) (faces : list (list nat)) (i j : nat) : R :=
  dot 3 (unit_normal pts (nth i faces [])) (unit_normal pts (nth j faces [])).

(** The tip of a cone: two faces meet at p only, at an angle. *)
Definition cone_tip (thr : R) (pts : list (list R)) (faces : list (list nat)) (p : nat) : Prop :=
  exists i j, (i < length faces)%nat /\ (j < length faces)%nat /\ i <> j /\
    (forall q, In q (nth i faces []) /\ In q (nth j faces []) <-> q = p) /\
    facing pts faces i j < thr.
(** A sharp corner; or a point without sharp edges that is the tip of a cone. *)
Definition is_mesh_corner (thr : R) (pts : list (list R)) (faces : list (list nat)) (p : nat) : Prop :=
  is_sharp_corner thr pts faces p \/
  ((forall q, q <> p -> ~ is_sharp_edge thr pts faces p q) /\ cone_tip thr pts faces p).

(** The features of a mesh are the right ones: each sharp edge once in one of its directions, the corners in
    ascending order. *)
Definition right_features (thr : R) (pts : list (list R)) (faces : list (list nat))
  (edges : list (nat * nat)) (corners : list nat) : Prop :=
  NoDup edges
  /\ (forall a b, In (a, b) edges -> ~ In (b, a) edges)
  /\ (forall a b, In (a, b) edges \/ In (b, a) edges <-> a <> b /\ is_sharp_edge thr pts faces a b)
  /\ Sorted lt corners
  /\ (forall p, In p corners <-> (p < length pts)%nat /\ is_mesh_corner thr pts faces p).

(** The least product of the normals of the two faces of an edge that is not sharp; 1 without one. *)
Definition least_facing (thr : R) (pts : list (list R)) (faces : list (list nat)) (m : R) : Prop :=
  let smooth i j := exists a b, a <> b /\ ~ is_sharp_edge thr pts faces a b /\ faces_with faces a b = [i; j] in
  m <= 1 /\ (forall i j, smooth i j -> m <= facing pts faces i j)
  /\ (m = 1 \/ exists i j, smooth i j /\ m = facing pts faces i j).

(** Coordinates below 2^1000. *)
Definition bounded (pts : list (list R)) : Prop :=
  forall p d, In p pts -> (d < 3)%nat -> Rabs (nth d p 0) <= IZR (2 ^ 1000).
