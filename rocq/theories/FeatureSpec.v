(** What the detection of sharp features should report. *)
From Coq Require Import Reals.
From Verif Require Import Base Vec GeometrySpec PolyMeshSpec.
Local Open Scope R_scope.

(** Point p of the mesh; the corners of a face; its unit normal, by the right-hand rule. *)
Definition at_point (pts : list (list R)) (p : nat) : nat -> R := fun d => nth d (nth p pts []) 0.
Definition corner_points (pts : list (list R)) (f : list nat) : nat -> nat -> R :=
  fun k => at_point pts (nth k f 0%nat).
Definition unit_normal (pts : list (list R)) (f : list nat) : nat -> R :=
  let c := corner_points pts f in
  let m := vprod (sub (c 1%nat) (c 0%nat)) (sub (c 2%nat) (c 0%nat)) in
  fun d => m d / norm 3 m.
(** The cosine of the angle at y. *)
Definition cosine (x y z : nat -> R) : R := dot 3 (sub x y) (sub z y) / (vdist 3 x y * vdist 3 y z).

(** An edge of the mesh is sharp unless it has exactly two faces and these are nearly in
    one plane. *)
Definition is_sharp_edge (thr : R) (pts : list (list R)) (faces : list (list nat)) (a b : nat) : Prop :=
  faces_with faces a b <> [] /\
  forall i j, faces_with faces a b = [i; j] ->
    dot 3 (unit_normal pts (nth i faces [])) (unit_normal pts (nth j faces [])) < thr.
(** A point is a sharp corner if it has sharp edges, and either not two of them or two that
    bend; Q are the other ends of its sharp edges. *)
Definition is_sharp_corner (thr : R) (pts : list (list R)) (faces : list (list nat)) (p : nat) : Prop :=
  exists Q, NoDup Q /\ (forall q, In q Q <-> q <> p /\ is_sharp_edge thr pts faces p q) /\ Q <> [] /\
    forall q1 q2, Q = [q1; q2] -> - cosine (at_point pts q1) (at_point pts p) (at_point pts q2) < thr.

(** No degenerate triangle, and no two points at one place. *)
Definition clean (pts : list (list R)) (faces : list (list nat)) : Prop :=
  (forall p, In p pts -> length p = 3%nat) /\
  (forall f, In f faces -> ~ sliver (corner_points pts f)) /\
  (forall p q, (p < length pts)%nat -> (q < length pts)%nat -> p <> q ->
     1 / 10 ^ 10 <= vdist 3 (at_point pts p) (at_point pts q)).
