(** Vocabulary for runs of the active pool. *)
From Verif Require Import Base Num KdTree SmartTree DenseQR Geometry Spheres Sampling ActivePool ActivePoolSpec ActivePoolThreadProofs.
From Coq Require Import Reals.

Section Runs.
  Context {F : Type} `{Num F}.
  Variable points : list (list F).
  Variable faces edges : list (list nat).

  (** Element i of the pool is the triangle t (as the program decodes it). *)
  Definition element (p : pool F) (i : nat) (t : list F * list F * list F) : Prop :=
    exists mids, face_corners points faces p i = Ok (t, mids).
  (** Element i of the pool is the segment s. *)
  Definition segment (p : pool F) (i : nat) (s : list F * list F) : Prop :=
    exists mid, edge_corners points edges p i = Ok (s, mid).
  Definition size_of (t : list F * list F * list F) : F := let '(a, b, c) := t in area3 a b c.
  Definition length_of (s : list F * list F) : F := let '(a, b) := s in distance 3 (gv a) (gv b).

  (** The three coverage tests the program applies to a triangle / the two to a segment. *)
  Definition tested (ss es cs : stree F) (Lip ratio : F) (t : list F * list F * list F) (answer : bool) : Prop :=
    let '(a, b, c) := t in
    (face_covered ss a b c Lip ratio = Ok true /\ answer = true)
    \/ (face_covered ss a b c Lip ratio = Ok false /\ face_covered es a b c Lip n0 = Ok true /\ answer = true)
    \/ (face_covered ss a b c Lip ratio = Ok false /\ face_covered es a b c Lip n0 = Ok false
        /\ face_covered cs a b c Lip n0 = Ok answer).
  Definition etested (es cs : stree F) (Lip ratio : F) (s : list F * list F) (answer : bool) : Prop :=
    let '(a, b) := s in
    (edge_covered cs a b Lip n0 = Ok true /\ answer = true)
    \/ (edge_covered cs a b Lip n0 = Ok false /\ edge_covered es a b Lip ratio = Ok answer).

  (** Pools of faces that can occur: a patch, then any number of refinements with any spheres,
      any number of threads and any interleaving. *)
  Inductive reached : pool F -> Prop :=
  | reached_start ip np p np' : ip < np' -> start_faces points faces ip np = Ok (p, np') -> reached p
  | reached_refine ss es cs Lip ratio T sched p p' : reached p -> finished (p_size p / T + 1) T sched ->
      refine_pool_faces points faces ss es cs Lip ratio T sched p = Ok p' -> reached p'.
  Inductive ereached : pool F -> Prop :=
  | ereached_start p : start_edges points edges = Ok p -> ereached p
  | ereached_refine es cs Lip ratio p p' : ereached p ->
      refine_pool_edges points edges es cs Lip ratio p = Ok p' -> ereached p'.
End Runs.

(** The refinements of a pool p0 with the given scenes, ending in p. *)
Inductive history (points : list (list R)) (faces : list (list nat)) (Lip ratio : R) (p0 : pool R) : list scene -> pool R -> Prop :=
| history_start : history points faces Lip ratio p0 [] p0
| history_refine scs sc T sched p p' : history points faces Lip ratio p0 scs p -> finished (p_size p / T + 1) T sched ->
    refine_pool_faces points faces (surface_of sc) (edges_of sc) (corners_of sc) Lip ratio T sched p = Ok p' ->
    history points faces Lip ratio p0 (scs ++ [sc]) p'.
Inductive ehistory (points : list (list R)) (edges : list (list nat)) (Lip ratio : R) (p0 : pool R) : list scene -> pool R -> Prop :=
| ehistory_start : ehistory points edges Lip ratio p0 [] p0
| ehistory_refine scs sc p p' : ehistory points edges Lip ratio p0 scs p ->
    refine_pool_edges points edges (edges_of sc) (corners_of sc) Lip ratio p = Ok p' ->
    ehistory points edges Lip ratio p0 (scs ++ [sc]) p'.

(** The triangle of face f, the segment of edge e. *)
Definition face_tri {F} (points : list (list F)) (faces : list (list nat)) (f : nat) : list F * list F * list F :=
  (face_corner points faces f 0, face_corner points faces f 1, face_corner points faces f 2).
Definition edge_seg {F} (points : list (list F)) (edges : list (list nat)) (e : nat) : list F * list F :=
  (edge_end points edges e 0, edge_end points edges e 1).

(** Points of the mesh and of its edges; sets of spheres usable for them. *)
Definition on_mesh (points : list (list R)) (faces : list (list nat)) (q : nat -> R) : Prop :=
  exists f, f < length faces /\ in_tri (face_tri points faces f) q.
Definition usable_scene (points : list (list R)) (faces : list (list nat)) (sc : scene) : Prop :=
  usable (on_mesh points faces) (surface_of sc) /\ usable (on_mesh points faces) (edges_of sc)
  /\ usable (on_mesh points faces) (corners_of sc).
Definition on_edges (points : list (list R)) (edges : list (list nat)) (q : nat -> R) : Prop :=
  exists f, f < length edges /\ in_seg (edge_seg points edges f) q.
Definition usable_escene (points : list (list R)) (edges : list (list nat)) (sc : scene) : Prop :=
  usable (on_edges points edges) (edges_of sc) /\ usable (on_edges points edges) (corners_of sc).
