(** What the operations on surface meshes should do. *)
From Verif Require Import Base.

(** Triangles whose corners are points of the mesh; with three different corners. *)
Definition triangles (num_points : nat) (faces : list (list nat)) : Prop :=
  forall f, In f faces -> length f = 3 /\ forall c, In c f -> c < num_points.
Definition proper_triangles (num_points : nat) (faces : list (list nat)) : Prop :=
  triangles num_points faces /\ forall f, In f faces -> NoDup f.

(** The faces with corner p, each as often as p is one of its corners, by number. *)
Definition faces_at (faces : list (list nat)) (p : nat) : list nat :=
  flat_map (fun i => repeat i (count_occ Nat.eq_dec (nth i faces []) p)) (seq 0 (length faces)).
(** The faces with the edge a b, by number. *)
Definition faces_with (faces : list (list nat)) (a b : nat) : list nat :=
  filter (fun i => existsb (Nat.eqb a) (nth i faces []) && existsb (Nat.eqb b) (nth i faces []))
    (seq 0 (length faces)).

(** A point that is a corner of some face. *)
Definition used (faces : list (list nat)) (p : nat) : Prop := exists f, In f faces /\ In p f.
(** The corners of a face, as coordinates. *)
Definition shape {P} (pts : list P) (f : list nat) : list (option P) := map (nth_error pts) f.

(** The mesh keeps the points number K, in this order; [m] gives for each original point
    the number of its representative. *)
Definition ascending (l : list nat) : Prop := Sorted lt l.

(** A face collapses if two consecutive corners, in cyclic order, coincide. *)
Definition collapsed (f : list nat) : Prop :=
  exists j, j < length f /\ nth_error f j = nth_error f (if S j <? length f then S j else 0).

(** The face runs along its boundary from a to b. *)
Definition runs (f : list nat) (a b : nat) : Prop :=
  exists j, j < length f /\ nth_error f j = Some a
    /\ nth_error f (if S j <? length f then S j else 0) = Some b.
(** Faces sharing an edge that belongs to two faces only run along it in opposite
    directions. *)
Definition consistent (faces : list (list nat)) : Prop :=
  forall i j a b f g, i <> j -> nth_error faces i = Some f -> nth_error faces j = Some g ->
    length (faces_with faces a b) = 2 -> runs f a b -> ~ runs g a b.
(** The same faces up to the order of the corners. *)
Definition same_corners (faces faces' : list (list nat)) : Prop :=
  length faces = length faces' /\
  forall i f f', nth_error faces i = Some f -> nth_error faces' i = Some f' -> Permutation f f'.
(** There is a way to order the corners that is consistent. *)
Definition orientable (faces : list (list nat)) : Prop :=
  exists faces', same_corners faces faces' /\ consistent faces'.

(** Welding with tolerance h: [K] are the numbers of the points kept, [m] gives for each
    point the representative (its place in [K]); [dst] is the distance of two original
    points. *)
From Coq Require Import Reals.
Definition welding (h : R) (n : nat) (dst : nat -> nat -> R) (K m : list nat) : Prop :=
  ascending K /\ (forall k, In k K -> k < n) /\ length m = n
  (* points kept are at least h apart *)
  /\ (forall u v, In u K -> In v K -> u <> v -> (h <= dst u v)%R)
  (* every point has a representative that is itself or closer than h, *)
  /\ (forall i, i < n -> exists c k, nth_error m i = Some c /\ nth_error K c = Some k
        /\ k <= i /\ (k = i \/ (dst i k < h)%R)
  (* and no point kept before it is closer *)
        /\ forall k', In k' K -> k' <= i -> (dst i k <= dst i k')%R).

(** Every face but the first shares an edge that has two faces with an earlier face. *)
Definition growing (faces : list (list nat)) : Prop :=
  forall j, 0 < j < length faces -> exists i a b, i < j /\ a <> b
    /\ In i (faces_with faces a b) /\ In j (faces_with faces a b) /\ length (faces_with faces a b) = 2.
