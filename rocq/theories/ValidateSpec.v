(** When the surface mesh is accepted. *)
From Verif Require Import Base Num PolyMeshSpec.

(** The edges of a face, in the order of its corners. *)
Definition face_edges (f : list nat) : list (nat * nat) :=
  [(nth 0 f 0, nth 1 f 0); (nth 1 f 0, nth 2 f 0); (nth 2 f 0, nth 0 f 0)].
(** An edge is regular if it has exactly two faces. *)
Definition regular (faces : list (list nat)) (a b : nat) : Prop := length (faces_with faces a b) = 2.
(** Every edge with a surface sphere (number below ns) is regular. *)
Definition closed_surface (ns : nat) (faces : list (list nat)) : Prop :=
  forall f a b, In f faces -> In a f -> In b f -> a <> b -> (a < ns \/ b < ns) -> regular faces a b.
(** How often sphere m is an end of an edge, of some face, that is not regular. *)
Definition strikes (faces : list (list nat)) (m : nat) : nat :=
  length (filter (fun e => ((fst e =? m) || (snd e =? m)) && negb (length (faces_with faces (fst e) (snd e)) =? 2))
            (flat_map face_edges faces)).
