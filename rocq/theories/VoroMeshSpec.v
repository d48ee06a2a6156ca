(** What the polygons of the volume mesh should be, without the functions of the model. *)
From Coq Require Import Reals Lra Relations.
From Verif Require Import Base Num Vec KdSpec InteriorSpec VoroSpec.

(** Row of a face between the seeds i and j: the number of corners, the corners, i and j. *)
Definition face_row (fc : list nat) (i j : nat) (f : list nat) : Prop := f = length fc :: fc ++ [i; j].
(** At least three different vertices, with numbers below nv. *)
Definition polygon (nv : nat) (fc : list nat) : Prop := (3 <= length fc)%nat /\ NoDup fc /\ Forall (fun k => (k < nv)%nat) fc.
(** The pair of seeds: i is not a ghost, and the face of two seeds that are not ghosts is
    listed with the smaller one. *)
Definition owner_pair (regs : list nat) (i j : nat) : Prop :=
  (i < length regs)%nat /\ (j < length regs)%nat /\ nth i regs 0 <> 0 /\ (nth j regs 0 = 0 \/ (i <= j)%nat).
(** Points joined by steps of at most 1e-6. *)
Definition welded : list R -> list R -> Prop := clos_refl_trans_1n _ (fun a b => (cdist a b <= 1 / 10 ^ 6)%R).
