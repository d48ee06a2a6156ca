(** What the mesh of a model should be, without the functions of the model of the program. *)
From Coq Require Import Reals.
From Verif Require Import Base Num Vec KdSpec SmartTree SmartTreeSpec SpheresSpec SeedSides SeedPairsSpec InteriorSpec VoroSpec RegionsSpec.
Local Open Scope R_scope.

(** The seeds of the tree [s], with their partners and spheres. *)
Definition describes (s : stree R) (seeds : list (pseed R)) : Prop :=
  length seeds = count s
  /\ forall i q, nth_error seeds i = Some q -> nth_error (st_pts s) i = Some (q_x q)
       /\ exists m a b c rest, record s i = Some (m :: q_pair q :: a :: b :: c :: rest)%nat /\ q_tri q = (a, b, c).

(** Seeds that can be meshed: they are apart from each other and have positive sizes. *)
Definition good_seeds (d : R) (points : list (list R)) (sizes : list R) : Prop :=
  0 < d /\ separated d points /\ Forall (fun h => 0 < h) sizes.

(** Some face separates the cells of the seeds i and j. *)
Definition neighbours (faces : list (list nat)) (i j : nat) : Prop :=
  exists f, In f faces /\ (face_between f i j \/ face_between f j i).

(** A way to label the seeds (by the volume they are in, say) that the mesher can see: seeds on one side of the surface have the same label
    ([side]: there is no triangle between them), an added seed has the label of the surface seeds of its region in seeds.csv, and
    two added seeds that are neighbours have the same label.  n: number of surface seeds; file: the regions of seeds.csv. *)
Definition visible {A} (n : nat) (side : nat -> nat -> Prop) (file : list nat) (faces : list (list nat)) (label : nat -> A) : Prop :=
  (forall a b, side a b -> label a = label b)
  /\ (forall k i, (n <= k < length file)%nat -> (i < n)%nat -> nth k file 0%nat = nth i file 0%nat -> label k = label i)
  /\ (forall i j, (n <= i)%nat -> (n <= j)%nat -> neighbours faces i j -> label i = label j).
