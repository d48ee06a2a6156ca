(** Spheres at the ends of the open edges of a surface mesh. *)
From Coq Require Import Reals.
From Verif Require Import Base Num Vec KdSpec SmartTree SmartTreeSpec SpheresSpec PolyMeshSpec ShrinkOpen.
Local Open Scope R_scope.

(** An edge is open if exactly one face has both ends as corners. *)
Definition open_edge (faces : list (list nat)) (a b : nat) : Prop := a <> b /\ length (faces_with faces a b) = 1%nat.

(** The spheres are numbered through: surface spheres, then edge spheres, then corner spheres. *)
Definition total (b : balls R) : nat := (count (b_s b) + count (b_e b) + count (b_c b))%nat.
Definition number (b : balls R) (m : nat) : stree R * nat :=
  if (m <? count (b_s b))%nat then (b_s b, m)
  else if (m <? count (b_s b) + count (b_e b))%nat then (b_e b, m - count (b_s b))%nat
  else (b_c b, m - count (b_s b) - count (b_e b))%nat.
Definition size (b : balls R) (m : nat) : R := radius (fst (number b m)) (snd (number b m)).
Definition place (b : balls R) (m : nat) : nat -> R := center (fst (number b m)) (snd (number b m)).
Definition apart (b : balls R) (m k : nat) : R := vdist 3 (place b m) (place b k).

(** Each of the three trees is empty or a tree of spheres. *)
Definition ball_trees (b : balls R) : Prop :=
  forall s, In s [b_s b; b_e b; b_c b] -> st_pts s = [] \/ spheres s.
(** Only radii differ. *)
Definition only_sizes (b b' : balls R) : Prop :=
  only_radii (b_s b) (b_s b') /\ only_radii (b_e b) (b_e b') /\ only_radii (b_c b) (b_c b').
(** The size of sphere m is the least of its old size and 0.49 of the lengths of the open edges at it. *)
Definition cut_back (faces : list (list nat)) (b b' : balls R) (m : nat) : Prop :=
  size b' m <= size b m
  /\ (forall k, open_edge faces m k -> size b' m <= 49/100 * apart b m k)
  /\ (size b' m = size b m \/ exists k, open_edge faces m k /\ size b' m = 49/100 * apart b m k).
