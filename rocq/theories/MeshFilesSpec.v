(** What the files of the volume mesh should contain, without the functions of the model. *)
From Coq Require Import Reals Lra.
From Verif Require Import Base Num SamplingSpec Vec KdSpec GeometrySpec InteriorSpec.
Local Open Scope R_scope.

(** Corner k of a polygon, counted around. *)
Definition corner (p : list (list R)) (k : nat) : nat -> R := vec (nth (k mod length p) p []).
Definition diff (u v : nat -> R) : nat -> R := fun d => u d - v d.
(** The polygon lies in a plane with unit normal n and every corner is on the left of every
    edge. *)
Definition convex_polygon (n : nat -> R) (p : list (list R)) : Prop :=
  dot 3 n n = 1
  /\ (forall i k, dot 3 n (diff (corner p i) (corner p k)) = 0)
  /\ (forall i k, 0 <= dot 3 n (vprod (diff (corner p (S i)) (corner p i)) (diff (corner p k) (corner p i)))).
(** The area of a plane polygon, from its corners in their order (the shoelace formula). *)
Definition polygon_area (n : nat -> R) (p : list (list R)) : R :=
  / 2 * sumn (length p) (fun i => dot 3 n (vprod (corner p i) (corner p (S i)))).

(** The seeds that are not ghosts, in increasing order. *)
Definition meshed_seeds (regs idx : list nat) : Prop :=
  StronglySorted lt idx /\ forall s, In s idx <-> (s < length regs)%nat /\ nth s regs 0%nat <> 0%nat.
(** A row of a face between i and j with the corners l. *)
Definition row (l : list nat) (i j : nat) : list nat := length l :: l ++ [i; j].
(** The point is behind the plane through xo with normal e. *)
Definition behind (xo e p : list R) : Prop := dot 3 (diff (vec p) (vec xo)) (vec e) < - (1 / 10 ^ 10).
(** The positions where P holds, in increasing order. *)
Definition positions_of (n : nat) (P : nat -> Prop) (keep : list nat) : Prop :=
  StronglySorted lt keep /\ forall k, In k keep <-> (k < n)%nat /\ P k.
