(** Connected components of a graph on 0 .. n-1 given by its lists of neighbours. *)
From Coq Require Import Reals.
From Verif Require Import Base Num SmartTree KdSpec SmartTreeSpec.

Section Components.
  Variable n : nat.
  Variable nb : nat -> list nat.
  (** A graph: neighbours exist, and the relation is symmetric. *)
  Definition good_graph : Prop :=
    (forall i j, i < n -> In j (nb i) -> j < n) /\ (forall i j, i < n -> In j (nb i) -> In i (nb j)).
  (** There is a path from i to j. *)
  Inductive joined : nat -> nat -> Prop :=
  | joined_refl i : joined i i
  | joined_step i j k : joined i j -> In k (nb j) -> joined i k.
End Components.

(** Two seeds are linked by a chain of the pairs l. *)
Inductive linked (l : list (nat * nat)) : nat -> nat -> Prop :=
| linked_refl i : linked l i i
| linked_step i j k : linked l i j -> In (j, k) l \/ In (k, j) l -> linked l i k.
(** The first of the seeds linked to i. *)
Definition first_linked (n : nat) (l : list (nat * nat)) (i f : nat) : Prop :=
  f < n /\ linked l i f /\ forall j, j < n -> linked l i j -> f <= j.

(** The corner of the bounding box of the points, pushed out by twice the size of the box. *)
Definition pushed_corner (s : stree R) (x : list R) : Prop :=
  length x = 3
  /\ forall d, d < 3 -> exists lo hi,
    (forall j, j < length (st_pts s) -> (lo <= coord (st_pts s) j d <= hi)%R)
    /\ (exists j, j < length (st_pts s) /\ coord (st_pts s) j d = lo)
    /\ (exists j, j < length (st_pts s) /\ coord (st_pts s) j d = hi)
    /\ nth d x 0%R = (hi + 2 * (hi - lo))%R.
