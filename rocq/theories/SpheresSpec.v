(** What the sphere routines should do.  A set of spheres is a tree object whose points
    have three coordinates followed by a radius. *)
From Verif Require Import Base Num Vec KdSpec SmartTree SmartTreeSpec.
From Coq Require Import Reals.
Local Open Scope R_scope.

(** A tree of spheres that can be queried. *)
Definition spheres (s : stree R) : Prop :=
  ready s /\ st_nd s = 3%nat /\ (forall p, In p (st_pts s) -> (4 <= length p)%nat).
Definition count (s : stree R) : nat := length (st_pts s).
Definition center (s : stree R) (i : nat) : nat -> R := coord (st_pts s) i.
Definition radius (s : stree R) (i : nat) : R := coord (st_pts s) i 3.
Definition gap (s : stree R) (i j : nat) : R := vdist 3 (center s i) (center s j).
Definition positive_radii (s : stree R) : Prop := forall i, (i < count s)%nat -> 0 < radius s i.

(** The radii vary with slope at most L: over all pairs, or over the pairs in which the
    second centre is within twice the radius of the first sphere. *)
Definition lipschitz (L : R) (s : stree R) : Prop :=
  forall i j, (i < count s)%nat -> (j < count s)%nat -> radius s i <= radius s j + L * gap s i j.
Definition locally_lipschitz (L : R) (s : stree R) : Prop :=
  forall i j, (i < count s)%nat -> (j < count s)%nat ->
    gap s i j < 2 * radius s i -> radius s i <= radius s j + L * gap s i j.

(** No centre is within twice the radius of another sphere (with the margin of the range
    query). *)
Definition apart (s : stree R) : Prop :=
  forall i j, (i < count s)%nat -> (j < count s)%nat -> i <> j ->
    (1 + 2 / 10 ^ 6) * (2 * radius s i) * (2 * radius s i) <= gap s i j * gap s i j.

(** [s'] is [s] with other radii and nothing else changed. *)
Definition only_radii (s s' : stree R) : Prop :=
  st_nd s' = st_nd s /\ st_cap s' = st_cap s /\ st_nrm s' = st_nrm s /\ st_att s' = st_att s
  /\ st_lk s' = st_lk s /\ st_org s' = st_org s /\ st_h s' = st_h s /\ st_min s' = st_min s /\ st_max s' = st_max s
  /\ count s' = count s
  /\ (forall i, length (nth i (st_pts s') []) = length (nth i (st_pts s) []))
  /\ (forall i d, d <> 3%nat -> coord (st_pts s') i d = coord (st_pts s) i d).

(** A point is within the part of radius about b * r of sphere j (b = 1 is the ball). *)
Definition reach (b r : R) : R := (b + 1 / 10 ^ 8) * r + 1 / 10 ^ 8.
Definition covers (s : stree R) (b : R) (j : nat) (p : nat -> R) : Prop :=
  vdist 3 p (center s j) < reach b (radius s j).
(** The fraction of the radius used for a coverage parameter alpha. *)
Definition fraction (alpha : R) : R := if Rlt_dec (1 / 10 ^ 10) alpha then sqrt (1 - alpha * alpha) else 1.

(** Largest radii below those of [s] with slope L:  min over j of r_j + L |c_i - c_j|. *)
Definition hull (L : R) (s : stree R) (i : nat) (v : R) : Prop :=
  (exists j, (j < count s)%nat /\ v = radius s j + L * gap s i j)
  /\ forall j, (j < count s)%nat -> v <= radius s j + L * gap s i j.

(** Balls i and j of centre and radius have a common interior point. *)
Definition overlap (s : stree R) (sp : nat -> R) (j : nat) : Prop :=
  vdist 3 sp (center s j) < sp 3%nat + radius s j.

(** ** Slivers.  [sp i] is sphere i (centre, radius); [up], [lo] are the two points where
    the spheres i, j, k meet. *)
Definition nearer (sp : nat -> nat -> R) (up lo : nat -> R) (l : nat) : R :=
  Rmin (vdist 3 (sp l) up) (vdist 3 (sp l) lo).
(** Sphere l may be shrunk and contains one of the two points. *)
Definition half_covered (n : nat) (sp : nat -> nat -> R) (fixed : nat -> bool)
  (up lo : nat -> nat -> nat -> nat -> R) (i j k l : nat) : Prop :=
  (i < j < k)%nat /\ (k < n)%nat /\ (l < n)%nat /\ fixed l = false /\ l <> i /\ l <> j /\ l <> k
  /\ nearer sp (up i j k) (lo i j k) l <= sp l 3%nat - 1 / 10 ^ 10.
