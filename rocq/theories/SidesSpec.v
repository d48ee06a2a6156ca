(** What "on the same side of the surface" means for the seeds around a sphere, without the functions of the
    model.  [sph] are the centres of the spheres; a seed has a point, a partner and three spheres. *)
From Coq Require Import Reals Lra.
From Verif Require Import Base Num Vec KdSpec GeometrySpec SeedSides.
Local Open Scope R_scope.

Section Sides.
  Variables (sph : list (list R)) (seeds : list (pseed R)).

  (** The point of a seed, the centre of a sphere. *)
  Definition seed_at (s : nat) (q : pseed R) : Prop := nth_error seeds s = Some q.
  Definition centre (i : nat) : nat -> R := vec (nth i sph []).
  (** The three spheres of a seed are i, a, b, in some order. *)
  Definition comes_from (s i a b : nat) : Prop :=
    exists q x y z, seed_at s q /\ q_tri q = (x, y, z) /\ Permutation [x; y; z] [i; a; b].
  Definition partners (s t : nat) : Prop :=
    exists q r, seed_at s q /\ seed_at t r /\ q_pair q = t /\ q_pair r = s.
  (** From seed s to seed t one crosses the plane of i, a, b in the direction of its right-hand normal. *)
  Definition crosses (i a b s t : nat) : Prop :=
    exists q r, seed_at s q /\ seed_at t r /\
    0 < dot 3 (sub (vec (q_x r)) (vec (q_x q)))
              (vprod (sub (centre a) (centre i)) (sub (centre b) (centre i))).
  (** s and t are the two seeds of the triangle of the spheres i, a, b: s below, t above. *)
  Definition seeds_of (i a b s t : nat) : Prop :=
    (i < length sph)%nat /\ (a < length sph)%nat /\ (b < length sph)%nat
    /\ ~ sliver (fun m => match m with 0%nat => centre i | 1%nat => centre a | _ => centre b end)
    /\ comes_from s i a b /\ comes_from t i a b /\ partners s t /\ crosses i a b s t.

  (** The triangles around the sphere i form a closed fan: the m spheres c 0, ..., c (m-1), c m = c 0
      around it are different, and lo k, up k are the two seeds of the triangle i, c k, c (k+1), all seen in
      the same sense of rotation.  [ss] are the seeds that come from i, in any order. *)
  Definition fan (i : nat) (ss : list nat) (m : nat) (c lo up : nat -> nat) : Prop :=
    (3 <= m)%nat /\ c m = c 0%nat
    /\ (forall k k', (k < m)%nat -> (k' < m)%nat -> c k = c k' -> k = k')
    /\ (forall k, (k < m)%nat -> seeds_of i (c k) (c (S k)) (lo k) (up k))
    /\ NoDup ss /\ (forall s, In s ss <-> exists k, (k < m)%nat /\ (s = lo k \/ s = up k)).
  (** Both below or both above the fan. *)
  Definition same_side (m : nat) (lo up : nat -> nat) (a b : nat) : Prop :=
    (exists k k', (k < m)%nat /\ (k' < m)%nat /\ a = lo k /\ b = lo k')
    \/ (exists k k', (k < m)%nat /\ (k' < m)%nat /\ a = up k /\ b = up k').

  (** The triangles around the edge sphere i form L sheets, like the pages of a book: all of them contain
      the next edge or corner sphere p along the sharp edge; from there sheet l goes over the surface
      spheres c l 1, ..., c l (m l - 1), at least one, to another edge or corner sphere c l (m l).  The
      surface spheres of all sheets are different.  lo l k, up l k are the two seeds of the triangle i,
      c l k, c l (k+1).  The spheres below ns are surface spheres; [ss] are the seeds that come from i. *)
  Definition sheets (ns i : nat) (ss : list nat) (p L : nat) (m : nat -> nat) (c lo up : nat -> nat -> nat) : Prop :=
    (1 <= L)%nat /\ (ns <= p)%nat
    /\ (forall l, (l < L)%nat ->
          (2 <= m l)%nat /\ c l 0%nat = p /\ (ns <= c l (m l))%nat /\ c l (m l) <> p
          /\ (forall k, (1 <= k < m l)%nat -> (c l k < ns)%nat)
          /\ (forall k, (k < m l)%nat -> seeds_of i (c l k) (c l (S k)) (lo l k) (up l k)))
    /\ (forall l l' k k', (l < L)%nat -> (l' < L)%nat -> (1 <= k < m l)%nat -> (1 <= k' < m l')%nat ->
          c l k = c l' k' -> l = l' /\ k = k')
    /\ NoDup ss
    /\ (forall s, In s ss <-> exists l k, (l < L)%nat /\ (k < m l)%nat /\ (s = lo l k \/ s = up l k)).
  (** The first seed in the list that comes from another edge or corner sphere comes from p and is in
      sheet 0. *)
  Definition starts_at (ns i : nat) (ss : list nat) (p x : nat) : Prop :=
    exists l1 s l2, ss = l1 ++ s :: l2 /\ comes_from s i p x
      /\ forall t a b, In t l1 -> comes_from t i a b -> (a < ns)%nat /\ (b < ns)%nat.
  (** The sheets are numbered by the angle of their first surface sphere around the axis from i to p, seen
      from sheet 0.  The components used for the angle are not both below 1e-10 and none of them is between
      -1e-10 and 0. *)
  Definition by_angle (i p L : nat) (x : nat -> nat) : Prop :=
    exists (e : nat -> nat -> R) (h : R) (theta r : nat -> R),
      orthonormal_family 3 3 e /\ (forall d, (d < 3)%nat -> e 2%nat d = vprod (e 0%nat) (e 1%nat) d)
      /\ 0 < h /\ (forall d, (d < 3)%nat -> centre p d - centre i d = h * e 0%nat d)
      /\ theta 0%nat = 0 /\ (forall l, (l < L)%nat -> 0 <= theta l < 2 * PI)
      /\ (forall l l', (l < l' < L)%nat -> theta l < theta l')
      /\ forall l, (l < L)%nat ->
           let X := dot 3 (sub (centre (x l)) (centre i)) (e 1%nat) in
           let Y := dot 3 (sub (centre (x l)) (centre i)) (e 2%nat) in
           0 < r l /\ X = r l * cos (theta l) /\ Y = r l * sin (theta l)
           /\ (1 / 10 ^ 10 <= Rabs X \/ 1 / 10 ^ 10 <= Rabs Y)
           /\ (X <= - (1 / 10 ^ 10) \/ 0 <= X) /\ (Y <= - (1 / 10 ^ 10) \/ 0 <= Y).
  (** Between sheet n - 1 and sheet n is sector n; sector 0 is between the last sheet and sheet 0. *)
  Definition in_sector (L : nat) (m : nat -> nat) (lo up : nat -> nat -> nat) (a n : nat) : Prop :=
    exists l k, (l < L)%nat /\ (k < m l)%nat
      /\ ((a = lo l k /\ n = l) \/ (a = up l k /\ n = if Nat.eqb (S l) L then 0%nat else S l)).
  Definition same_sector L m lo up (a b : nat) : Prop :=
    exists n, in_sector L m lo up a n /\ in_sector L m lo up b n.

  (** The seeds that come from the sphere i, in increasing order. *)
  Definition seeds_from (i : nat) : list nat :=
    filter (fun s => match nth_error seeds s with
                     | Some q => let '(x, y, z) := q_tri q in (x =? i) || (y =? i) || (z =? i)
                     | None => false
                     end)%nat (seq 0 (length seeds)).
  (** The seeds a and b come from the surface sphere i and are on the same side of the surface there. *)
  Definition together_surface (i a b : nat) : Prop :=
    exists m c lo up, fan i (seeds_from i) m c lo up /\ same_side m lo up a b.
  (** The seeds a and b come from the edge sphere i and are in the same sector there. *)
  Definition book (ns i p L : nat) m c lo up : Prop :=
    sheets ns i (seeds_from i) p L m c lo up /\ starts_at ns i (seeds_from i) p (c 0%nat 1%nat)
    /\ by_angle i p L (fun l => c l 1%nat).
  Definition together_edge (ns i a b : nat) : Prop :=
    exists p L m c lo up, book ns i p L m c lo up /\ same_sector L m lo up a b.
End Sides.

(** a and b are linked directly. *)
Definition joined (l : list (nat * nat)) (a b : nat) : Prop := In (a, b) l \/ In (b, a) l.
