(** What the generation of the surface seeds should do. *)
From Verif Require Import Base Num Vec KdSpec SmartTree SmartTreeSpec Geometry GeometrySpec Spheres SpheresSpec SeedPairs.
From Coq Require Import Reals.
Local Open Scope R_scope.

(** A tree of spheres, possibly empty, whose radii have slope at most L between each sphere and
    those within twice its radius. *)
Definition sphere_set (L : R) (s : stree R) : Prop :=
  st_nd s = 3%nat /\ (st_pts s = [] \/ spheres s) /\ locally_lipschitz L s /\ (forall p, In p (st_pts s) -> length p = 4%nat).
(** The spheres of the three trees, numbered one after the other. *)
Definition all_spheres (ss es cs : stree R) : list (list R) := st_pts ss ++ st_pts es ++ st_pts cs.
Definition centre (all : list (list R)) (m : nat) : nat -> R := coord all m.
Definition rad (all : list (list R)) (m : nat) : R := coord all m 3.
(** Sizes far from overflow. *)
Definition moderate (all : list (list R)) : Prop :=
  forall m m', (m < length all)%nat -> (m' < length all)%nat ->
    0 < rad all m <= dbl_max / 4 /\ vdist 3 (centre all m) (centre all m') <= dbl_max / 4.
Definition triangle (all : list (list R)) (i j k : nat) : nat -> nat -> R :=
  fun m => match m with 0%nat => centre all i | 1%nat => centre all j | _ => centre all k end.
Definition area (c : nat -> nat -> R) : R := / 2 * norm 3 (vprod (sub (c 1%nat) (c 0%nat)) (sub (c 2%nat) (c 0%nat))).
(** Triples of centres are either collinear for the program or well away from collinear;
    for the latter the random directions drawn can be used. *)
Definition usable (all : list (list R)) (darts : nat -> nat -> nat -> nat -> nat -> R) : Prop :=
  forall i j k, (i < j < k)%nat -> (k < length all)%nat ->
    area (triangle all i j k) < 1 / 10 ^ 10
    \/ (independent 3 3 (1 / 10 ^ 5) (triangle all i j k) /\ ~ sliver (triangle all i j k)
        /\ power_vertex 3 3 (triangle all i j k) (fun m => triangle all i j k m 3%nat) (darts i j k) <> Ok None).

(** x is on the three spheres; x and y are mirror images in the plane of the centres. *)
Definition on_three (all : list (list R)) (i j k : nat) (x : nat -> R) : Prop :=
  vdist 3 x (centre all i) = rad all i /\ vdist 3 x (centre all j) = rad all j /\ vdist 3 x (centre all k) = rad all k.
Definition mirrored (all : list (list R)) (i j k : nat) (x y : nat -> R) : Prop :=
  orthogonal 3 (sub x y) (sub (centre all j) (centre all i)) /\ orthogonal 3 (sub x y) (sub (centre all k) (centre all i))
  /\ in_hull 3 3 (triangle all i j k) (fun d => (x d + y d) / 2).
(** A pair of seeds of the spheres i, j, k, the upper one on the side of the normal [m]. *)
Definition good_pair (all : list (list R)) (m : nat -> R) (i j k : nat) (p : pair R) : Prop :=
  let up := vec (p_up p) in let lo := vec (p_lo p) in
  length (p_up p) = 4%nat /\ length (p_lo p) = 4%nat /\ length (p_nrm p) = 3%nat
  /\ on_three all i j k up /\ on_three all i j k lo /\ mirrored all i j k up lo
  /\ 0 <= dot 3 m (sub up lo)
  /\ (exists a b, p_att p = (i, a, b) /\ ((a, b) = (j, k) \/ (a, b) = (k, j))
       /\ 0 < dot 3 (vprod (sub (centre all a) (centre all i)) (sub (centre all b) (centre all i))) (sub up lo))
  /\ (up 3%nat = Rmin (Rmin (rad all i) (rad all j)) (rad all k)) /\ lo 3%nat = up 3%nat.

(** Two balls overlap by more than 1e-10. *)
Definition touching (all : list (list R)) (i j : nat) : Prop :=
  vdist 3 (centre all i) (centre all j) <= rad all i + rad all j - 1 / 10 ^ 10.

(** x is inside, or not inside, the other balls. *)
Definition others (all : list (list R)) (i j k m : nat) : Prop := (m < length all)%nat /\ m <> i /\ m <> j /\ m <> k.
Definition buried (all : list (list R)) (i j k : nat) (x : nat -> R) (e : R) : Prop :=
  exists m, others all i j k m /\ vdist 3 x (centre all m) < rad all m + e.

(** A pair that belongs in the seeds: it comes from three spheres that touch each other,
    the first of them a surface sphere, and no other ball contains any of its points.  [face i] are the
    corners of the face of sphere i. *)
Definition accepted (ss es cs : stree R) (face : nat -> nat -> nat -> R) (i j k : nat) (p : pair R) : Prop :=
  let all := all_spheres ss es cs in
  (i < j < k)%nat /\ (k < length all)%nat /\ (i < count ss)%nat
  /\ touching all i j /\ touching all i k /\ touching all j k
  /\ good_pair all (snd (triangle_normal (face i))) i j k p
  /\ ~ buried all i j k (vec (p_up p)) 0 /\ ~ buried all i j k (vec (p_lo p)) 0.
(** Seed a of t is the point x, up to 1e-10. *)
Definition seed_near (t : stree R) (x : nat -> R) (a : nat) : Prop :=
  (a < count t)%nat /\ vdist 3 x (center t a) < 1 / 10 ^ 10.
Definition record (t : stree R) (a : nat) : option (list nat) :=
  match st_att t with Some l => nth a l None | None => None end.
Definition normal_of (t : stree R) (a : nat) : list R :=
  match st_nrm t with Some l => nth a l [] | None => [] end.
(** Each seed of [t] is one point of an accepted pair and records the spheres of the
    pair and the number in [u] of the other point.  [this], [other]: which point of the pair. *)
Definition seeds_of (acc : nat -> nat -> nat -> pair R -> Prop) (this other : pair R -> list R) (t u : stree R) : Prop :=
  forall a, (a < count t)%nat -> exists i j k p b x y,
    acc i j k p /\ nth a (st_pts t) [] = this p /\ normal_of t a = p_nrm p
    /\ p_att p = (i, x, y) /\ record t a = Some [6; b; i; x; y; 0]%nat
    /\ seed_near u (vec (other p)) b.
(** No two seeds of a tree are within 1e-10. *)
Definition distinct_seeds (t : stree R) : Prop :=
  forall a b, (a < count t)%nat -> (b < count t)%nat -> a <> b -> 1 / 10 ^ 10 <= vdist 3 (center t a) (center t b).

(** One of the points is inside another ball and the other is not, and none of the
    surface spheres of [c] (the spheres involved) contains a meeting point of three others of the list.
    [pv], [nrm]: the power vertices and normals computed for the list. *)
Definition sphere_of (all : list (list R)) (c : list nat) (m : nat) : nat -> R := centre all (nth m c 0%nat).
Definition resolvable (all : list (list R)) (ns : nat) (pv nrm : nat -> nat -> nat -> nat -> R) (c : list nat) (a b d l : nat) : Prop :=
  half_covered (length c) (sphere_of all c) (fun m => negb (Nat.ltb (nth m c 0%nat) ns))
    (fun a b d => meeting (sphere_of all c a) (pv a b d) (nrm a b d) true)
    (fun a b d => meeting (sphere_of all c a) (pv a b d) (nrm a b d) false) a b d l.
(** The radius that takes sphere l off the points. *)
Definition resolved_radius (all : list (list R)) (pv nrm : nat -> nat -> nat -> nat -> R) (c : list nat) (a b d l : nat) : R :=
  95 / 100 * nearer (sphere_of all c) (meeting (sphere_of all c a) (pv a b d) (nrm a b d) true)
     (meeting (sphere_of all c a) (pv a b d) (nrm a b d) false) l.
(** The spheres involved in a half covered triple: the triple and balls that contain one of the
    points. *)
Definition involved (all : list (list R)) (i j k : nat) (p : pair R) (c : list nat) : Prop :=
  In i c /\ In j c /\ In k c
  /\ (exists m, In m c /\ others all i j k m)
  /\ forall m, In m c -> m = i \/ m = j \/ m = k
       \/ (others all i j k m /\ (vdist 3 (vec (p_up p)) (centre all m) < rad all m + 1 / 10 ^ 10
                                  \/ vdist 3 (vec (p_lo p)) (centre all m) < rad all m + 1 / 10 ^ 10)).

(** Seeds of a tree are at least a hundredth of the radius of their (first two) surface spheres apart. *)
Definition small_radius (ss : stree R) (i x : nat) : R :=
  if Nat.ltb x (count ss) then Rmin (radius ss i) (radius ss x) else radius ss i.
Definition spaced (ss t : stree R) : Prop :=
  forall a b q i x y, (a < count t)%nat -> (b < count t)%nat -> a <> b ->
    record t a = Some [6; q; i; x; y; 0]%nat -> small_radius ss i x / 100 <= vdist 3 (center t a) (center t b).

(** What must have happened to each triple: [sh]: some sphere shrank; ss' are the surface spheres afterwards. *)
Definition settled (ss es cs : stree R) (face : nat -> nat -> nat -> R) (pv nrm : list nat -> nat -> nat -> nat -> nat -> R)
  (ss' u l : stree R) (sh : bool) (i j k : nat) (p : pair R) : Prop :=
  let all := all_spheres ss es cs in
  (buried all i j k (vec (p_up p)) (1 / 10 ^ 10) /\ buried all i j k (vec (p_lo p)) (1 / 10 ^ 10))
  \/ (accepted ss es cs face i j k p
      /\ (sh = true \/ (exists a, seed_near u (vec (p_up p)) a) /\ (exists b, seed_near l (vec (p_lo p)) b)))
  \/ (exists c, involved all i j k p c
        /\ (((forall a b d q, ~ resolvable all (count ss) (pv c) (nrm c) c a b d q)
             /\ ((buried all i j k (vec (p_up p)) (1 / 10 ^ 10) /\ ~ buried all i j k (vec (p_lo p)) 0)
                 \/ (buried all i j k (vec (p_lo p)) (1 / 10 ^ 10) /\ ~ buried all i j k (vec (p_up p)) 0)))
            \/ (sh = true /\ exists a b d q, resolvable all (count ss) (pv c) (nrm c) c a b d q
                  /\ (nth q c 0 < count ss)%nat /\ radius ss' (nth q c 0%nat) <= resolved_radius all (pv c) (nrm c) c a b d q))).

(** Points of different pairs are not within 1e-10 of each other. *)
Definition separate (acc : nat -> nat -> nat -> pair R -> Prop) : Prop :=
  forall i j k p i' j' k' p', acc i j k p -> acc i' j' k' p' ->
    vdist 3 (vec (p_up p)) (vec (p_up p')) < 1 / 10 ^ 10 \/ vdist 3 (vec (p_lo p)) (vec (p_lo p')) < 1 / 10 ^ 10 ->
    i = i' /\ j = j' /\ k = k'.
(** Seed a of [u] and seed a of [l] are the two points of one pair and record each other. *)
Definition mutual (acc : nat -> nat -> nat -> pair R -> Prop) (u l : stree R) : Prop :=
  count u = count l /\ forall a, (a < count u)%nat -> exists i j k p x y,
    acc i j k p /\ nth a (st_pts u) [] = p_up p /\ nth a (st_pts l) [] = p_lo p /\ p_att p = (i, x, y)
    /\ record u a = Some [6; a; i; x; y; 0]%nat /\ record l a = Some [6; a; i; x; y; 0]%nat.
(** No ball other than those of its triple comes within 1e-10 of an accepted point. *)
Definition clear_pairs (ss es cs : stree R) (face : nat -> nat -> nat -> R) : Prop :=
  let all := all_spheres ss es cs in
  forall i j k p, accepted ss es cs face i j k p ->
    ~ buried all i j k (vec (p_up p)) (1 / 10 ^ 10) /\ ~ buried all i j k (vec (p_lo p)) (1 / 10 ^ 10).

(** The merged list: upper seeds, then lower seeds; partners of upper seeds are shifted by the number of
    upper seeds. *)
Definition shifted (n : nat) (r : option (list nat)) : option (list nat) :=
  match r with Some (x :: p :: t) => Some (x :: (p + n)%nat :: t) | r => r end.
Definition merged (u l s : stree R) : Prop :=
  st_pts s = st_pts u ++ st_pts l
  /\ (forall a, (a < count u)%nat -> record s a = shifted (count u) (record u a) /\ normal_of s a = normal_of u a)
  /\ (forall b, (b < count l)%nat -> record s (count u + b) = record l b /\ normal_of s (count u + b) = normal_of l b).
