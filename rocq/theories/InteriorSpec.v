(** What the interior seeds of the volume mesh should be, without the functions of the
    model. *)
From Coq Require Import Reals Lra.
From Verif Require Import Base Num Vec KdSpec.
Local Open Scope R_scope.

(** A sphere is a row [x; y; z; r]. *)
Definition rad (s : list R) : R := nth 3 s 0.
(** Distance of the centres. *)
Definition cdist (a b : list R) : R := vdist 3 (vec a) (vec b).
Definition sphere (s : list R) : Prop := length s = 4%nat /\ 0 <= rad s.
(** The radii vary with slope at most L. *)
Definition slope (L : R) (l : list (list R)) : Prop :=
  forall a b, In a l -> In b l -> rad a <= rad b + L * cdist a b.
(** [p] is (up to the tolerance e) outside every sphere of [l]. *)
Definition outside (e : R) (p : list R) (l : list (list R)) : Prop :=
  forall s, In s l -> rad s - e <= cdist p s.
(** Distances fit into a double. *)
Definition in_range (p : list R) (l : list (list R)) : Prop := forall s, In s l -> cdist p s < dbl_max.
(** Sphere number i of [l] is the nearest to [p]. *)
Definition nearest_sphere (p : list R) (l : list (list R)) (i : nat) : Prop :=
  (i < length l)%nat /\ forall j, (j < length l)%nat -> cdist p (nth i l []) <= cdist p (nth j l []).

(** The same centres, radii not larger. *)
Definition shrunk (l l' : list (list R)) : Prop :=
  length l' = length l
  /\ forall i, (i < length l)%nat ->
       length (nth i l' []) = 4%nat
       /\ (forall d, (d < 3)%nat -> nth d (nth i l' []) 0 = nth d (nth i l []) 0)
       /\ rad (nth i l' []) <= rad (nth i l []).
(** The radii of [l'] vary with slope L (up to e) between spheres whose centres were within
    twice the first radius in [l]. *)
Definition near_slope (L e : R) (l l' : list (list R)) : Prop :=
  forall i j, (i < length l)%nat -> (j < length l)%nat ->
    cdist (nth i l []) (nth j l []) < 2 * rad (nth i l []) ->
    rad (nth i l' []) <= rad (nth j l' []) + L * cdist (nth i l []) (nth j l []) + e.
(** No assignment of radii below those of [l] with slope L exceeds those of [l']. *)
Definition above_all_slopes (L : R) (l l' : list (list R)) : Prop :=
  forall g : nat -> R,
    (forall i, (i < length l)%nat -> g i <= rad (nth i l [])) ->
    (forall i j, (i < length l)%nat -> (j < length l)%nat -> g i <= g j + L * cdist (nth i l []) (nth j l [])) ->
    forall i, (i < length l)%nat -> g i <= rad (nth i l' []).

(** Two front spheres may be processed together. *)
Definition far_apart (L : R) (a b : list R) : Prop := (3 + 2 * L) * (rad a + rad b) - 1 / 10 ^ 10 <= cdist a b.

(** ** Imposed points *)
Section Imposed.
  Variables (seeds : list (list R)) (regs : list nat) (surf edge corner : list (list R)).
  (** The imposed point q is kept, in region r. *)
  Definition survives (q : list R) (r : nat) : Prop :=
    exists c, nearest_sphere q seeds c /\ nth_error regs c = Some r /\ r <> 0%nat
      /\ outside (1 / 10 ^ 10) q surf /\ outside (1 / 10 ^ 10) q edge /\ outside (1 / 10 ^ 10) q corner.
  Definition is_dropped (q : list R) : Prop :=
    exists c, nearest_sphere q seeds c
      /\ (nth_error regs c = Some 0%nat
          \/ ~ outside (1 / 10 ^ 10) q surf \/ ~ outside (1 / 10 ^ 10) q edge \/ ~ outside (1 / 10 ^ 10) q corner).
  Inductive kept_of : list (list R) -> list (list R * nat) -> Prop :=
  | kept_nil : kept_of [] []
  | kept_yes q r l k : survives q r -> kept_of l k -> kept_of (q :: l) ((q, r) :: k)
  | kept_no q l k : is_dropped q -> kept_of l k -> kept_of (q :: l) k.
End Imposed.

(** ** New seeds *)
(** The seeds [l] with regions [regs], of which the first n0 were given: seed number k was
    added with the region of the nearest of the first m seeds (those that existed then),
    outside all given spheres, not larger than rmax and not larger than the size at the
    nearest sizing point. *)
Definition well_added (rmax : R) (fixed sizing : list (list R)) (n0 : nat) (l : list (list R)) (regs : list nat) (k : nat) : Prop :=
  exists m p, (n0 <= m <= k)%nat /\ (p < m)%nat
    /\ nth k regs 0%nat = nth p regs 0%nat /\ nth k regs 0%nat <> 0%nat
    /\ (forall j, (j < m)%nat -> cdist (nth k l []) (nth p l []) <= cdist (nth k l []) (nth j l []))
    /\ outside 0 (nth k l []) fixed
    /\ rad (nth k l []) <= rmax
    /\ (sizing = [] \/ exists i, nearest_sphere (nth k l []) sizing i /\ rad (nth k l []) <= rad (nth i sizing [])).

(** A dart of the seed [sk] that became a seed [y]; [l] are the seeds so far with regions
    [regs], number k is [sk], [fixed] the given spheres and [sizing] the sizing points. *)
Definition good_dart (L rmax : R) (fixed sizing l : list (list R)) (regs : list nat) (k : nat) (sk y : list R) : Prop :=
  length y = 4%nat /\ 0 <= rad y <= rmax /\ cdist y sk <= 2 * rad sk
  /\ outside 0 y fixed
  /\ (forall s, In s l -> cdist sk s < 3 / (1 - L) * rad sk -> rad s <= cdist y s)
  /\ (exists p, nearest_sphere y l p /\ nth p regs 0%nat = nth k regs 0%nat /\ rad y <= rad (nth p l []) + L * cdist y (nth p l []))
  /\ (sizing = [] \/ exists i, nearest_sphere y sizing i /\ rad y <= rad (nth i sizing [])).

(** A run: the given seeds [l0] (regions [regs0]) are kept, with radii that may only shrink,
    and every other seed is well added. *)
Definition extended (rmax : R) (fixed sizing l0 : list (list R)) (regs0 : list nat) (l : list (list R)) (regs : list nat) : Prop :=
  length regs = length l /\ (length l0 <= length l)%nat
  /\ Forall sphere l
  /\ (forall i, (i < length l0)%nat ->
       (forall d, (d < 3)%nat -> nth d (nth i l []) 0 = nth d (nth i l0 []) 0) /\ rad (nth i l []) <= rad (nth i l0 [])
       /\ nth i regs 0%nat = nth i regs0 0%nat)
  /\ (forall k, (length l0 <= k < length l)%nat -> well_added rmax fixed sizing (length l0) l regs k).
