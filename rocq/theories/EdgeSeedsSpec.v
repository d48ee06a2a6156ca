(** What the seeds added for the sharp edges should be, without the functions of the model.
    Spheres are rows [x; y; z; r] as in InteriorSpec.v. *)
From Coq Require Import Reals Lra.
From Verif Require Import Base Num Vec KdSpec InteriorSpec.
Local Open Scope R_scope.

(** [s] is on the other side of [so] than [sn] (or level with it). *)
Definition beyond (so sn s : list R) : Prop := 0 <= dot 3 (fun d => vec s d - vec so d) (fun d => vec so d - vec sn d).
(** The side of [so] away from [first]; both sides when there is no [first]. *)
Definition allowed (so : list R) (first : option (list R)) (s : list R) : Prop :=
  match first with None => True | Some sn => beyond so sn s end.

Section Neighbour.
  Variables (edge corner : list (list R)) (i : nat) (first : option (list R)).
  Let so := nth i edge [].
  (** The nearest other edge sphere on the side. *)
  Definition next_edge (j : nat) : Prop :=
    (j < length edge)%nat /\ j <> i /\ allowed so first (nth j edge [])
    /\ forall k, (k < length edge)%nat -> k <> i -> allowed so first (nth k edge []) ->
         cdist so (nth j edge []) <= cdist so (nth k edge []).
  (** The nearest corner sphere on the side. *)
  Definition next_corner (j : nat) : Prop :=
    (j < length corner)%nat /\ allowed so first (nth j corner [])
    /\ forall k, (k < length corner)%nat -> allowed so first (nth k corner []) ->
         cdist so (nth j corner []) <= cdist so (nth k corner []).
  (** The neighbour along the sharp edge: the nearest other edge sphere if it overlaps, else
      the nearest corner sphere. *)
  Definition neighbour (sn : list R) : Prop :=
    exists j, next_edge j
      /\ ((cdist so (nth j edge []) < rad so + rad (nth j edge []) /\ sn = nth j edge [])
          \/ (rad so + rad (nth j edge []) <= cdist so (nth j edge [])
              /\ exists k, next_corner k /\ sn = nth k corner [])).
  (** There is one, whichever of several nearest edge spheres is taken. *)
  Definition has_neighbour : Prop :=
    (exists j, next_edge j)
    /\ forall j, next_edge j -> cdist so (nth j edge []) < rad so + rad (nth j edge []) \/ exists k, next_corner k.
End Neighbour.

(** The spheres have different centres and their surfaces meet. *)
Definition meet (so sn : list R) : Prop :=
  0 < cdist so sn /\ Rabs (rad so - rad sn) <= cdist so sn <= rad so + rad sn.
(** [c] is centre and radius of the circle in which the two spheres meet. *)
Definition common_circle (so sn c : list R) : Prop :=
  length c = 4%nat /\ 0 <= rad c
  /\ (exists t, forall d, (d < 3)%nat -> vec c d = vec so d + t * (vec sn d - vec so d))
  /\ cdist c so * cdist c so + rad c * rad c = rad so * rad so
  /\ cdist c sn * cdist c sn + rad c * rad c = rad sn * rad sn.
(** [y] (three coordinates) is on that circle. *)
Definition on_circle (so sn c y : list R) : Prop :=
  length y = 3%nat /\ cdist y so = rad so /\ cdist y sn = rad sn /\ cdist y c = rad c.

Section Outcome.
  Variables (seeds : list (list R)) (regs : list nat) (surf : list (list R)).
  (** The distance of [x] to the nearest seed is h, and the region of that seed is r. *)
  Definition seed_near (x : list R) (h : R) (r : nat) : Prop :=
    exists p, nearest_sphere x seeds p /\ h = cdist x (nth p seeds []) /\ nth_error regs p = Some r.
  (** A seed may be put at [x], in region r, at distance h of the others. *)
  Definition usable (x : list R) (h : R) (r : nat) : Prop :=
    outside (1 / 10 ^ 10) x surf /\ seed_near x h r /\ r <> 0%nat /\ 1 / 10 ^ 10 <= h.
  (** [x] is inside a surface sphere, outside the model, or nearer than h to a seed. *)
  Definition useless (x : list R) (h : R) : Prop :=
    ~ outside (1 / 10 ^ 10) x surf \/ exists h' r, seed_near x h' r /\ (r = 0%nat \/ h' < h).
  (** Three different seeds in the sphere [c] (with the tolerance of the search). *)
  Definition crowded (c : list R) : Prop :=
    exists l, NoDup l /\ length l = 3%nat
      /\ Forall (fun m => (m < length seeds)%nat
                   /\ cdist c (nth m seeds []) * cdist c (nth m seeds []) < (1 + 2 / 10 ^ 6) * rad c * rad c) l.
  Definition surely_crowded (c : list R) : Prop :=
    exists l, NoDup l /\ length l = 3%nat
      /\ Forall (fun m => (m < length seeds)%nat /\ cdist c (nth m seeds []) < rad c) l.

  (** What is added for the spheres [so] and [sn]: nothing if there are three seeds in the
      sphere of their circle; else one of ten points of the circle, the usable one farthest
      from the seeds; nothing when no point is usable. *)
  Definition outcome (so sn : list R) (out : list (list R * nat)) : Prop :=
    exists c, common_circle so sn c
      /\ ((crowded c /\ out = [])
          \/ (~ surely_crowded c
              /\ exists cand, length cand = 10%nat /\ Forall (on_circle so sn c) cand
                   /\ ((out = [] /\ Forall (fun x => useless x (1 / 10 ^ 10)) cand)
                       \/ exists x h r, In x cand /\ usable x h r /\ out = [(x ++ [rad c], r)]
                            /\ Forall (fun x' => useless x' h \/ exists r', usable x' h r') cand))).
End Outcome.

(** All edge spheres: [outs] has one list for each. *)
Definition edge_outcome (seeds : list (list R)) (regs : list nat) (surf edge corner : list (list R)) (i : nat) (out : list (list R * nat)) : Prop :=
  exists sn1 sn2 out1 out2,
    neighbour edge corner i None sn1 /\ outcome seeds regs surf (nth i edge []) sn1 out1
    /\ neighbour edge corner i (Some sn1) sn2 /\ outcome seeds regs surf (nth i edge []) sn2 out2
    /\ out = out1 ++ out2.

(** Every edge sphere has a neighbour on both sides, which it meets. *)
Definition linked (edge corner : list (list R)) : Prop :=
  forall i, (i < length edge)%nat ->
    has_neighbour edge corner i None
    /\ forall sn, neighbour edge corner i None sn ->
         meet (nth i edge []) sn
         /\ has_neighbour edge corner i (Some sn)
         /\ forall sn', neighbour edge corner i (Some sn) sn' -> meet (nth i edge []) sn'.
(** All distances fit into a double. *)
Definition small_setting (seeds surf edge corner : list (list R)) : Prop :=
  forall so, In so edge -> in_range so edge /\ in_range so corner
    /\ forall y, cdist y so = rad so -> in_range y seeds /\ in_range y surf.
