(** What the contents of a MeshingSmartTree should be after a sequence of calls. *)
From Verif Require Import Base Num SmartTree Vec KdSpec.
From Coq Require Import Reals Lra.
Local Open Scope R_scope.

(** A stored point: coordinates, normal, block of attributes. *)
Record item := It { it_x : list R; it_n : list R; it_a : option (list nat) }.

(** The item a call add_tree_point(x, normal, attrib) stores: a missing normal is
    the zero vector; a block of attributes starts with its own length. *)
Definition item_of (nd : nat) (x : list R) (nv : option (list R)) (av : option (list nat)) : item :=
  It x (match nv with None => repeat 0 nd | Some l => firstn nd l end)
     (match av with None => None | Some l => Some (firstn (hd 0%nat l) l) end).

(** Arguments a caller may pass. *)
Definition good_args (nd : nat) (x : list R) (nv : option (list R)) (av : option (list nat)) : Prop :=
  (nd <= length x)%nat
  /\ (forall l, nv = Some l -> (nd <= length l)%nat)
  /\ (forall l, av = Some l -> l <> [] /\ (hd 0 l <= length l)%nat).
Definition good_op (nd : nat) (o : op R) : Prop :=
  match o with OpAdd x nv av => good_args nd x nv av | _ => True end.

(** The items added by a sequence of calls, in order. *)
Fixpoint added (nd : nat) (l : list (op R)) : list item :=
  match l with
  | [] => []
  | OpAdd x nv av :: t => item_of nd x nv av :: added nd t
  | _ :: t => added nd t
  end.

(** The tree object stores exactly these items. *)
Definition holds (s : stree R) (l : list item) : Prop :=
  st_pts s = map it_x l /\ st_nrm s = Some (map it_n l) /\ st_att s = Some (map it_a l).

(** The links of the object are a kd-tree of its points (see KdSpec.v), and the
    recorded height is the height of that tree. *)
Definition valid_tree (s : stree R) : Prop :=
  exists t, kd_tree Rltb (coord (st_pts s)) (st_nd s) (length (st_pts s))
              (fst (st_lk s)) (snd (st_lk s)) (st_org s) t
    /\ Nat.max 1 (st_h s) = height t.

(** [m] is the least (greatest) value of [f] on [l]. *)
Definition least {A} (m : R) (f : A -> R) (l : list A) : Prop :=
  (forall a, In a l -> m <= f a) /\ exists a, In a l /\ f a = m.
Definition greatest {A} (m : R) (f : A -> R) (l : list A) : Prop :=
  (forall a, In a l -> f a <= m) /\ exists a, In a l /\ f a = m.

(** A tree object that can be queried. *)
Definition ready (s : stree R) : Prop :=
  (0 < st_nd s)%nat /\ st_pts s <> [] /\ (forall p, In p (st_pts s) -> (st_nd s <= length p)%nat)
  /\ valid_tree s.

(** Distance from [x] to the stored point j, and the whole set of points. *)
Definition dist_to (s : stree R) (x : list R) (j : nat) : R :=
  edist (st_nd s) (coord (st_pts s)) x j.
Definition all_points (s : stree R) : list nat := seq 0 (length (st_pts s)).

(** Smoothness filters.  [offset]: from point j to [x];  the sine and cosine of the
    angle between the offset and a vector (cosine 0 and sine 1 for orthogonal ones). *)
Definition offset (s : stree R) (x : list R) (j : nat) : nat -> R :=
  fun k => vec x k - coord (st_pts s) j k.
Definition cosine (nd : nat) (u v : nat -> R) : R := Vec.dot nd u v / Vec.norm nd u.
Definition sine (nd : nat) (u v : nat -> R) : R := sqrt (1 - cosine nd u v * cosine nd u v).
Definition normal_at (nrm : list (list R)) (j : nat) : nat -> R := vec (nth j nrm []).

(** The offset makes a small angle with the tangent plane of point j, or j is
    within the tolerance. *)
Definition smooth_from (s : stree R) nrm (x : list R) (tol thr : R) (j : nat) : Prop :=
  (tol < Vec.norm (st_nd s) (offset s x j) /\ thr < sine (st_nd s) (offset s x j) (normal_at nrm j))
  \/ (Vec.norm (st_nd s) (offset s x j) <= tol /\ thr < 1).
Definition smooth_both (s : stree R) nrm (x xn : list R) (thr : R) (j : nat) : Prop :=
  Vec.norm (st_nd s) (offset s x j) <= 1 / 10 ^ 10
  \/ (thr < sine (st_nd s) (offset s x j) (normal_at nrm j) /\ thr < sine (st_nd s) (offset s x j) (vec xn)).
Definition smooth_some (s : stree R) nrm (x : list R) (ns : list (list R)) (thr : R) (j : nat) : Prop :=
  ((1 / 10 ^ 10 < Vec.dot (st_nd s) (offset s x j) (offset s x j)
    /\ thr < sine (st_nd s) (offset s x j) (normal_at nrm j))
   \/ (Vec.dot (st_nd s) (offset s x j) (offset s x j) <= 1 / 10 ^ 10 /\ thr < 1))
  /\ exists u, In u ns /\ thr < Rabs (Vec.dot (st_nd s) (vec u) (normal_at nrm j)).
Definition smooth_edge (s : stree R) nrm (x : list R) (tol thr : R) (j : nat) : Prop :=
  (tol < Vec.norm (st_nd s) (offset s x j) /\ thr < Rabs (cosine (st_nd s) (offset s x j) (normal_at nrm j)))
  \/ (Vec.norm (st_nd s) (offset s x j) <= tol /\ thr < 1).

(** In the mesher: point j is on the side of [x] the direction points to (every
    point is, if no direction is given); the coordinates of point q. *)
Definition on_side (nd : nat) (pts : list R) (x : list R) (dir : option (list R)) (j : nat) : Prop :=
  match dir with
  | None => True
  | Some e => 0 <= Vec.dot nd (fun k => flat_coord nd pts j k - vec x k) (vec e)
  end.
Definition flat_row (nd : nat) (pts : list R) (q : nat) : list R := map (flat_coord nd pts q) (seq 0 nd).
