(** What a kd-tree is and what its queries mean, independently of KdTree.v. *)
From Verif Require Import Base Num SamplingSpec Vec.
From Coq Require Import Reals Lra.

(** A binary tree whose nodes are point numbers. *)
Inductive tree := Leaf | Node (i : nat) (left right : tree).

Fixpoint elements (t : tree) : list nat :=
  match t with
  | Leaf => []
  | Node i l r => i :: elements r ++ elements l
  end.
Fixpoint height (t : tree) : nat :=
  match t with
  | Leaf => 0
  | Node _ l r => S (Nat.max (height l) (height r))
  end.

(** The link arrays [lf], [rt] describe [t]: a node without a branch points to
    itself. *)
Definition root_or (i : nat) (t : tree) : nat :=
  match t with Leaf => i | Node j _ _ => j end.
Fixpoint represents (lf rt : list nat) (t : tree) : Prop :=
  match t with
  | Leaf => True
  | Node i l r => nth_error lf i = Some (root_or i l) /\ nth_error rt i = Some (root_or i r)
                  /\ represents lf rt l /\ represents lf rt r
  end.

(** Splitting planes: at depth k the coordinate k mod nd decides; a point whose
    coordinate exceeds that of the node is in the right branch, any other point in
    the left branch. *)
Fixpoint ordered {F} (ltb : F -> F -> bool) (P : nat -> nat -> F) (nd d : nat) (t : tree) : Prop :=
  match t with
  | Leaf => True
  | Node i l r =>
    (forall j, In j (elements l) -> ltb (P i (d mod nd)) (P j (d mod nd)) = false)
    /\ (forall j, In j (elements r) -> ltb (P i (d mod nd)) (P j (d mod nd)) = true)
    /\ ordered ltb P nd (S d) l /\ ordered ltb P nd (S d) r
  end.

(** The arrays are a kd-tree of the points 0..n-1: every point is reached from
    the root exactly once and is on its side of every splitting plane above it. *)
Definition kd_tree {F} (ltb : F -> F -> bool) (P : nat -> nat -> F) (nd n : nat)
  (lf rt : list nat) (root : nat) (t : tree) : Prop :=
  length lf = n /\ length rt = n
  /\ (exists l r, t = Node root l r)
  /\ represents lf rt t
  /\ Permutation (elements t) (seq 0 n)
  /\ ordered ltb P nd 0 t.

Local Open Scope R_scope.

(** Coordinate d of point i in a list of rows, and in one flat array. *)
Definition coord (pts : list (list R)) (i d : nat) : R := nth d (nth i pts []) 0.
Definition flat_coord (nd : nat) (pts : list R) (i d : nat) : R := nth (i * nd + d) pts 0.

(** Euclidean distance from [x] to point i. *)
Definition sqdist (nd : nat) (P : nat -> nat -> R) (x : list R) (i : nat) : R :=
  rsum (map (fun k => (nth k x 0 - P i k) * (nth k x 0 - P i k)) (seq 0 nd)).
Definition edist (nd : nat) (P : nat -> nat -> R) (x : list R) (i : nat) : R :=
  sqrt (sqdist nd P x i).

(** [out] is the answer of a nearest-point search among the points of [S] that
    satisfy [e], starting with the point and distance [inp]: either every such point
    is at least as far as the given distance and nothing changes, or the answer is a
    strictly closer point, nearest among all, with its distance. *)
Definition nearest (D : nat -> R) (e : nat -> Prop) (S : list nat) (inp out : nat * R) : Prop :=
  (out = inp /\ forall j, In j S -> e j -> snd inp <= D j)
  \/ (exists i, In i S /\ e i /\ out = (i, D i) /\ D i < snd inp
        /\ forall j, In j S -> e j -> D i <= D j).

(** [out] is [acc] followed by a list without repetitions of points of [S] that
    satisfy [e] and [inside], among them every one that satisfies [must]. *)
Definition collects (e inside must : nat -> Prop) (S acc out : list nat) : Prop :=
  exists l, out = acc ++ l /\ NoDup l /\ incl l S
    /\ (forall j, In j l -> e j /\ inside j)
    /\ (forall j, In j S -> e j -> must j -> In j l).

(** A list of coordinates as a vector. *)
Definition vec (x : list R) : nat -> R := fun k => nth k x 0.

(** Trimming the spoke  o + s dir  of the cell of [c]: seed j cuts it where the
    bisector of [c] and j is crossed (at 0 if the origin is already beyond it). *)
Definition heads_to (nd : nat) (P : nat -> nat -> R) (c dir : list R) (j : nat) : Prop :=
  1 / 10 ^ 8 < dot nd (vec dir) (fun k => P j k - vec c k).
Definition cut (nd : nat) (P : nat -> nat -> R) (c o dir : list R) (j : nat) : R :=
  Rmax 0 (dot nd (fun k => (P j k + vec c k) / 2 - vec o k) (fun k => P j k - vec c k))
  / dot nd (vec dir) (fun k => P j k - vec c k).
