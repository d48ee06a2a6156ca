(** What the vertices of a cell of the volume mesh should be, without the functions of the
    model. *)
From Coq Require Import Reals Lra.
From Verif Require Import Base Num Vec KdSpec InteriorSpec.
Local Open Scope R_scope.

(** Distinct seeds are at least d apart. *)
Definition separated (d : R) (seeds : list (list R)) : Prop :=
  forall i j, (i < length seeds)%nat -> (j < length seeds)%nat -> i <> j -> d <= cdist (nth i seeds []) (nth j seeds []).
(** The error allowed for the vertices of the cell of x with respect to the seed s. *)
Definition vertex_tol (d : R) (x s : list R) : R := 1 / 10 ^ 10 * Rmax 1 (2 * Rmax 1 (cdist x s) / d).
(** No seed is nearer to v than x. *)
Definition voronoi_vertex (d : R) (x : list R) (seeds : list (list R)) (v : list R) : Prop :=
  forall s, In s seeds -> cdist v x <= cdist v s + vertex_tol d x s.
(** The seed number o, which is not a ghost, is as far from v as x. *)
Definition owned_by (seeds : list (list R)) (regs : list nat) (x v : list R) (o : nat) : Prop :=
  (o < length seeds)%nat /\ nth o regs 0%nat <> 0%nat /\ Rabs (cdist v x - cdist v (nth o seeds [])) < 1 / 10 ^ 10.
(** v is as far from s as from x, and s is another point. *)
Definition equidistant (x s v : list R) : Prop := 0 < cdist x s /\ Rabs (cdist v x - cdist v s) <= 2 / 10 ^ 10.
