(** What the edge spheres should be. *)
From Coq Require Import Reals.
From Verif Require Import Base Num Vec KdSpec SmartTree SmartTreeSpec GeometrySpec SpheresSpec ActivePoolSpec ActivePoolRunSpec SamplePoolSpec SeedPairsSpec CornerSpec EdgeLoop.
Local Open Scope R_scope.

(** Points, edges, clouds, corner spheres and parameters the routine can work with. *)
Definition good_edge_setting (w : esetting R) : Prop :=
  let edge_points := on_edges (d_points w) (d_edges w) in
  good_points (d_points w) /\ good_edges (d_points w) (d_edges w)
  /\ cloud (d_cloud w) (normals_of (d_cloud w)) /\ cloud (d_ecloud w) (normals_of (d_ecloud w))
  /\ cloud (d_cs w) (normals_of (d_cs w)) /\ ActivePoolSpec.usable edge_points (d_cs w)
  /\ (forall t, d_input w = Some t -> spheres t /\ positive_radii t
        /\ forall q, edge_points q -> exists j, (j < count t)%nat /\ vdist 3 q (center t j) < dbl_max)
  /\ 0 <= d_tol w /\ d_thr w < 1 /\ 0 < d_rmax w <= 2 / 5 * dbl_max /\ 0 <= d_rme w <= d_rmax w
  /\ 0 <= d_Lip w < 1 /\ -1 < d_ratio w < 1
  /\ (forall p q, edge_points p -> edge_points q -> vdist 3 p q < dbl_max).

(** Sphere i was placed on edge e. *)
Definition on_edge (w : esetting R) (s : stree R) (i e : nat) : Prop :=
  record s i = Some [2; e]%nat /\ (e < length (d_edges w))%nat /\ in_seg (edge_seg (d_points w) (d_edges w) e) (center s i).
(** The coordinates of the centre of sphere i. *)
Definition centre_of (s : stree R) (i : nat) : list R := firstn 3 (nth i (st_pts s) []).

(** The radius allowed at x: 0.4 times the distance to every point of the clouds and to every corner sphere that is not smoothly connected
    to x (but the radius _r_min_edges is always allowed), and the input size at a nearest point of the sizing function. *)
Definition allowed (w : esetting R) (x : list R) (r : R) : Prop :=
  (forall j, (j < count (d_cloud w))%nat -> ~ smooth_from (d_cloud w) (normals_of (d_cloud w)) x (d_tol w) (d_thr w) j ->
     r <= Rmax (2 / 5 * vdist 3 (vec x) (center (d_cloud w) j)) (d_rme w))
  /\ (forall j, (j < count (d_ecloud w))%nat -> ~ smooth_edge (d_ecloud w) (normals_of (d_ecloud w)) x (d_tol w) (d_thr w) j ->
     r <= Rmax (2 / 5 * vdist 3 (vec x) (center (d_ecloud w) j)) (d_rme w))
  /\ (forall j, (j < count (d_cs w))%nat -> ~ smooth_edge (d_cs w) (normals_of (d_cs w)) x (d_tol w) (d_thr w) j ->
     r <= Rmax (2 / 5 * vdist 3 (vec x) (center (d_cs w) j)) (d_rme w))
  /\ (forall t, d_input w = Some t -> exists c, closest_size t (vec x) c /\ r <= radius t c).

(** The limits on the radius of a new sphere at x, without the input size: those above, rmax, and for the spheres [near] the distance at which
    the new sphere would cover their centre and the slope Lip. *)
Definition edge_limits (w : esetting R) (es : stree R) (near : list nat) (x : list R) (v : R) : Prop :=
  v = d_rmax w
  \/ (exists j, (j < count (d_cloud w))%nat /\ ~ smooth_from (d_cloud w) (normals_of (d_cloud w)) x (d_tol w) (d_thr w) j
        /\ v = 2 / 5 * vdist 3 (vec x) (center (d_cloud w) j))
  \/ (exists j, (j < count (d_ecloud w))%nat /\ ~ smooth_edge (d_ecloud w) (normals_of (d_ecloud w)) x (d_tol w) (d_thr w) j
        /\ v = 2 / 5 * vdist 3 (vec x) (center (d_ecloud w) j))
  \/ (exists j, (j < count (d_cs w))%nat /\ ~ smooth_edge (d_cs w) (normals_of (d_cs w)) x (d_tol w) (d_thr w) j
        /\ v = 2 / 5 * vdist 3 (vec x) (center (d_cs w) j))
  \/ (exists j, In j near /\ (v = vdist 3 (vec x) (center es j) / sqrt (1 - d_ratio w * d_ratio w)
                              \/ v = radius es j + d_Lip w * vdist 3 (vec x) (center es j))).

(** q is the point of the segment a b nearest to x. *)
Definition nearest_on (a b x q : nat -> R) : Prop :=
  on_segment a b q /\ forall y, on_segment a b y -> vdist 3 x q <= vdist 3 x y.
(** Sphere i respects the edge of an overlapping sphere j: unless the edge is seen at a flat angle, its radius is at most 0.4 times the distance to the edge
    (up to 1e-8). *)
Definition respects (w : esetting R) (s : stree R) (i j : nat) : Prop :=
  forall ei ej, record s i = Some [2; ei]%nat -> record s j = Some [2; ej]%nat -> ei <> ej ->
    let a := vec (edge_end (d_points w) (d_edges w) ej 0) in
    let b := vec (edge_end (d_points w) (d_edges w) ej 1) in
    1 / 10 ^ 10 <= vdist 3 b a ->
    exists q, nearest_on a b (center s i) q
      /\ let t := sub b a in
         let v := sub (center s i) q in
         let h := norm 3 v in
         (1 / 10 ^ 10 <= h -> Rabs (dot 3 t v / (norm 3 t * h)) <= d_thr w -> d_tol w <= 2 / 5 * h ->
          radius s i < (1 + 1 / 10 ^ 8) * Rmax (2 / 5 * h) (d_rme w)).

Definition edge_result (w : esetting R) (s : stree R) : Prop :=
  (* every point of every sharp edge is in a corner sphere or well inside an edge sphere *)
  (forall q, on_edges (d_points w) (d_edges w) q -> in_sphere_of (d_cs w) 1 q \/ in_sphere_of s (sqrt (1 - d_ratio w * d_ratio w)) q)
  (* the spheres are on the edges, at different places *)
  /\ (forall i, (i < count s)%nat -> exists e, on_edge w s i e)
  /\ (forall i j, (i < j < count s)%nat -> 0 < gap s i j)
  (* their radii *)
  /\ (forall i, (i < count s)%nat -> 0 < radius s i <= d_rmax w /\ allowed w (centre_of s i) (radius s i))
  /\ locally_lipschitz (d_Lip w) s
  /\ (forall i j, (i < count s)%nat -> (j < count s)%nat -> overlap s (fun d => coord (st_pts s) i d) j -> respects w s i j).
