(** What the spheres on the features and on the surface of an input should be. *)
From Coq Require Import Reals.
From Verif Require Import Base Num Vec KdSpec SmartTree SmartTreeSpec GeometrySpec SpheresSpec ActivePoolSpec ActivePoolRunSpec SamplePoolSpec
  FeatureSpec CornerSpheres CornerSpec EdgeLoop SamplePool SurfaceLoop SurfaceLoopSpec CleanClouds Placement.
Local Open Scope R_scope.

(** The point q is on the input surface; on a sharp edge of it. *)
Definition on_surface (points : list (list R)) (faces : list (list nat)) (q : nat -> R) : Prop :=
  exists f, In f faces /\ in_triangle (corner_points points f) q.
Definition on_sharp_edge (thr : R) (points : list (list R)) (faces : list (list nat)) (q : nat -> R) : Prop :=
  exists a b, is_sharp_edge thr points faces a b /\ a <> b /\ on_segment (at_point points a) (at_point points b) q.

(** Parameters in range, a sizing function with positive sizes, and no distances that overflow. *)
Definition good_request (points : list (list R)) (faces : list (list nat)) (q : request R) : Prop :=
  q_thr q < 1 /\ 0 < q_rmax q <= 2 / 5 * dbl_max /\ 0 <= q_Lip q < 1
  /\ (forall t, q_input q = Some t -> spheres t /\ positive_radii t
        /\ forall x, on_surface points faces x -> exists j, (j < count t)%nat /\ vdist 3 x (center t j) < dbl_max)
  /\ (forall x y, on_surface points faces x -> on_surface points faces y -> vdist 3 x y < dbl_max).
(** Random numbers in [0, 1), T threads that do their share, clouds that are not empty. *)
Definition good_chance (c : chance R) (T : nat) : Prop :=
  (forall k, 0 <= c_clouds c k < 1) /\ (forall k, 0 <= c_edges c k < 1) /\ good_environment (c_env c) T /\ length (c_mem c) = T
  /\ (0 < c_ebudget c)%nat /\ (0 < c_budget c)%nat /\ (2 <= c_fuel c)%nat.

(** What each stage is meant to work on: the clouds of the input, the sizing function, the tolerance 0, the threshold, rmax and Lip of the request, no least radii, and
    the fractions 1/2 for edges and 4/10 for faces. *)
Definition corner_stage (q : request R) (cf : clean_features R) : csetting R :=
  CSet (cf_surface cf) (cf_edge_cloud cf) (q_input q) 0 (q_thr q) (q_rmax q).
Definition edge_stage (points : list (list R)) (q : request R) (cf : clean_features R) (cs : stree R) : esetting R :=
  ESet points (map (fun e => [fst e; snd e]) (cf_edges cf)) (cf_surface cf) (cf_edge_cloud cf) (q_input q) cs 0 (q_thr q) (q_rmax q) (q_Lip q) (1 / 2) 0.
Definition surface_stage (points : list (list R)) (faces : list (list nat)) (q : request R) (cf : clean_features R) (normals : list (list R)) (es cs : stree R) : setting R :=
  Setting points (map (fun f => 3%nat :: f) faces)
    (Sizing (cf_surface cf) (cf_edge_cloud cf) (q_input q) normals 0 (q_thr q) (q_rmax q) (q_Lip q) (4 / 10) 0) es cs.

(** The corner spheres: one at each sharp corner, and no others; the radii are positive, at most rmax, at most 0.4 times the distance to the other
    corners and to the points of the clouds on the far side of a sharp feature, at most the size asked for there, and change slowly. *)
Definition corner_result (points : list (list R)) (faces : list (list nat)) (q : request R) (cf : clean_features R) (cs : stree R) : Prop :=
  (forall p, (p < length points)%nat -> is_sharp_corner (q_thr q) points faces p -> exists i, (i < count cs)%nat /\ corner_of cs i p)
  /\ (forall i, (i < count cs)%nat -> exists p, is_sharp_corner (q_thr q) points faces p /\ corner_of cs i p
        /\ (forall d, (d < 3)%nat -> center cs i d = at_point points p d)
        /\ clear_of_features (corner_stage q cf) (place points p) (radius cs i)
        /\ forall t, q_input q = Some t -> exists e, closest_size t (at_point points p) e /\ radius cs i <= radius t e)
  /\ (forall i, (i < count cs)%nat -> 0 < radius cs i <= q_rmax q)
  /\ (forall i j, (i < count cs)%nat -> (j < count cs)%nat -> i <> j -> radius cs i <= 2 / 5 * gap cs i j)
  /\ lipschitz (q_Lip q) cs.
