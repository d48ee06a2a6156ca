(** What a round of samples should be. *)
From Coq Require Import Reals.
From Verif Require Import Base Num Vec KdSpec SmartTree SmartTreeSpec GeometrySpec Geometry Spheres SpheresSpec ActivePool ActivePoolSpec ActivePoolRunSpec SamplePool.
Local Open Scope R_scope.

(** A cloud of points with a normal each. *)
Definition cloud (s : stree R) (nrm : list (list R)) : Prop :=
  ready s /\ st_nd s = 3%nat /\ st_nrm s = Some nrm /\ length nrm = count s /\ forall v, In v nrm -> (3 <= length v)%nat.
Definition normals_of (s : stree R) : list (list R) := match st_nrm s with Some l => l | None => [] end.
Definition cloud_or_empty (s : stree R) : Prop := st_pts s = [] \/ cloud s (normals_of s).
(** Inputs the routine can work with. *)
Definition good_sizing (points : list (list R)) (faces : list (list nat)) (z : sizing R) (cs : stree R) : Prop :=
  cloud (z_cloud z) (normals_of (z_cloud z)) /\ cloud_or_empty (z_edges z) /\ cloud_or_empty cs
  /\ (forall t, z_input z = Some t -> spheres t /\ forall q, on_mesh points faces q -> exists j, (j < count t)%nat /\ vdist 3 q (center t j) < dbl_max)
  /\ length (z_normals z) = length faces /\ (forall n, In n (z_normals z) -> (3 <= length n)%nat)
  /\ z_rmax z <= 2 / 5 * dbl_max.

(** The upper limits on the radius of a sphere with centre x on face f: 0.4 times the distance to points of the clouds
    that are not smoothly connected; the input sizing at its nearest point [c]; and, for the spheres [near],
    the distance at which the new sphere would cover their centre and the slope Lip. *)
Definition limit (z : sizing R) (ss cs : stree R) (near : list nat) (c : nat) (x : list R) (f : nat) (v : R) : Prop :=
  v = z_rmax z
  \/ (exists j, (j < count (z_cloud z))%nat
        /\ ~ smooth_both (z_cloud z) (normals_of (z_cloud z)) x (nth f (z_normals z) []) (z_thr z) j
        /\ v = 2 / 5 * vdist 3 (vec x) (center (z_cloud z) j))
  \/ (exists t, z_input z = Some t /\ v = radius t c)
  \/ (exists j, (j < count (z_edges z))%nat /\ ~ smooth_edge (z_edges z) (normals_of (z_edges z)) x (z_rmin z) (z_thr z) j
        /\ v = 2 / 5 * vdist 3 (vec x) (center (z_edges z) j))
  \/ (exists j, (j < count cs)%nat /\ ~ smooth_edge cs (normals_of cs) x (z_rmin z) (z_thr z) j
        /\ v = 2 / 5 * vdist 3 (vec x) (center cs j))
  \/ (exists j, In j near /\ (v = vdist 3 (vec x) (center ss j) / sqrt (1 - z_ratio z * z_ratio z)
                              \/ v = radius ss j + z_Lip z * vdist 3 (vec x) (center ss j))).
Definition least_of (P : R -> Prop) (m : R) : Prop := P m /\ forall v, P v -> m <= v.
Definition nearest_input (z : sizing R) (x : list R) (c : nat) : Prop :=
  forall t, z_input z = Some t -> (c < count t)%nat /\ forall j, (j < count t)%nat -> vdist 3 (vec x) (center t c) <= vdist 3 (vec x) (center t j).

(** The spheres that overlap the ball with centre x and radius r: none but those (up to 1e-10), and all of them if the radii have
    slope L < 1. *)
Definition overlapping (ss : stree R) (L : R) (x : nat -> R) (r : R) (near : list nat) : Prop :=
  (forall j, In j near -> (j < count ss)%nat /\ vdist 3 x (center ss j) < r + radius ss j + 1 / 10 ^ 10)
  /\ (0 <= L < 1 -> lipschitz L ss -> forall j, (j < count ss)%nat -> vdist 3 x (center ss j) < r + radius ss j -> In j near).
(** The sample is a point of an active element of its face. *)
Definition on_active (points : list (list R)) (faces : list (list nat)) (p : pool R) (s : sample R) : Prop :=
  length (sm_row s) = 4%nat
  /\ exists i t, nth_error (p_parent p) i = Some (sm_face s) /\ element points faces p i t /\ in_tri t (vec (sm_row s)).
(** Sphere [b] covers the centre of [a]. *)
Definition covers_sample (ratio : R) (b a : sample R) : Prop :=
  vdist 3 (vec (sm_row a)) (vec (sm_row b)) < reach (fraction ratio) (vec (sm_row b) 3%nat).
(** Covered by a sphere present before the round. *)
Definition covered_before (ratio : R) (ss es cs : stree R) (x : nat -> R) : Prop :=
  in_sphere_of cs 1 x \/ in_sphere_of es 1 x \/ in_sphere_of ss (fraction ratio) x.

(** The round: sample t and those before it.  [old] are the radii in the buffers before the round. *)
Definition good_sample (points : list (list R)) (faces : list (list nat)) (p : pool R) (z : sizing R) (ss es cs : stree R)
  (num : nat) (old : R) (before : list (sample R)) (s : sample R) : Prop :=
  on_active points faces p s
  /\ (sm_covered s = true -> covered_before (z_ratio z) ss es cs (vec (sm_row s))
        \/ exists b, In b before /\ sm_covered b = false /\ covers_sample (z_ratio z) b s)
  /\ (sm_covered s = false ->
        (forall b, In b before -> sm_covered b = false -> ~ covers_sample (z_ratio z) b s)
        /\ (0 <= z_Lip z < 1 -> positive_radii ss -> forall j, (j < count ss)%nat -> 0 < vdist 3 (vec (sm_row s)) (center ss j))
        /\ (forall t alpha, (t = ss /\ alpha = z_ratio z) \/ (t = es \/ t = cs) /\ alpha = 0 ->
              0 <= z_Lip z < 1 -> locally_lipschitz (z_Lip z) t ->
              forall j, (j < count t)%nat -> vdist 3 (vec (sm_row s)) (center t j) < radius t j -> ~ covers t (fraction alpha) j (vec (sm_row s)))
        /\ let x := firstn 3 (sm_row s) ++ [old] in (* the centre *)
           exists near c m, (num = 0%nat -> near = []) /\ (num <> 0%nat -> overlapping ss (z_Lip z) (vec x) old near)
             /\ nearest_input z x c
             /\ least_of (limit z ss cs near c x (sm_face s)) m
             /\ vec (sm_row s) 3%nat = Rmax m (z_rms z)).
