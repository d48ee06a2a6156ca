(** What the surface spheres and the surface seeds should be at the end. *)
From Coq Require Import Reals.
From Verif Require Import Base Num Vec KdSpec SmartTree SmartTreeSpec Geometry GeometrySpec Spheres SpheresSpec ActivePool ActivePoolSpec
  ActivePoolThreadProofs ActivePoolRunSpec SamplePool SamplePoolSpec SeedPairs SeedPairsSpec PolyMeshSpec ValidateSpec SurfaceLoop.
Local Open Scope R_scope.

(** A mesh, feature spheres and parameters the routine can work with. *)
Definition good_setting (w : setting R) : Prop :=
  let z := s_z w in
  good_points (s_points w) /\ good_faces (s_points w) (s_faces w) /\ good_sizing (s_points w) (s_faces w) z (s_cs w)
  /\ ActivePoolSpec.usable (on_mesh (s_points w) (s_faces w)) (s_es w) /\ ActivePoolSpec.usable (on_mesh (s_points w) (s_faces w)) (s_cs w)
  /\ sphere_set (z_Lip z) (s_es w) /\ sphere_set (z_Lip z) (s_cs w) /\ lipschitz (z_Lip z) (s_es w) /\ lipschitz (z_Lip z) (s_cs w)
  /\ 0 <= z_Lip z < 1 /\ z_thr z < 1 /\ 0 <= z_rms z <= z_rmax z
  /\ (forall p q, on_mesh (s_points w) (s_faces w) p -> on_mesh (s_points w) (s_faces w) q -> vdist 3 p q < dbl_max).
(** Random numbers in [0, 1), and each of the T threads does its share of each refinement. *)
Definition good_environment (e : environment R) (T : nat) : Prop :=
  (1 <= T)%nat /\ (forall t j, 0 <= e_u e t j < 1) /\ forall k p, finished (p_size p / T + 1) T (e_sched e k p).

(** Sphere i of ss was placed on face f of the mesh. *)
Definition placed_on (w : setting R) (ss : stree R) (i f : nat) : Prop :=
  record ss i = Some [2; f]%nat /\ (f < length (s_faces w))%nat /\ in_tri (face_tri (s_points w) (s_faces w) f) (center ss i).
(** Corners of the face of sphere i. *)
Definition facing (w : setting R) (ss : stree R) (i k : nat) : nat -> R :=
  match record ss i with Some [_; f] => vec (face_corner (s_points w) (s_faces w) f k) | _ => fun _ => 0 end.

(** Three balls overlap, and their spheres meet in two points. *)
Definition meets (all : list (list R)) (i j k : nat) : Prop :=
  touching all i j /\ touching all i k /\ touching all j k /\ 1 / 10 ^ 10 <= area (triangle all i j k)
  /\ exists x, in_hull 3 3 (triangle all i j k) x /\ power 3 x (centre all j) (rad all j) = power 3 x (centre all i) (rad all i)
       /\ power 3 x (centre all k) (rad all k) = power 3 x (centre all i) (rad all i) /\ vdist 3 x (centre all i) <= rad all i - 1 / 10 ^ 10.
(** Both points are in other balls, or both are seeds, or just one is in another ball. *)
Definition treated (all : list (list R)) (u l : stree R) (i j k : nat) (p : pair R) : Prop :=
  let up := vec (p_up p) in let lo := vec (p_lo p) in let e := 1 / 10 ^ 10 in
  (buried all i j k up e /\ buried all i j k lo e)
  \/ ((exists a, seed_near u up a) /\ exists b, seed_near l lo b)
  \/ (buried all i j k up e /\ ~ buried all i j k lo 0) \/ (buried all i j k lo e /\ ~ buried all i j k up 0).

Definition surface_result (w : setting R) (ss u l : stree R) : Prop :=
  let z := s_z w in
  let acc := accepted ss (s_es w) (s_cs w) (facing w ss) in
  (* every point of the input surface is inside a sphere *)
  (forall q, on_mesh (s_points w) (s_faces w) q -> covered_surface (z_ratio z) (Scene ss (s_es w) (s_cs w)) q)
  (* the spheres lie on the surface, are not too large, and their radii change slowly *)
  /\ (forall i, (i < count ss)%nat -> exists f, placed_on w ss i f)
  /\ (forall i, (i < count ss)%nat -> radius ss i <= z_rmax z)
  /\ locally_lipschitz (z_Lip z) ss
  (* the seeds *)
  /\ seeds_of acc p_up p_lo u l /\ seeds_of acc p_lo p_up l u
  /\ distinct_seeds u /\ distinct_seeds l /\ spaced ss u /\ spaced ss l
  /\ (let all := all_spheres ss (s_es w) (s_cs w) in
      forall i j k, (i < j < k)%nat -> (k < length all)%nat -> (i < count ss)%nat -> meets all i j k ->
        exists p, good_pair all (snd (triangle_normal (facing w ss i))) i j k p /\ treated all u l i j k p)
  (* the triangles of the lower seeds form a surface without holes at the surface spheres *)
  /\ exists faces, length faces = count l
       /\ (forall a, (a < count l)%nat -> exists i j k p, acc i j k p /\ nth a (st_pts l) [] = p_lo p /\ Permutation (nth a faces []) [i; j; k])
       /\ closed_surface (count ss) faces.
