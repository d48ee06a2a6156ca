(** C65: the loop that places the surface spheres. *)
From Coq Require Import Reals Lra Permutation.
From Verif Require Import Base Num Vec KdTree SmartTree KdSpec SmartTreeSpec TreeGrow DenseQR Geometry GeometrySpec
  Spheres SpheresSpec ActivePool ActivePoolSpec ActivePoolRunSpec PropsActivePool
  SamplePool SamplePoolSpec PropsSamplePool SeedPairs SeedPairsSpec PolyMesh PolyMeshSpec Validate ValidateSpec
  SurfaceLoop SurfaceLoopSpec SurfaceShrinkProofs SurfaceLoopProofs SurfaceLoopCase.
Local Open Scope R_scope.

(** If the routine ends, its spheres cover the surface and its seeds are complete and form a closed surface: see [surface_result].
    (The spheres at the end must be far from overflow, and the random directions of the last pass must give power vertices.) *)
Theorem C65_surface w e T fuel inner mem ss u l :
  good_setting w -> good_environment e T -> length mem = T ->
  generate_surface_spheres w e fuel inner mem = Ok (ss, u, l) ->
  moderate (all_spheres ss (s_es w) (s_cs w)) -> (forall it, SeedPairsSpec.usable (all_spheres ss (s_es w) (s_cs w)) (e_darts e it)) ->
  surface_result w ss u l.
Proof.
  intros Hw He Hm E. refine (@surface_loop_ok w e T Hw He fuel inner 0 _ 100 _ _ ss u l _ _ _ _ E); auto; [|lia].
  split; [apply stock_new|]. split; auto.
Qed.

(** The block that should shrink spheres at narrow regions never changes a sphere: corner 3 of the
    face is never read, the triangle is flat, its normal zero, and the threshold below 1. *)
Theorem C65_narrow w ss num ss' b : z_thr (s_z w) < 1 -> narrow w ss num = Ok (ss', b) -> ss' = ss /\ b = false.
Proof. intros H. apply narrow_id. exact H. Qed.

(** Nothing to sample, no spheres: the routine reads outside its arrays (impose_lipschitz_continuity on an empty tree). *)
Theorem C65_no_samples_refuted w e inner ups los np : z_rmin (s_z w) <= 0 ->
  forall st, fill_patches w e inner inner st 0 np = Ok (st, np) -> st_pts (g_ss st) = [] ->
  surface_loop w e 1 inner 0 st np ups los = UB.
Proof.
  intros Hz st E En. cbn [surface_loop]. rewrite E. cbn [bind]. unfold narrow. change (nltb n0 (z_rmin (s_z w))) with (Rltb 0 (z_rmin (s_z w))).
  assert (E0 : Rltb 0 (z_rmin (s_z w)) = false) by (apply Rltb_false; lra). rewrite E0. cbn [bind]. rewrite PropsSpheres.C29_no_spheres_refuted by auto. reflexivity.
Qed.

(** A case: one triangle. *)
Example C65_hypotheses : exists ss, good_setting case_setting /\ good_environment case_environment 1
  /\ generate_surface_spheres case_setting case_environment 1 101 [0] = Ok (ss, st_new 3, st_new 3)
  /\ count ss = 1%nat /\ radius ss 0 = 10
  /\ moderate (all_spheres ss (s_es case_setting) (s_cs case_setting))
  /\ forall it, SeedPairsSpec.usable (all_spheres ss (s_es case_setting) (s_cs case_setting)) (e_darts case_environment it).
Proof.
  destruct lone_case as (ss & E & (_ & Hc & Hr) & Hm & Hu). exists ss. split; [apply case_setting_ok|]. split; [apply case_environment_ok|]. auto.
Qed.

(** Run in double precision on an octahedron: random numbers that choose the corners of the faces give six spheres, eight pairs of seeds and
    a closed surface of eight triangles. *)
Local Open Scope num_scope.
Notation float := PrimFloat.float.
Definition low (n : Z) : float := nofZ n.
Definition octa_points : list (list float) :=
  [[n1; n0; n0]; [n0; n1; n0]; [n0; n0; n1]; [low (-1); n0; n0]; [n0; low (-1); n0]; [n0; n0; low (-1)]].
Definition octa_faces : list (list nat) :=
  [[3; 0; 1; 2]; [3; 0; 2; 4]; [3; 0; 4; 5]; [3; 0; 5; 1]; [3; 3; 2; 1]; [3; 3; 4; 2]; [3; 3; 5; 4]; [3; 3; 1; 5]]%nat.
Definition octa_normals : list (list float) :=
  map (fun f => let v := snd (triangle_normal (fun k => gv (nth (nth (S k) f 0%nat) octa_points []))) in [v 0%nat; v 1%nat; v 2%nat]) octa_faces.
Definition octa_cloud : res (stree float) := add_point (fun _ _ => false) (st_new 3) [low 100; low 100; low 100] (Some [n0; n0; n1]) None.
Definition octa_setting (c : stree float) : setting float :=
  Setting octa_points octa_faces (Sizing c (st_new 3) None octa_normals n0 (nlit 9 1) (nlit 95 2) (nlit 25 2) (nlit 4 1) n0) (st_new 3) (st_new 3).
(** Three numbers for each sample: the face, and the corner of the face. *)
Definition octa_random (t j : nat) : float :=
  let near1 := n1 - nlit 1 15 in
  let face := nofZ (Z.of_nat (j / 9 mod 8)) / nofZ 8 + nlit 1 2 in
  match (j mod 9)%nat with 0 | 3 | 6 => face | 1 | 2 | 5 => near1 | _ => n0 end%nat.
Definition octa_darts (it i j k a d : nat) : float := nofZ 2 * nofZ (Z.of_nat ((a * 7 + d * 5 + i + j * 3 + k * 11) mod 13)) / nofZ 13 - n1.
Definition octa_environment : environment float :=
  Env (fun _ _ => false) octa_random (fun _ p => in_order (p_size p / 1 + 1) 1) octa_darts
    (fun _ _ _ _ _ => n0) (fun _ _ _ _ _ _ => n0) (fun _ _ _ _ _ _ => n0).
Definition seed_triangles (t : stree float) : list (list nat) := match seed_faces t with Ok l => l | _ => [] end.
Example C65_run :
  match (c <- octa_cloud ;; generate_surface_spheres (octa_setting c) octa_environment 3 1200 [n0]) with
  | Ok (ss, u, l) => st_n ss = 6%nat /\ st_n u = 8%nat /\ st_n l = 8%nat
      /\ validate_surface_mesh ss (st_new 3) (st_new 3) (seed_triangles l) = Ok (ss, true)
      /\ map (fun x => gv x 3%nat) (st_pts ss) = repeat (nlit 95 2) 6
  | _ => False end.
Proof. vm_compute. repeat split; reflexivity. Qed.

Print Assumptions C65_surface.
Print Assumptions C65_narrow.
Print Assumptions C65_no_samples_refuted.
