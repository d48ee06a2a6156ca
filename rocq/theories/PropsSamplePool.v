(** C66: a round of samples of the active faces. *)
From Coq Require Import Reals Lra.
From Verif Require Import Base Num Vec KdTree KdSpec SmartTree SmartTreeSpec SmartQueryProofs DenseQR Geometry GeometrySpec GeometryProofs Spheres SpheresSpec SpheresProofs
  SpheresOverlapProofs Sampling SamplingSpec SamplingProofs ActivePool ActivePoolSpec ActivePoolThreadProofs ActivePoolProofs
  ActivePoolStartProofs ActivePoolRunSpec ActivePoolRunProofs ActivePoolCoverProofs PropsSpheres PropsActivePool SamplePool SamplePoolSpec SamplePoolProofs.
Local Open Scope R_scope.

(** Every thread gives one sample, a point of an active element; a sample is dropped only if a sphere covers it; the radius of the others is
    the least of the limits, but at least _r_min_surface. *)
Theorem C66_round points faces p z ss es cs num u k old :
  good_points points -> good_faces points faces -> reached points faces p -> (0 < p_size p)%nat ->
  good_sizing points faces z cs -> usable_scene points faces (Scene ss es cs) -> (forall t j, 0 <= u t j < 1) ->
  exists l, sample_active_pool points faces p z ss es cs num u k old = Ok l /\ length l = length old
    /\ forall t s, nth_error l t = Some s -> good_sample points faces p z ss es cs num (nth t old 0) (firstn t l) s.
Proof.
  intros H1 H2 H3 H4 H5 H6 Hu. destruct (@sample_active_pool_ok points faces p z ss es cs num H1 H2 H3 H4 H5 H6 u k old Hu) as (l & E & L & G).
  exists l. split; auto. split; auto. intros t s Es. assert (Ht : (t < length l)%nat) by (apply nth_error_Some; congruence).
  rewrite <- (nth_error_nth _ _ no_sample Es). apply G. lia.
Qed.
(** With an empty pool the routine reads outside the table. *)
Theorem C66_empty_pool_refuted points faces p z ss es cs num u k old (r : R) :
  p_cdf p = [] -> sample_active_pool points faces p z ss es cs num u k (r :: old) = UB.
Proof. intros E. unfold sample_active_pool, draw, sample_face, pool_pick. rewrite E. reflexivity. Qed.

(** Radii are positive and at most rmax. *)
Lemma offset_dist s x j : st_nd s = 3%nat -> norm (st_nd s) (offset s x j) = vdist 3 (vec x) (center s j).
Proof. intros ->. reflexivity. Qed.
Theorem C66_radius points faces p z ss es cs num old before s :
  good_sample points faces p z ss es cs num old before s -> sm_covered s = false -> good_sizing points faces z cs ->
  0 < z_rmax z -> z_rms z <= z_rmax z -> 0 <= z_rmin z -> z_thr z < 1 -> 0 <= z_Lip z < 1 -> z_ratio z * z_ratio z < 1 ->
  (forall t, z_input z = Some t -> positive_radii t) -> positive_radii ss ->
  0 < vec (sm_row s) 3%nat <= z_rmax z.
Proof.
  intros ((L4 & _) & _ & G) Ec ((Rd & End & _) & He & Hcs & Hi & _) Hmax Hrms Hmin Hthr HL Hrat Hin Hss.
  destruct (G Ec) as (_ & Hpos & _ & near & c & m & N0 & N1 & Hc & (Hm & Hle) & Er). clear G.
  set (x := firstn 3 (sm_row s) ++ [old]) in *.
  assert (Ex : forall y, vdist 3 (vec x) y = vdist 3 (vec (sm_row s)) y).
  { intros y. apply vdist_ext; auto. intros d Hd. unfold x, vec. rewrite app_nth1 by (rewrite firstn_length; lia).
    rewrite <- (firstn_skipn 3 (sm_row s)) at 2. rewrite app_nth1; auto. rewrite firstn_length. lia. }
  assert (Hnear : forall j, In j near -> (j < count ss)%nat).
  { intros j Hj. destruct (Nat.eq_dec num 0) as [E0|N]; [rewrite (N0 E0) in Hj; destruct Hj|]. apply (proj1 (N1 N)); auto. }
  assert (Edge : forall t j, cloud_or_empty t -> (j < count t)%nat -> ~ smooth_edge t (normals_of t) x (z_rmin z) (z_thr z) j -> 0 < vdist 3 (vec x) (center t j)).
  { intros t j Ht Hj Hn. destruct Ht as [E|(_ & End' & _)]; [unfold count in Hj; rewrite E in Hj; cbn in Hj; lia|].
    rewrite <- offset_dist by auto. unfold smooth_edge in Hn. destruct (Rle_lt_dec (norm (st_nd t) (offset t x j)) (z_rmin z)) as [C|C]; [|lra].
    exfalso. apply Hn. right. auto. }
  assert (Pm : 0 < m).
  { destruct Hm as [->|[(j & Hj & Hn & ->)|[(t & Et & ->)|[(j & Hj & Hn & ->)|[(j & Hj & Hn & ->)|(j & Hj & Hv)]]]]]; auto.
    - rewrite <- offset_dist by auto. destruct (Rle_lt_dec (norm (st_nd (z_cloud z)) (offset (z_cloud z) x j)) (1 / 10 ^ 10)) as [C|C]; [exfalso; apply Hn; left; auto|].
      assert (0 < 1 / 10 ^ 10) by (apply Rdiv_lt_0_compat; [lra|apply pow_lt; lra]). lra.
    - apply (Hin t Et). apply (Hc t Et).
    - specialize (Edge _ j He Hj Hn). lra.
    - specialize (Edge _ j Hcs Hj Hn). lra.
    - specialize (Hpos HL Hss j (Hnear j Hj)). specialize (Hss j (Hnear j Hj)). rewrite <- Ex in Hpos. destruct Hv as [->| ->].
      + apply Rdiv_lt_0_compat; auto. apply sqrt_lt_R0. lra.
      + nra. }
  rewrite Er. specialize (Hle (z_rmax z) (or_introl eq_refl)). unfold Rmax. destruct (Rle_dec m (z_rms z)); lra.
Qed.

(** The limits from the old spheres use the spheres that overlap the ball with the radius that happens to be in the buffer:
    a buffer that holds 0 lets the new sphere grow over the centre of an old one, against the slope Lip = 1/4. *)
Local Open Scope num_scope.
Definition fl (n : Z) : PrimFloat.float := nofZ n.
Definition one_cloud : res (stree PrimFloat.float) := add_point (fun _ _ => false) (st_new 3) [n0; n0; n0] (Some [n0; n0; n1]) None.
Definition one_sphere : res (stree PrimFloat.float) := add_point (fun _ _ => false) (st_new 3) [n0; n0; n0; nlit 1 1] None (Some [2; 0]%nat).
Definition flat_sizing (c : stree PrimFloat.float) : sizing PrimFloat.float :=
  Sizing c (st_new 3) None [[n0; n0; n1]] n0 (nlit 9 1) (fl 10) (nlit 25 2) (nlit 1 1) n0.
Theorem C66_stale_radius_refuted :
  match (c <- one_cloud ;; s <- one_sphere ;;
         r0 <- new_radius (flat_sizing c) s (st_new 3) 1 [n1; n0; n0; n0] 0 ;;
         r1 <- new_radius (flat_sizing c) s (st_new 3) 1 [n1; n0; n0; fl 10] 0 ;; Ok (r0, r1)) with
  | Ok (r0, r1) => (r0 =? fl 10) = true /\ (r1 <? nlit 4 1) = true
      /\ point_covered1 (gv [n0; n0; n0; nlit 1 1]) (gv [n1; n0; n0; r0]) (nlit 1 1) = true
      /\ (nlit 1 1 + nlit 25 2 * n1 <? r0) = true
  | _ => False end.
Proof. vm_compute. repeat split; reflexivity. Qed.

(** A case: one triangle, its patch, one cloud point and two spheres. *)
Definition cloud1 : stree R := ST 3 100 [[0; 0; 5]]%R (Some [[0; 0; 1]]%R) None ([0], [0])%nat 0 1 [0; 0; 5]%R [0; 0; 5]%R.
Lemma cloud1_ok : cloud cloud1 (normals_of cloud1).
Proof.
  split; [|split; [auto|split; [auto|split; [auto|]]]].
  - split; [simpl; lia|]. split; [discriminate|]. split; [intros p [<-|[]]; simpl; lia|].
    exists (Node 0 Leaf Leaf). split; auto. split; [reflexivity|]. split; [reflexivity|].
    split; [eexists _, _; reflexivity|]. split; [repeat split; reflexivity|]. split; [apply Permutation_refl|].
    cbn. repeat split; intros j [].
  - intros v [<-|[]]. simpl. lia.
Qed.
Definition sizing1 : sizing R := Sizing cloud1 (st_new 3) None [[0; 0; 1]]%R 0%R (9/10)%R 10%R (1/4)%R (1/10)%R 0%R.
Example C66_hypotheses : exists p, reached one_points one_face p /\ (0 < p_size p)%nat
  /\ good_points one_points /\ good_faces one_points one_face
  /\ good_sizing one_points one_face sizing1 (corners_of dressed)
  /\ usable_scene one_points one_face dressed.
Proof.
  destruct one_good as (Hp & Hf). destruct (@C31_partition _ _ one_points one_face 100 Hp Hf ltac:(lia)) as (ps & E & Hc & Hne & Ha).
  destruct ps as [|p0 ps]; [discriminate|]. exists p0. apply Forall_inv in Ha. destruct Ha as (_ & R0 & _). split; auto.
  split; [|split; [auto|split; [auto|split; [|apply dressed_usable]]]].
  - assert (Hne' := Hne ltac:(discriminate)). inversion Hne' as [|? ? H1 _]; subst. unfold p_size. destruct (p_parent p0); [congruence|cbn; lia].
  - split; [apply cloud1_ok|]. split; [left; reflexivity|]. split; [left; reflexivity|]. split; [discriminate|]. split; [reflexivity|]. split.
    + intros n [<-|[]]. simpl. lia.
    + assert (1000 < @dbl_max R RNum)%R by (cbn [dbl_max RNum]; apply IZR_lt; reflexivity). cbn [z_rmax sizing1]. lra.
Qed.

(** Run in double precision: two threads on a triangle, the second one too close to the sphere of the first. *)
Definition tri_points : list (list PrimFloat.float) := [[n0; n0; n0]; [n1; n0; n0]; [n0; n1; n0]].
Definition tri_faces : list (list nat) := [[3; 0; 1; 2]]%nat.
Example C66_run :
  match (c <- one_cloud ;; '(p, _) <- start_faces tri_points tri_faces 0 100 ;;
         sample_active_pool tri_points tri_faces p (flat_sizing c) (st_new 3) (st_new 3) (st_new 3) 0 (fun t j => nlit 5 1) 0 [n0; n0]) with
  | Ok l => map sm_covered l = [false; true] /\ map sm_face l = [0; 0]%nat
  | _ => False end.
Proof. vm_compute. repeat split; reflexivity. Qed.

Print Assumptions C66_round.
Print Assumptions C66_radius.
Print Assumptions C66_empty_pool_refuted.
Print Assumptions C66_stale_radius_refuted.
