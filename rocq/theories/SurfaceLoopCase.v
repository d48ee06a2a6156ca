(** A case of C65: one triangle, one sphere of radius 10. *)
From Coq Require Import Reals Lra.
From Verif Require Import Base Num Vec KdTree SmartTree KdSpec SmartTreeSpec SmartQueryProofs SmartTreeProofs TreeGrow DenseQR Geometry GeometrySpec GeometryProofs
  Spheres SpheresSpec SpheresProofs SpheresOverlapProofs Sampling ActivePool ActivePoolSpec ActivePoolThreadProofs ActivePoolRunSpec ActivePoolStartProofs ActivePoolCoverProofs PropsActivePool
  SamplePool SamplePoolSpec SamplePoolProofs PropsSamplePool SeedPairs SeedPairsSpec PolyMesh PolyMeshSpec PolyMeshProofs Validate ValidateSpec PropsSpheres PropsSeedPairs PropsValidate
  SurfaceLoop SurfaceLoopSpec SurfaceShrinkProofs SurfaceLoopProofs.
Local Open Scope R_scope.

Definition far_cloud : stree R := ST 3 100 [[0; 0; 100]]%R (Some [[0; 0; 1]]%R) None ([0], [0])%nat 0 1 [0; 0; 100]%R [0; 0; 100]%R.
Lemma far_cloud_ok : cloud far_cloud (normals_of far_cloud).
Proof.
  split; [|split; [auto|split; [auto|split; [auto|]]]].
  - split; [simpl; lia|]. split; [discriminate|]. split; [intros p [<-|[]]; simpl; lia|].
    exists (Node 0 Leaf Leaf). split; auto. split; [reflexivity|]. split; [reflexivity|].
    split; [eexists _, _; reflexivity|]. split; [repeat split; reflexivity|]. split; [apply Permutation_refl|].
    cbn. repeat split; intros j [].
  - intros v [<-|[]]. simpl. lia.
Qed.
Definition case_sizing : sizing R := Sizing far_cloud (st_new 3) None [[0; 0; 1]]%R 0 (9/10) 10 (1/4) 0 0.
Definition case_setting : setting R := Setting one_points one_face case_sizing (st_new 3) (st_new 3).
Definition case_environment : environment R :=
  Env (fun _ _ => false) (fun _ _ => 0) (fun _ p => in_order (p_size p / 1 + 1) 1) (fun _ _ _ _ _ _ => 0) (fun _ _ _ _ _ => 0) (fun _ _ _ _ _ _ => 0) (fun _ _ _ _ _ _ => 0).

Lemma one_near2 p q : on_mesh one_points one_face p -> on_mesh one_points one_face q -> vdist 3 p q < 3.
Proof.
  assert (B : forall p, on_mesh one_points one_face p -> 0 <= p 0%nat <= 1 /\ 0 <= p 1%nat <= 1 /\ p 2%nat = 0).
  { clear. intros q (f & Hf & m & (Hs & Hq) & Hm). cbn in Hf. assert (f = 0%nat) by lia. subst f.
    pose proof (Hm 0%nat ltac:(lia)). pose proof (Hm 1%nat ltac:(lia)). pose proof (Hm 2%nat ltac:(lia)).
    pose proof (Hq 0%nat ltac:(lia)) as Q0. pose proof (Hq 1%nat ltac:(lia)) as Q1. pose proof (Hq 2%nat ltac:(lia)) as Q2.
    cbn in Q0, Q1, Q2. lra. }
  intros Hp Hq. destruct (B p Hp) as (P0 & P1 & P2), (B q Hq) as (Q0 & Q1 & Q2).
  unfold vdist, norm. rewrite dot3. unfold sub. rewrite <- (sqrt_Rsqr 3) by lra. apply sqrt_lt_1_alt. unfold Rsqr. rewrite P2, Q2.
  assert ((p 0%nat - q 0%nat) * (p 0%nat - q 0%nat) <= 1) by nra. assert ((p 1%nat - q 1%nat) * (p 1%nat - q 1%nat) <= 1) by nra.
  pose proof (Rle_0_sqr (p 0%nat - q 0%nat)). pose proof (Rle_0_sqr (p 1%nat - q 1%nat)). unfold Rsqr in *. split; lra.
Qed.
Lemma dbl_1000 : 1000 < @dbl_max R RNum. Proof. cbn [dbl_max RNum]; apply IZR_lt; reflexivity. Qed.
Lemma new_set L : sphere_set L (st_new 3).
Proof. split; auto. split; [left; reflexivity|]. split; [intros i j Hi; cbn in Hi; lia|intros p []]. Qed.
Lemma case_setting_ok : good_setting case_setting.
Proof.
  destruct one_good as (Hp & Hf). pose proof dbl_1000 as D.
  split; auto. split; auto. split.
  { split; [apply far_cloud_ok|]. split; [left; reflexivity|]. split; [left; reflexivity|]. split; [discriminate|]. split; [reflexivity|]. split.
    - intros n [<-|[]]. simpl. lia.
    - cbn [z_rmax case_setting s_z case_sizing]. lra. }
  split; [left; reflexivity|]. split; [left; reflexivity|]. split; [apply new_set|]. split; [apply new_set|].
  split; [intros i j Hi; cbn in Hi; lia|]. split; [intros i j Hi; cbn in Hi; lia|].
  cbn [s_z case_setting case_sizing z_Lip z_thr z_rms z_rmax]. split; [lra|]. split; [lra|]. split; [lra|].
  intros p q P Q. pose proof (one_near2 P Q). lra.
Qed.
Lemma case_environment_ok : good_environment case_environment 1.
Proof. split; [lia|]. split; [cbn; intros; lra|]. intros k p. apply in_order_finished. Qed.

Notation cw := case_setting.
Notation ce := case_environment.
(** The spheres after the first sample. *)
Definition lone (ss : stree R) : Prop := stock cw ss /\ count ss = 1%nat /\ radius ss 0 = 10.
Lemma lone_spheres ss : lone ss -> spheres ss.
Proof. intros (Hs & Hc & _). apply (@stock_spheres cw ss Hs). intros E. unfold count in Hc. rewrite E in Hc. discriminate. Qed.
Lemma lone_lip ss : lone ss -> lipschitz (1/4) ss.
Proof.
  intros (_ & Hc & Hr) i j Hi Hj. assert (i = 0 /\ j = 0)%nat as (-> & ->) by lia.
  assert (0 <= gap ss 0 0) by apply norm_nonneg. lra.
Qed.
Lemma lone_center ss : lone ss -> on_mesh one_points one_face (center ss 0).
Proof. intros (Hs & Hc & _). destruct (@stock_nth cw ss 0%nat Hs ltac:(lia)) as (_ & _ & f & _ & Hf & Hin). exists f. split; auto. Qed.
Lemma lone_near ss q : lone ss -> on_mesh one_points one_face q -> vdist 3 q (center ss 0) < 3.
Proof. intros H Hq. apply one_near2; auto. apply lone_center; auto. Qed.
Lemma lone_scene ss : lone ss -> usable_scene one_points one_face (Scene ss (st_new 3) (st_new 3)).
Proof. intros (Hs & _). exact (@stock_scene cw case_setting_ok ss Hs). Qed.
Lemma lone_tested ss a b c r : lone ss -> (forall q, in_tri (a, b, c) q -> on_mesh one_points one_face q) ->
  tested ss (st_new 3) (st_new 3) (1/4) 0 (a, b, c) r -> r = true.
Proof.
  intros H Hin Ht. pose proof (lone_spheres H) as Hs. pose proof dbl_1000 as D.
  assert (E : face_covered ss a b c (1/4) 0 = Ok true).
  { assert (Hr : point_at_reach ss (vec (center3 a b c))).
    { exists 0%nat. split; [destruct H as (_ & -> & _); lia|]. pose proof (lone_near H (Hin _ (center_in_tri a b c))). lra. }
    destruct (@C27_face_sound ss a b c (1/4) 0 Hs Hr) as (r' & E & _). destruct r'; auto. exfalso.
    assert (V : forall k, (k < 3)%nat -> vdist 3 (corner3 a b c k) (center ss 0) < 3).
    { intros k Hk. apply lone_near; auto. apply Hin. exists (fun j => if Nat.eqb j k then 1 else 0). split; [split|].
      - destruct k as [|[|[|]]]; try lia; cbn; lra.
      - intros d Hd. destruct k as [|[|[|]]]; try lia; cbn; lra.
      - intros j Hj. destruct (Nat.eqb j k); lra. }
    assert (E10 : radius ss 0 = 10) by apply H.
    apply (@C27_face_complete ss a b c (1/4) 0 Hs Hr ltac:(lra) ltac:(apply lipschitz_local, lone_lip; auto) E 0%nat ltac:(destruct H as (_ & -> & _); lia)).
    - intros k Hk. rewrite E10. pose proof (V k Hk). lra.
    - intros k Hk. unfold covers. rewrite sqrt_one. unfold reach. rewrite E10. pose proof (V k Hk). pose proof eight_pos. lra. }
  destruct Ht as [(_ & ->)|[(E1 & _)|(E1 & _)]]; auto; congruence.
Qed.
Lemma lone_refine ss k p : lone ss -> reached one_points one_face p ->
  exists p', refine_pool_faces one_points one_face ss (st_new 3) (st_new 3) (1/4) 0 1 (e_sched ce k p) p = Ok p' /\ p_size p' = 0%nat.
Proof.
  intros H Hr. destruct one_good as (Hp & Hf). assert (Hfin : finished (p_size p / 1 + 1) 1 (e_sched ce k p)) by apply in_order_finished.
  destruct (@C33_total one_points one_face (1/4) 0 (Scene ss (st_new 3) (st_new 3)) 1 _ p Hp Hf Hr (lone_scene H) ltac:(lia) Hfin) as (p' & E).
  exists p'. split; [exact E|]. destruct (@C32_refine _ _ one_points one_face _ _ _ _ _ 1 _ p p' Hp Hf Hr Hfin E) as (kept & S1 & K1 & K2 & K3 & _).
  rewrite K3. destruct kept as [|x l]; [reflexivity|]. exfalso. pose proof (K1 x ltac:(now left)) as Hx.
  destruct (@C32_elements _ _ one_points one_face p Hp Hf Hr) as (ts & Hl & Ht & _).
  destruct (nth_error ts x) as [t|] eqn:Et; [|apply nth_error_None in Et; lia]. pose proof (Ht _ _ Et) as He.
  destruct (K2 x t Hx He) as (b & Hb & Hi). pose proof (proj1 Hi ltac:(now left)) as ->.
  destruct (@C32_depth one_points one_face p x t Hp Hf Hr He Hx) as (f & _ & Hfl & Hinf & _).
  destruct t as ((a, b), c). assert (false = true); [|discriminate]. eapply (lone_tested H); [|exact Hb].
  intros q Hq. exists f. auto.
Qed.
Lemma on_active_mesh p s : reached one_points one_face p -> on_active one_points one_face p s -> on_mesh one_points one_face (vec (sm_row s)).
Proof.
  intros Hr (_ & i & t & Hi & He & Hin). destruct one_good as (Hp & Hf).
  assert (Hx : (i < p_size p)%nat) by (unfold p_size; apply nth_error_Some; congruence).
  destruct (@C32_depth one_points one_face p i t Hp Hf Hr He Hx) as (f & _ & Hfl & Hinf & _). exists f. auto.
Qed.
(** A round with one sphere: nothing new. *)
Lemma lone_round ss p k r : lone ss -> reached one_points one_face p -> (0 < p_size p)%nat ->
  exists s, sample_active_pool one_points one_face p case_sizing ss (st_new 3) (st_new 3) 1 (e_u ce) k [r] = Ok [s] /\ sm_covered s = true.
Proof.
  intros H Hr Hp0. destruct one_good as (Hp & Hf). destruct case_setting_ok as (_ & _ & Hz & _).
  destruct (@C66_round one_points one_face p case_sizing ss (st_new 3) (st_new 3) 1 (e_u ce) k [r] Hp Hf Hr Hp0 Hz (lone_scene H) ltac:(cbn; intros; lra)) as (l & E & L & G).
  destruct l as [|s [|s' l]]; try discriminate. exists s. split; auto. destruct (sm_covered s) eqn:Ec; auto. exfalso.
  destruct (G 0%nat s eq_refl) as (Ha & _ & Hn). destruct (Hn Ec) as (_ & _ & Hc & _).
  pose proof (lone_near H (on_active_mesh Hr Ha)) as Near. assert (E10 : radius ss 0 = 10) by apply H.
  apply (Hc ss 0 (or_introl (conj eq_refl eq_refl)) ltac:(cbn; lra) ltac:(apply lipschitz_local, lone_lip; auto) 0%nat ltac:(destruct H as (_ & -> & _); lia)).
  - rewrite E10. lra.
  - unfold covers. rewrite E10. unfold fraction, reach. pose proof eight_pos. assert (0 < 1 / 10 ^ 10) by (apply Rdiv_lt_0_compat; [lra|apply pow_lt; lra]).
    destruct (Rlt_dec (1 / 10 ^ 10) 0); lra.
Qed.
Lemma lone_fill ss : lone ss -> forall n m k r p, reached one_points one_face p -> (0 < p_size p)%nat -> (m + n = 100)%nat -> (0 < n)%nat ->
  exists k' r', fill_pool cw ce n (Progress ss 1 [r] k) p m = Ok (Progress ss 1 [r'] k').
Proof.
  intros H. induction n as [|n IH]; intros m k r p Hr Hp Hn Hn0; [lia|]. cbn [fill_pool].
  destruct (@lone_round ss p k r H Hr Hp) as (s & E & Ec).
  change (sample_active_pool (s_points cw) (s_faces cw) p (s_z cw) (g_ss (Progress ss 1 [r] k)) (s_es cw) (s_cs cw) (g_num (Progress ss 1 [r] k)) (e_u ce) (g_k (Progress ss 1 [r] k)) (g_old (Progress ss 1 [r] k)))
    with (sample_active_pool one_points one_face p case_sizing ss (st_new 3) (st_new 3) 1 (e_u ce) k [r]). rewrite E. cbn [bind].
  assert (Ea : add_samples ce [s] (g_ss (Progress ss 1 [r] k), g_num (Progress ss 1 [r] k), m) = Ok (ss, 1%nat, S m)).
  { cbn [add_samples]. rewrite Ec. destruct (Nat.leb max_misses (S m)); reflexivity. }
  rewrite Ea. cbn [bind]. destruct (Nat.leb max_misses (S m)) eqn:Hm.
  - destruct (@lone_refine ss k p H Hr) as (p' & Er & Es).
    change (refine_pool_faces (s_points cw) (s_faces cw) ss (s_es cw) (s_cs cw) (z_Lip (s_z cw)) (z_ratio (s_z cw)) (length (g_old (Progress ss 1 [r] k))) (e_sched ce (g_k (Progress ss 1 [r] k)) p) p)
      with (refine_pool_faces one_points one_face ss (st_new 3) (st_new 3) (1/4) 0 1 (e_sched ce k p) p). rewrite Er. cbn [bind]. rewrite Es. cbn [Nat.eqb]. eexists _, _. reflexivity.
  - apply Nat.leb_gt in Hm. unfold max_misses in Hm. cbn [map g_k]. apply IH; auto; lia.
Qed.
(** The first round: one sphere of radius 10. *)
Lemma first_round p r : reached one_points one_face p -> (0 < p_size p)%nat ->
  exists s ss, sample_active_pool one_points one_face p case_sizing (st_new 3) (st_new 3) (st_new 3) 0 (e_u ce) 0 [r] = Ok [s] /\ sm_covered s = false
    /\ add_point (e_need ce) (st_new 3) (sm_row s) None (Some [2; sm_face s]%nat) = Ok ss /\ lone ss.
Proof.
  intros Hr Hp0. destruct one_good as (Hp & Hf). destruct case_setting_ok as (_ & _ & Hz & _).
  destruct (@C66_round one_points one_face p case_sizing (st_new 3) (st_new 3) (st_new 3) 0 (e_u ce) 0 [r] Hp Hf Hr Hp0 Hz) as (l & E & L & G).
  { exact (@stock_scene cw case_setting_ok (st_new 3) (stock_new cw)). }
  { cbn; intros; lra. }
  destruct l as [|s [|s' l]]; try discriminate. exists s.
  destruct (G 0%nat s eq_refl) as (Ha & Hc & Hn). destruct (sm_covered s) eqn:Ec.
  { exfalso. destruct (Hc eq_refl) as [[(j & C & _)|[(j & C & _)|(j & C & _)]]|(b & [] & _)]; cbn in C; lia. }
  destruct (Hn eq_refl) as (_ & _ & _ & near & c & m & N0 & _ & _ & (Hm & Hle) & Er). rewrite (N0 eq_refl) in *.
  assert (L4 : length (sm_row s) = 4%nat) by apply Ha.
  assert (M10 : m = 10).
  { apply Rle_antisym; [apply Hle; left; reflexivity|].
    destruct Hm as [->|[(j & Hj & _ & ->)|[(t & C & _)|[(j & C & _)|[(j & C & _)|(j & [] & _)]]]]]; try (cbn in C; lia); try discriminate.
    - cbn. lra.
    - cbn in Hj. assert (j = 0%nat) by lia. subst j.
      assert (D : 25 < vdist 3 (vec (firstn 3 (sm_row s) ++ [nth 0 [r] 0])) (center (z_cloud case_sizing) 0)); [|lra].
      pose proof (on_active_mesh Hr Ha) as (f & Hf0 & mm & (_ & Hq) & _). cbn in Hf0. assert (f = 0%nat) by lia. subst f.
      specialize (Hq 2%nat ltac:(lia)). cbn in Hq. unfold vdist, norm. rewrite dot3. unfold sub.
      replace (vec (firstn 3 (sm_row s) ++ [nth 0 [r] 0]) 2%nat) with 0.
      2:{ unfold vec. rewrite app_nth1 by (rewrite firstn_length; lia). unfold vec in Hq.
          rewrite <- (firstn_skipn 3 (sm_row s)) in Hq. rewrite app_nth1 in Hq by (rewrite firstn_length; lia). rewrite Hq. ring. }
      rewrite <- (sqrt_Rsqr 25) by lra. apply sqrt_lt_1_alt. unfold Rsqr. cbn. split; [lra|]. nra. }
  assert (Hst : Forall (fit cw) [s]).
  { apply (@round_fit cw ce 1 case_setting_ok case_environment_ok p (st_new 3) 0 0 [r] [s] Hr (stock_new cw) ltac:(cbn; lia) E). }
  apply Forall_inv in Hst. destruct (Hst Ec) as (Hg & Hi).
  destruct (@grown_add 3 (e_need ce) (st_new 3) [] (sm_row s) None (Some [2; sm_face s]%nat) ltac:(lia) (grown_new 3) Hg) as (ss & Es & Gs).
  exists ss. split; auto. split; auto. split; auto.
  destruct (@stock_add cw (st_new 3) _ _ _ _ _ (stock_new cw) Hg Hi Es) as (S1 & _ & C1).
  split; auto. split; [exact C1|]. unfold radius, coord. rewrite (grown_pts Gs). cbn [map app nth item_of it_x].
  change (nth 3 (sm_row s) 0) with (vec (sm_row s) 3%nat). rewrite Er, M10. unfold Rmax. cbn [z_rms case_sizing]. destruct (Rle_dec 10 0); lra.
Qed.
(** No triples. *)
Lemma lone_triples o ss g g' : lone ss -> all_triples o ss (st_new 3) (st_new 3) (1/4) g = Ok g' -> g' = g.
Proof.
  intros H E. unfold all_triples in E. assert (N : st_n ss = 1%nat) by apply H.
  refine (@for_res_Ok _ (fun x => x = g) _ _ _ _ _ _ eq_refl E).
  intros i g1 g2 Hi -> E1. apply bind_Ok_inv in E1. destruct E1 as (a & _ & E1). apply bind_Ok_inv in E1. destruct E1 as (near & _ & E1).
  refine (@each_Ok _ _ (fun x => x = g) _ _ _ _ _ eq_refl E1). intros j g3 g4 _ -> E3. destruct (Nat.leb j i) eqn:Hj; [congruence|]. apply Nat.leb_gt in Hj.
  refine (@each_Ok _ _ (fun x => x = g) _ _ _ _ _ eq_refl E3). intros k g5 g6 _ -> E5. destruct (_ || _)%bool; [congruence|]. exfalso.
  unfold one_triple in E5. apply bind_Ok_inv in E5. destruct E5 as (m & Em & _). unfold meeting_pair in Em.
  apply bind_Ok_inv in Em. destruct Em as (x & _ & Em). apply bind_Ok_inv in Em. destruct Em as (y & Ey & _).
  unfold sphere_at in Ey. rewrite N in Ey. assert (C1 : Nat.ltb j 1 = false) by (apply Nat.ltb_ge; lia). rewrite C1 in Ey.
  change (1 + st_n (st_new 3))%nat with 1%nat in Ey. rewrite C1 in Ey. unfold get_sphere in Ey. cbn in Ey.
  destruct (j - 1 - 0)%nat; discriminate.
Qed.
Lemma lone_generate o ss u l : lone ss -> sphere_input ss (st_new 3) (st_new 3) (1/4) (o_darts o) -> st_nd u = 3%nat -> st_nd l = 3%nat ->
  generate_surface_seeds o ss (st_new 3) (st_new 3) (1/4) u l = Ok (ss, st_new 3, st_new 3, false).
Proof.
  intros H Hin Nu Nl. destruct (@C64_generation o ss (st_new 3) (st_new 3) (1/4) u l Hin Nu Nl) as (ss' & u' & l' & sh & E & _).
  pose proof E as E0. unfold generate_surface_seeds in E |- *. apply bind_Ok_inv in E. destruct E as (g & Eg & _). rewrite Eg. cbn [bind].
  rewrite (@lone_triples o ss _ _ H Eg). unfold clear_tree. rewrite Nu, Nl. reflexivity.
Qed.
Example lone_case : exists ss, generate_surface_spheres cw ce 1 101 [0] = Ok (ss, st_new 3, st_new 3) /\ lone ss
  /\ moderate (all_spheres ss (s_es cw) (s_cs cw)) /\ forall it, SeedPairsSpec.usable (all_spheres ss (s_es cw) (s_cs cw)) (e_darts ce it).
Proof.
  destruct one_good as (Hp & Hf).
  destruct (@C31_partition _ _ one_points one_face 100 Hp Hf ltac:(lia)) as (ps & E & Hc & Hne & Ha).
  assert (Hst : exists p, start_faces one_points one_face 0 100 = Ok (p, 1%nat) /\ reached one_points one_face p /\ (0 < p_size p)%nat).
  { specialize (Hne ltac:(discriminate)). cbn [patches Nat.ltb Nat.leb] in E. apply bind_Ok_inv in E. destruct E as ((p, np) & Ep & E).
    assert (np = 1%nat) by (unfold start_faces in Ep; apply bind_Ok_inv in Ep; destruct Ep as (((a, b), c) & Er & Ep); cbn in Er; injection Er as <- <- <-;
      apply bind_Ok_inv in Ep; destruct Ep as (fl & _ & Ep); destruct (Nat.eqb _ _); [|discriminate]; apply bind_Ok_inv in Ep; destruct Ep as (cdf & _ & Ep); congruence). subst np.
    apply bind_Ok_inv in E. destruct E as (rest & _ & E). injection E as <-. exists p. split; auto.
    apply Forall_inv in Ha. destruct Ha as (_ & R0 & _). split; auto. apply Forall_inv in Hne. unfold p_size. destruct (p_parent p); [congruence|cbn; lia]. }
  destruct Hst as (p & Ep & Hr & Hp0). destruct (@first_round p 0 Hr Hp0) as (s & ss & Es & Ec & Eadd & Hl).
  destruct (@lone_fill ss Hl 100 0 3 (vec (sm_row s) 3%nat) p Hr Hp0 eq_refl ltac:(lia)) as (k' & r' & Efill).
  exists ss. pose proof dbl_1000 as D.
  assert (Hmod : moderate (all_spheres ss (st_new 3) (st_new 3))).
  { intros a b Ha' Hb'. unfold all_spheres in Ha', Hb' |- *. cbn [st_pts st_new app] in Ha', Hb' |- *. rewrite app_nil_r in Ha', Hb' |- *.
    destruct Hl as (_ & Hc1 & Hr10). unfold count in Hc1. assert (a = 0 /\ b = 0)%nat as (-> & ->) by lia.
    change (rad (st_pts ss) 0) with (radius ss 0). rewrite Hr10. split; [lra|]. replace (vdist 3 (centre (st_pts ss) 0) (centre (st_pts ss) 0)) with 0; [lra|]. unfold vdist, norm. rewrite dot3. unfold sub. match goal with |- 0 = sqrt ?t => replace t with 0 by ring end. symmetry. apply sqrt_0. }
  assert (Hus : forall it, SeedPairsSpec.usable (all_spheres ss (st_new 3) (st_new 3)) (e_darts ce it)).
  { intros it i j k Hijk Hk. exfalso. unfold all_spheres in Hk. cbn [st_pts st_new app] in Hk. rewrite app_nil_r in Hk. destruct Hl as (_ & Hc1 & _). unfold count in Hc1. lia. }
  split; [|auto]. pose proof (lone_spheres Hl) as Hsp.
  assert (Hpos : positive_radii ss) by (intros i Hi; destruct Hl as (_ & Hc1 & Hr10); assert (i = 0%nat) by lia; subst i; rewrite Hr10; lra).
  assert (Hin : sphere_input ss (st_new 3) (st_new 3) (1/4) (o_darts (values cw ce 0 ss))).
  { split; [|split; [apply new_set|split; [apply new_set|split; [exact Hmod|split; [lra|split; [exact (Hus 0%nat)|split; intros i j Hi; cbn in Hi; lia]]]]]].
    split; [apply Hsp|]. split; [right; auto|]. split; [apply lipschitz_local, lone_lip; auto|]. intros q Hq. eapply stock_rows; [apply Hl|exact Hq]. }
  destruct (@C29_tree_idempotent (1/4) ss 101 false ltac:(lra) Hsp Hpos ltac:(destruct Hl as (_ & -> & _); lia) (lone_lip Hl)) as (s' & Eimp & Or & Eqr).
  assert (s' = ss) by (apply same_radii; auto; intros q Hq; rewrite (@stock_rows cw ss q (proj1 Hl) Hq); lia). subst s'.
  assert (E0 : forall f X, fill_pool cw ce f (Progress ss 1 [vec (sm_row s) 3%nat] 3) p 0 = Ok X -> fill_pool cw ce (S f) (Progress (st_new 3) 0 [0] 0) p 0 = Ok X).
  { intros f X EX. cbn [fill_pool].
    change (sample_active_pool (s_points cw) (s_faces cw) p (s_z cw) (g_ss (Progress (st_new 3) 0 [0] 0)) (s_es cw) (s_cs cw) (g_num (Progress (st_new 3) 0 [0] 0)) (e_u ce)
        (g_k (Progress (st_new 3) 0 [0] 0)) (g_old (Progress (st_new 3) 0 [0] 0)))
      with (sample_active_pool one_points one_face p case_sizing (st_new 3) (st_new 3) (st_new 3) 0 (e_u ce) 0 [0]). rewrite Es. cbn [bind].
    assert (Ea : add_samples ce [s] (g_ss (Progress (st_new 3) 0 [0] 0), g_num (Progress (st_new 3) 0 [0] 0), 0%nat) = Ok (ss, 1%nat, 0%nat)).
    { cbn [add_samples]. rewrite Ec. cbn [g_ss g_num]. rewrite Eadd. reflexivity. }
    rewrite Ea. cbn [bind]. change (Nat.leb max_misses 0) with false. cbn iota. exact EX. }
  assert (E1 : forall f inner, fill_pool cw ce inner (Progress (st_new 3) 0 [0] 0) p 0 = Ok (Progress ss 1 [r'] k') ->
    fill_patches cw ce (S (S f)) inner (Progress (st_new 3) 0 [0] 0) 0 100 = Ok (Progress ss 1 [r'] k', 1%nat)).
  { intros f inner EX. cbn [fill_patches]. change (Nat.ltb 0 100) with true. cbn iota.
    change (start_faces (s_points cw) (s_faces cw) 0 100) with (start_faces one_points one_face 0 100). rewrite Ep. cbn [bind]. rewrite EX. reflexivity. }
  specialize (E1 99%nat 101%nat (E0 100%nat _ Efill)). clear E0 Efill.
  clear E. unfold generate_surface_spheres. generalize dependent 101%nat. intros inner Eimp E1. cbn [surface_loop].
  rewrite E1. cbn [bind g_ss g_num g_old g_k].
  assert (E2 : narrow cw ss 1 = Ok (ss, false)).
  { unfold narrow. change (nltb n0 (z_rmin (s_z cw))) with (Rltb 0 0). assert (E0 : Rltb 0 0 = false) by (apply Rltb_false; lra). rewrite E0. reflexivity. }
  rewrite E2. cbn [bind]. change (z_Lip (s_z cw)) with (1/4). rewrite Eimp. cbn [bind].
  change (s_es cw) with (@st_new R _ 3%nat). change (s_cs cw) with (@st_new R _ 3%nat). rewrite (@lone_generate _ ss (st_new 3) (st_new 3) Hl Hin eq_refl eq_refl). cbn [bind].
  change (seed_faces (st_new 3)) with (@Ok (list (list nat)) []). cbn [bind].
  assert (E3 : validate_surface_mesh ss (st_new 3) (st_new 3) [] = Ok (ss, true)) by reflexivity.
  rewrite E3. reflexivity.
Qed.
