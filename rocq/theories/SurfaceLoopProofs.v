(** Proofs about generate_surface_spheres. *)
From Coq Require Import Reals Lra.
From Verif Require Import Base Num Vec KdTree SmartTree KdSpec SmartTreeSpec SmartQueryProofs SmartTreeProofs TreeGrow DenseQR Geometry GeometrySpec GeometryProofs
  Spheres SpheresSpec SpheresProofs SpheresOverlapProofs Sampling ActivePool ActivePoolSpec ActivePoolThreadProofs ActivePoolRunSpec ActivePoolStartProofs ActivePoolCoverProofs PropsActivePool
  SamplePool SamplePoolSpec SamplePoolProofs PropsSamplePool SeedPairs SeedPairsSpec PolyMesh PolyMeshSpec PolyMeshProofs Validate ValidateSpec PropsSpheres PropsSeedPairs PropsValidate
  SurfaceLoop SurfaceLoopSpec SurfaceShrinkProofs.
Local Open Scope R_scope.

Lemma history_first points faces Lip ratio p0 sc T sched p1 scs p : finished (p_size p0 / T + 1) T sched ->
  refine_pool_faces points faces (surface_of sc) (edges_of sc) (corners_of sc) Lip ratio T sched p0 = Ok p1 ->
  history points faces Lip ratio p1 scs p -> history points faces Lip ratio p0 (sc :: scs) p.
Proof.
  intros Hf E Hh. induction Hh as [|scs sc' T' sched' p p' Hh IH Hf' E'].
  - change [sc] with ([] ++ [sc]). eapply history_refine; eauto. constructor.
  - change (sc :: scs ++ [sc']) with ((sc :: scs) ++ [sc']). eapply history_refine; eauto.
Qed.

Lemma generate_false {F} `{Num F} o (ss es cs : stree F) L ups los ss' u l :
  generate_surface_seeds o ss es cs L ups los = Ok (ss', u, l, false) -> ss' = ss.
Proof.
  unfold generate_surface_seeds. intros E. apply bind_Ok_inv in E. destruct E as (g & _ & E). destruct (g_sliver g) as [|x t].
  - apply bind_Ok_inv in E. destruct E as (st1 & _ & E). apply bind_Ok_inv in E. destruct E as ((f, sh) & _ & E). destruct sh.
    + apply bind_Ok_inv in E. destruct E as (s1 & _ & E). discriminate.
    + congruence.
  - apply bind_Ok_inv in E. destruct E as ((s1, sh) & Es & E). injection E as -> _ _ ->.
    unfold shrink_slivers in Es. refine (@each_Ok _ _ (fun st => snd st = false -> fst st = ss) _ _ _ _ _ _ Es eq_refl); [|reflexivity].
    intros (i, r) (a, b) (a', b') _ Ha Eb Hf. destruct (Nat.ltb i (st_n ss)).
    + apply bind_Ok_inv in Eb. destruct Eb as (s2 & _ & Eb). injection Eb as _ <-. discriminate.
    + injection Eb as <- <-. auto.
Qed.
Lemma validate_true {F} `{Num F} (ss es cs : stree F) faces ss' : validate_surface_mesh ss es cs faces = Ok (ss', true) -> ss' = ss.
Proof.
  unfold validate_surface_mesh. intros E. apply bind_Ok_inv in E. destruct E as (pf & _ & E).
  refine (@fold_res_Ok _ _ (fun st => snd st = true -> fst st = ss) _ _ _ _ _ _ E eq_refl); [|reflexivity].
  intros f st st' _ Hst Ef. unfold check_face in Ef. refine (@fold_res_Ok _ _ (fun st => snd st = true -> fst st = ss) _ _ _ _ _ Hst Ef).
  intros i (a, wa) (b, wb) _ Ha Eb. apply bind_Ok_inv in Eb. destruct Eb as (i1 & _ & Eb). apply bind_Ok_inv in Eb. destruct Eb as (i2 & _ & Eb).
  cbn [fst snd] in *. intros ->. unfold check_edge in Eb. apply bind_Ok_inv in Eb. destruct Eb as (num & _ & Eb). apply bind_Ok_inv in Eb. destruct Eb as ((s1, w1) & E1 & Eb).
  destruct (_ && _)%bool eqn:Q in Eb.
  - apply bind_Ok_inv in Eb. destruct Eb as (x & _ & Eb). apply bind_Ok_inv in Eb. destruct Eb as (y & _ & Eb). discriminate.
  - injection Eb as <- ->. destruct (Nat.eqb num 1).
    + apply bind_Ok_inv in E1. destruct E1 as (x & Ex & E1). apply bind_Ok_inv in E1. destruct E1 as (y & Ey & E1).
      destruct (Nat.ltb i1 (st_n a)) eqn:Q1; cbn [orb] in *; [discriminate|]. destruct (Nat.ltb i2 (st_n a)) eqn:Q2; [discriminate|].
      unfold shrink_corner in Ex. rewrite Q1 in Ex. injection Ex as <-. unfold shrink_corner in Ey. rewrite Q2 in Ey. injection Ey as <-.
      injection E1 as <- ->. auto.
    + injection E1 as <- ->. auto.
Qed.

Section Loop.
  Variables (w : setting R) (e : environment R) (T : nat).
  Hypothesis Hw : good_setting w.
  Hypothesis He : good_environment e T.
  Let points := s_points w.
  Let faces := s_faces w.
  Let z := s_z w.
  Let es := s_es w.
  Let cs := s_cs w.
  Let mesh := on_mesh points faces.

  Let Hpts : good_points points. Proof. apply Hw. Qed.
  Let Hfaces : good_faces points faces. Proof. apply Hw. Qed.
  Let Hz : good_sizing points faces z cs. Proof. apply Hw. Qed.
  Let Ues : ActivePoolSpec.usable mesh es. Proof. apply Hw. Qed.
  Let Ucs : ActivePoolSpec.usable mesh cs. Proof. apply Hw. Qed.
  Let HL : 0 <= z_Lip z < 1. Proof. apply Hw. Qed.
  Let Hthr : z_thr z < 1. Proof. apply Hw. Qed.
  Let Hrms : 0 <= z_rms z <= z_rmax z. Proof. apply Hw. Qed.
  Let Hdiam : forall p q, mesh p -> mesh q -> vdist 3 p q < dbl_max. Proof. apply Hw. Qed.

  (** ** The spheres at any moment *)
  Definition good_item (it : item) : Prop :=
    length (it_x it) = 4%nat /\ 0 <= nth 3 (it_x it) 0 <= z_rmax z
    /\ exists f, it_a it = Some [2; f]%nat /\ (f < length faces)%nat /\ in_tri (face_tri points faces f) (vec (it_x it)).
  Definition stock (ss : stree R) : Prop := exists l, grown 3 ss l /\ Forall good_item l.

  Lemma stock_new : stock (st_new 3).
  Proof. exists []. split; [apply grown_new|constructor]. Qed.
  Lemma stock_add ss need x nv av ss' : stock ss -> good_args 3 x nv av -> good_item (item_of 3 x nv av) ->
    add_point need ss x nv av = Ok ss' -> stock ss' /\ grows ss ss' /\ count ss' = S (count ss).
  Proof.
    intros (l & Hg & Hl) Ha Hi E. destruct (@grown_add 3 need ss l x nv av) as (s1 & E1 & G1); auto.
    rewrite E in E1. injection E1 as <-. split.
    - exists (l ++ [item_of 3 x nv av]). split; auto. apply Forall_app. split; auto.
    - split; [exists [x]; rewrite (grown_pts G1), (grown_pts Hg), map_app; reflexivity|].
      unfold count. rewrite (grown_pts G1), (grown_pts Hg), map_app, app_length. cbn. lia.
  Qed.
  Lemma stock_item ss l i : grown 3 ss l -> Forall good_item l -> (i < count ss)%nat -> exists it, nth_error l i = Some it /\ nth i (st_pts ss) [] = it_x it /\ good_item it
    /\ record ss i = it_a it.
  Proof.
    intros Hg Hl Hi. unfold count in Hi. rewrite (grown_pts Hg) in Hi |- *. rewrite map_length in Hi. destruct (nth_error_lt l Hi) as (it & E). exists it. split; auto.
    split; [apply nth_error_nth; rewrite nth_error_map, E; reflexivity|]. rewrite Forall_forall in Hl. split; [apply Hl; eapply nth_error_In; eauto|].
    unfold record. rewrite (grown_att Hg) by (destruct l; [cbn in Hi; lia|discriminate]). apply nth_error_nth. rewrite nth_error_map, E. reflexivity.
  Qed.
  Lemma stock_nth ss i : stock ss -> (i < count ss)%nat ->
    length (nth i (st_pts ss) []) = 4%nat /\ 0 <= radius ss i <= z_rmax z /\ exists f, placed_on w ss i f.
  Proof.
    intros (l & Hg & Hl) Hi. destruct (@stock_item ss l i Hg Hl Hi) as (it & _ & En & (A & B & f & C & D & E) & Er).
    unfold placed_on, radius, center, coord. rewrite En. split; auto. split; auto. exists f. split; [congruence|]. split; auto.
  Qed.
  Lemma stock_rows ss p : stock ss -> In p (st_pts ss) -> length p = 4%nat.
  Proof. intros Hs Hp. destruct (In_nth _ _ [] Hp) as (i & Hi & <-). apply stock_nth; auto. Qed.
  Lemma stock_nd ss : stock ss -> st_nd ss = 3%nat.
  Proof. intros (l & (E & _) & _). exact E. Qed.
  Lemma stock_spheres ss : stock ss -> st_pts ss <> [] -> spheres ss.
  Proof.
    intros Hs Hne. pose proof (fun p => @stock_rows ss p Hs) as Hr. pose proof (stock_nd Hs) as End. destruct Hs as (l & Hg & _).
    split; [|split; auto; intros p Hp; rewrite (Hr p Hp); lia]. apply (@grown_ready 3 ss l); auto.
    intros ->. apply Hne. exact (grown_pts Hg).
  Qed.
  Lemma stock_usable ss : stock ss -> ActivePoolSpec.usable mesh ss.
  Proof.
    intros Hs. destruct (st_pts ss) as [|x t] eqn:E; [left; auto|right]. split; [apply stock_spheres; congruence|].
    intros p Hp. exists 0%nat. assert (H0 : (0 < count ss)%nat) by (unfold count; rewrite E; cbn; lia). split; auto.
    destruct (stock_nth Hs H0) as (_ & _ & f & _ & Hf & Ht). apply Hdiam; auto. exists f. auto.
  Qed.
  Lemma stock_scene ss : stock ss -> usable_scene points faces (Scene ss es cs).
  Proof. intros Hs. split; [apply stock_usable; auto|]. split; auto. Qed.
  Lemma stock_nonneg ss : stock ss -> nonneg ss.
  Proof. intros Hs i Hi. apply stock_nth; auto. Qed.
  Lemma stock_shrinks ss ss' : stock ss -> shrinks ss ss' -> stock ss'.
  Proof.
    intros Hs Hr. destruct (st_pts ss) as [|x0 t0] eqn:Ene.
    - assert (ss' = ss); [|subst; auto]. apply same_radii; [apply Hr| |].
      + intros p Hp. rewrite (stock_rows _ Hs Hp). lia.
      + intros i Hi. unfold count in Hi. rewrite Ene in Hi. cbn in Hi. lia.
    - assert (Hne : st_pts ss <> []) by congruence. clear x0 t0 Ene.
      pose proof (stock_spheres Hs Hne) as Hsp. pose proof (shrinks_spheres Hr Hsp) as Hsp'. pose proof (stock_nonneg Hs) as Hn.
      destruct Hs as (l & Hg & Hl). destruct Hr as (O & Hr). specialize (Hr Hn).
      pose proof O as (A1 & A2 & A3 & A4 & A5 & A6 & A7 & A8 & A9 & A10 & A11 & A12).
      set (l' := map (fun xi : list R * item => It (fst xi) (it_n (snd xi)) (it_a (snd xi))) (combine (st_pts ss') l)).
      assert (Ll : length l = length (st_pts ss')) by (unfold count in A10; rewrite A10, (grown_pts Hg), map_length; auto).
      assert (E1 : map it_x l' = st_pts ss').
      { unfold l'. rewrite map_map. cbn [it_x]. clear -Ll. revert l Ll. induction (st_pts ss') as [|x t IH]; intros [|i l] Ll; cbn in *; auto; try discriminate.
        rewrite IH; auto. }
      assert (E2 : map it_n l' = map it_n l).
      { unfold l'. rewrite map_map. cbn [it_n]. clear -Ll. revert l Ll. induction (st_pts ss') as [|x t IH]; intros [|i l] Ll; cbn in *; auto; try discriminate.
        rewrite IH; auto. }
      assert (E3 : map it_a l' = map it_a l).
      { unfold l'. rewrite map_map. cbn [it_a]. clear -Ll. revert l Ll. induction (st_pts ss') as [|x t IH]; intros [|i l] Ll; cbn in *; auto; try discriminate.
        rewrite IH; auto. }
      assert (Hnl : l <> []) by (intros ->; apply Hne; exact (grown_pts Hg)).
      assert (Hnl' : l' <> []) by (intros C; rewrite C in E3; destruct l; [congruence|discriminate]).
      exists l'. destruct Hg as (G1 & G2 & G3 & [(-> & _)|(_ & [I1 I2 I3 I4 I5])]); [congruence|]. split.
      + split; [congruence|]. split; [congruence|]. split; [congruence|]. right. split; auto.
        destruct I2 as (J1 & J2 & J3). constructor.
        * congruence.
        * split; [auto|]. rewrite E2, E3, A3, A4. auto.
        * intros p Hp. destruct Hsp' as (_ & _ & H4). specialize (H4 p Hp). lia.
        * rewrite A2. unfold count in A10. rewrite A10. auto.
        * destruct Hsp' as ((_ & _ & _ & V) & _). exact V.
      + rewrite Forall_forall. intros it Hit. destruct (In_nth_error _ _ Hit) as (i & Ei).
        assert (Hi : (i < length l')%nat) by (apply nth_error_Some; congruence).
        assert (Hi2 : (i < count ss)%nat) by (rewrite <- A10; unfold count; rewrite <- E1, map_length; auto).
        assert (Ex : it_x it = nth i (st_pts ss') []) by (rewrite <- E1; symmetry; apply nth_error_nth; rewrite nth_error_map, Ei; reflexivity).
        assert (Hil : (i < length l)%nat) by (rewrite Ll, <- E1, map_length; auto). destruct (nth_error_lt l Hil) as (it0 & Ei0).
        assert (Ea : it_a it = it_a it0).
        { pose proof (f_equal (fun q => nth_error q i) E3) as E4. cbv beta in E4. rewrite !nth_error_map, Ei, Ei0 in E4. cbn in E4. congruence. }
        rewrite Forall_forall in Hl. destruct (Hl it0 (nth_error_In _ _ Ei0)) as (B1 & B2 & f & B3 & B4 & B5).
        assert (Ex0 : it_x it0 = nth i (st_pts ss) []).
        { destruct I2 as (J1 & _). rewrite J1. symmetry. apply nth_error_nth. rewrite nth_error_map, Ei0. reflexivity. }
        split; [rewrite Ex, A11, <- Ex0; auto|]. split.
        * specialize (Hr i Hi2). unfold radius, coord in Hr. rewrite <- Ex, <- Ex0 in Hr. lra.
        * exists f. split; [congruence|]. split; auto. eapply in_tri_ext; [|exact B5]. intros d Hd. unfold vec. rewrite Ex, Ex0.
          symmetry. apply (A12 i d). lia.
  Qed.

  (** ** A round *)
  Definition fit (s : sample R) : Prop := sm_covered s = false -> good_args 3 (sm_row s) None (Some [2; sm_face s]%nat) /\ good_item (item_of 3 (sm_row s) None (Some [2; sm_face s]%nat)).
  Lemma round_fit p ss num k old l : reached points faces p -> stock ss -> (1 <= length old)%nat ->
    sample_active_pool points faces p z ss es cs num (e_u e) k old = Ok l -> length l = length old /\ Forall fit l.
  Proof.
    intros Hr Hs Ho E. assert (Hp : (0 < p_size p)%nat).
    { destruct (Nat.eq_dec (p_size p) 0) as [Z|N]; [|lia]. exfalso.
      destruct (@C32_elements _ _ points faces p Hpts Hfaces Hr) as (ts & Lt & _ & Ec). rewrite Z in Lt. apply length_zero_iff_nil in Lt. subst ts.
      assert (p_cdf p = []) by (cbn in Ec; congruence). destruct old as [|r old]; [cbn in Ho; lia|].
      rewrite (C66_empty_pool_refuted points faces p z ss es cs num (e_u e) k old r H) in E. discriminate. }
    destruct (@C66_round points faces p z ss es cs num (e_u e) k old Hpts Hfaces Hr Hp Hz (stock_scene Hs) (proj1 (proj2 He))) as (l' & E' & Ll & G).
    rewrite E in E'. injection E' as <-. split; auto. rewrite Forall_forall. intros s Hin Hc. destruct (In_nth_error _ _ Hin) as (t & Et).
    destruct (G t s Et) as ((L4 & i & tr & Hpar & Hel & Ht) & _ & Hs2). destruct (Hs2 Hc) as (_ & _ & _ & near & c & m & _ & _ & _ & (_ & Hle) & Er).
    assert (Hi : (i < p_size p)%nat) by (apply nth_error_Some_lt in Hpar; exact Hpar).
    destruct (@C32_depth points faces p i tr Hpts Hfaces Hr Hel Hi) as (f & Hf & Hlt & Hin2 & _). rewrite Hpar in Hf. injection Hf as <-.
    split.
    - split; [lia|]. split; [discriminate|]. intros a [= <-]. split; [discriminate|]. cbn. lia.
    - split; [cbn; auto|]. split.
      + cbn [item_of it_x]. change (nth 3 (sm_row s) 0) with (vec (sm_row s) 3%nat). rewrite Er. assert (m <= z_rmax z) by (apply Hle; left; reflexivity).
        unfold Rmax. destruct (Rle_dec m (z_rms z)); lra.
      + exists (sm_face s). cbn. auto.
  Qed.
  Lemma grows_refl s : grows s s.
  Proof. exists []. now rewrite app_nil_r. Qed.
  Lemma grows_trans a b c : grows a b -> grows b c -> grows a c.
  Proof. intros (x & E) (y & E'). exists (x ++ y). rewrite E', E, app_assoc. reflexivity. Qed.
  Lemma add_samples_ok : forall l ss num m ss' num' m', Forall fit l -> stock ss -> num = count ss ->
    add_samples e l (ss, num, m) = Ok (ss', num', m') -> stock ss' /\ grows ss ss' /\ num' = count ss'.
  Proof.
    induction l as [|s l IH]; intros ss num m ss' num' m' Hl Hs Hn E; cbn [add_samples] in E.
    - injection E as <- <- _. split; auto. split; auto. apply grows_refl.
    - apply Forall_cons_iff in Hl. destruct Hl as (Hf & Hl). destruct (sm_covered s) eqn:Ec.
      + destruct (Nat.leb max_misses (S m)); [injection E as <- <- _; split; auto; split; auto; apply grows_refl|]. eapply IH; eauto.
      + apply bind_Ok_inv in E. destruct E as (s1 & E1 & E). destruct (Hf Ec) as (Ha & Hi). destruct (stock_add _ Hs Ha Hi E1) as (S1 & G1 & C1).
        destruct (IH _ _ _ _ _ _ Hl S1 (eq_trans (f_equal S Hn) (eq_sym C1)) E) as (A & B & C). split; auto. split; auto. eapply grows_trans; eauto.
  Qed.

  (** ** One patch *)
  Definition live (st : progress R) : Prop := stock (g_ss st) /\ g_num st = count (g_ss st) /\ length (g_old st) = T.
  Definition done (st st' : progress R) (p : pool R) : Prop :=
    live st' /\ grows (g_ss st) (g_ss st')
    /\ exists scs q, history points faces (z_Lip z) (z_ratio z) p scs q /\ p_size q = 0%nat
         /\ Forall (usable_scene points faces) scs /\ Forall (fun sc => scene_grows sc (Scene (g_ss st') es cs)) scs.
  Lemma fill_pool_ok : forall fuel st p m st', live st -> reached points faces p -> fill_pool w e fuel st p m = Ok st' -> done st st' p.
  Proof.
    induction fuel as [|fuel IH]; intros st p m st' (Hs & Hn & Ho) Hr E; cbn [fill_pool] in E; [discriminate|].
    apply bind_Ok_inv in E. destruct E as (l & El & E). apply bind_Ok_inv in E. destruct E as (((ss, num), m1) & Ea & E).
    destruct He as (HT & _ & Hsched).
    destruct (@round_fit p (g_ss st) (g_num st) (g_k st) (g_old st) l Hr Hs) as (Ll & Hfit); [lia|exact El|].
    destruct (@add_samples_ok _ _ _ _ _ _ _ Hfit Hs Hn Ea) as (S1 & G1 & N1).
    set (st1 := Progress ss num (map (fun s => gv (sm_row s) 3%nat) l) (g_k st + 3)) in *.
    assert (L1 : live st1) by (split; [exact S1|split; [exact N1|cbn; rewrite map_length; congruence]]).
    destruct (Nat.leb max_misses m1).
    - apply bind_Ok_inv in E. destruct E as (p' & Ep & E). rewrite Ho in Ep.
      assert (Hr' : reached points faces p') by (eapply reached_refine; [exact Hr|apply Hsched|exact Ep]).
      destruct (Nat.eqb (p_size p') 0) eqn:Ez.
      + injection E as <-. apply Nat.eqb_eq in Ez. split; auto. split; auto. exists [Scene ss es cs], p'. split.
        * eapply history_first; [apply Hsched|exact Ep|constructor].
        * split; auto. split; constructor; auto; [apply stock_scene; auto|]. repeat split; apply grows_refl.
      + destruct (IH _ _ _ _ L1 Hr' E) as (L2 & G2 & scs & q & Hh & Hq & Hu & Hg). split; auto. split; [eapply grows_trans; eauto|].
        exists (Scene ss es cs :: scs), q. split; [eapply history_first; [apply Hsched|exact Ep|exact Hh]|]. split; auto.
        split; constructor; auto; [apply stock_scene; auto|]. repeat split; try apply grows_refl. exact G2.
    - destruct (IH _ _ _ _ L1 Hr E) as (L2 & G2 & H2). split; auto. split; auto. eapply grows_trans; eauto.
  Qed.
  (** ** All patches *)
  Fixpoint chain (inner : nat) (st : progress R) (ps : list (pool R)) (st' : progress R) : Prop :=
    match ps with
    | [] => st' = st
    | p :: t => exists st1, fill_pool w e inner st p 0 = Ok st1 /\ chain inner st1 t st'
    end.
  Lemma fill_patches_chain inner : forall fuel st ip np st' np', (1 <= np)%nat -> fill_patches w e fuel inner st ip np = Ok (st', np') ->
    (1 <= np')%nat /\ exists ps, patches fuel points faces ip np = Ok ps /\ chain inner st ps st'.
  Proof.
    induction fuel as [|fuel IH]; intros st ip np st' np' Hn E; cbn [fill_patches] in E; [discriminate|]. cbn [patches].
    destruct (Nat.ltb ip np); [|injection E as <- <-; split; auto; exists []; split; auto; reflexivity].
    apply bind_Ok_inv in E. destruct E as ((p, n1) & Es & E). apply bind_Ok_inv in E. destruct E as (st1 & E1 & E).
    destruct (start_faces_inv _ _ _ _ Es) as (lo & hi & Ep & _).
    destruct (patch_range_ok (length faces) ip Hn) as (n3 & bin & lo3 & hi3 & Er3 & Hn3 & _). fold faces in Ep. rewrite Ep in Er3. injection Er3 as -> _ _.
    destruct (IH _ _ _ _ _ (proj1 Hn3) E) as (A & ps & B & C). split; auto. exists (p :: ps). fold points faces in Es. rewrite Es. cbn [bind]. rewrite B. cbn [bind].
    split; auto. exists st1. auto.
  Qed.
  Lemma patches_same : forall f f' ip np ps ps', patches f points faces ip np = Ok ps -> patches f' points faces ip np = Ok ps' -> ps = ps'.
  Proof.
    induction f as [|f IH]; intros f' ip np ps ps' E E'; cbn [patches] in E; [discriminate|]. destruct f' as [|f']; cbn [patches] in E'; [discriminate|].
    destruct (Nat.ltb ip np); [|congruence]. apply bind_Ok_inv in E. destruct E as ((p, n1) & Es & E). rewrite Es in E'. cbn [bind] in E'.
    apply bind_Ok_inv in E. destruct E as (r & Er & E). apply bind_Ok_inv in E'. destruct E' as (r' & Er' & E'). pose proof (IH _ _ _ _ _ Er Er'). congruence.
  Qed.
  Lemma chain_ok inner : forall ps st st', live st -> Forall (reached points faces) ps -> chain inner st ps st' ->
    live st' /\ grows (g_ss st) (g_ss st')
    /\ forall p, In p ps -> exists scs q, history points faces (z_Lip z) (z_ratio z) p scs q /\ p_size q = 0%nat
         /\ Forall (usable_scene points faces) scs /\ Forall (fun sc => scene_grows sc (Scene (g_ss st') es cs)) scs.
  Proof.
    induction ps as [|p ps IH]; intros st st' Hl Hr Hc; cbn [chain] in Hc.
    - subst st'. split; auto. split; [apply grows_refl|intros p []].
    - destruct Hc as (st1 & E1 & Hc). apply Forall_cons_iff in Hr. destruct Hr as (Hp & Hr).
      destruct (@fill_pool_ok _ _ _ _ _ Hl Hp E1) as (L1 & G1 & scs & q & Hh & Hq & Hu & Hg).
      destruct (IH _ _ L1 Hr Hc) as (L2 & G2 & H2). split; auto. split; [eapply grows_trans; eauto|].
      intros p' [<-|Hin]; [|auto]. exists scs, q. split; auto. split; auto. split; auto. eapply Forall_impl; [|exact Hg].
      intros sc (A & B & C). repeat split; auto. eapply grows_trans; eauto.
  Qed.
  Lemma fill_patches_ok fuel inner st np st' np' : (1 <= np)%nat -> live st -> fill_patches w e fuel inner st 0 np = Ok (st', np') ->
    (1 <= np')%nat /\ live st' /\ forall q, mesh q -> covered_surface (z_ratio z) (Scene (g_ss st') es cs) q.
  Proof.
    intros Hn Hl E. destruct (@fill_patches_chain _ _ _ _ _ _ _ Hn E) as (Hn' & ps & Ep & Hc). split; auto.
    destruct (@C31_partition _ _ points faces np Hpts Hfaces Hn) as (ps2 & E2 & _ & _ & Hr). pose proof (@patches_same _ _ _ _ _ _ Ep E2) as <-.
    assert (Hr' : Forall (reached points faces) ps) by (eapply Forall_impl; [|exact Hr]; intros p (_ & A & _); exact A).
    destruct (@chain_ok _ _ _ _ Hl Hr' Hc) as (L2 & G2 & H2). split; auto. exact (@C33_surface points faces (z_Lip z) (z_ratio z) np ps _ Hpts Hfaces Hn E2 H2).
  Qed.

  (** ** Narrow regions: the block does nothing *)
  Lemma normal_flat (a b : list R) d : snd (triangle_normal (three a b b)) d = 0.
  Proof.
    assert (Z : forall v : nat -> R, forall d, cross v v d = 0).
    { intros v d'. unfold cross. destruct d' as [|[|d']]; cbn; lra. }
    unfold triangle_normal. change (edge (three a b b) 0 2) with (edge (three a b b) 0 1).
    destruct (normalize_vector 3 (edge (three a b b) 0 1)) as (g, v). destruct (negb (g && g)); [reflexivity|].
    destruct (nltb _ _); cbn [snd]; [apply Z|]. rewrite Z. change ndiv with Rdiv. unfold Rdiv. ring.
  Qed.
  Lemma narrow_pair_id i fi j st st' : z_thr (s_z w) < 1 -> narrow_pair w i fi j st = Ok st' -> st' = st.
  Proof.
    intros Ht. destruct st as (ss, b). unfold narrow_pair. intros E. apply bind_Ok_inv in E. destruct E as (fj & _ & E). destruct (Nat.eqb fi fj); [congruence|].
    apply bind_Ok_inv in E. destruct E as (f & _ & E). apply bind_Ok_inv in E. destruct E as (j1 & _ & E). apply bind_Ok_inv in E. destruct E as (j2 & Ej2 & E).
    apply bind_Ok_inv in E. destruct E as (j3 & Ej3 & E). rewrite Ej2 in Ej3. injection Ej3 as <-.
    apply bind_Ok_inv in E. destruct E as (x1 & _ & E). apply bind_Ok_inv in E. destruct E as (x2 & Ex2 & E).
    apply bind_Ok_inv in E. destruct E as (x3 & Ex3 & E). rewrite Ex2 in Ex3. injection Ex3 as <-.
    apply bind_Ok_inv in E. destruct E as (si & _ & E).
    destruct (project_triangle (gv si) (three x1 x2 x2)) as (proj, dst).
    destruct (normalize_vector 3 _) as (good, v). destruct good; [|congruence].
    assert (D : dot_product 3 (snd (triangle_normal (three x1 x2 x2))) v = 0).
    { rewrite dot_product_R. pose proof (normal_flat x1 x2) as Z. generalize dependent (snd (triangle_normal (three x1 x2 x2))). intros nv _ Z. unfold dot. rewrite <- (sumn_zero 3). apply sumn_ext. intros k Hk. rewrite Z. ring. }
    rewrite D in E. replace (nltb (z_thr (s_z w)) _) with true in E; [congruence|]. symmetry. apply Rltb_true.
    change (nsub n1 (nmul 0 0)) with (1 - 0 * 0). replace (1 - 0 * 0) with 1 by ring. change nsqrt with sqrt. rewrite sqrt_1. change nabs with Rabs.
    rewrite Rabs_R1. exact Ht.
  Qed.
  Lemma narrow_id ss num ss' b : z_thr (s_z w) < 1 -> narrow w ss num = Ok (ss', b) -> ss' = ss /\ b = false.
  Proof.
    intros Ht. unfold narrow. destruct (nltb n0 _); [|intros [= <- <-]; auto]. intros E.
    apply (@for_res_Ok _ (fun st => st = (ss, false))) in E; auto; [injection E as <- <-; auto|].
    intros k st st' _ -> Eb. apply bind_Ok_inv in Eb. destruct Eb as (si & _ & Eb). apply bind_Ok_inv in Eb. destruct Eb as (fi & _ & Eb).
    apply bind_Ok_inv in Eb. destruct Eb as (f & _ & Eb). apply bind_Ok_inv in Eb. destruct Eb as (y1 & _ & Eb). apply bind_Ok_inv in Eb. destruct Eb as (y2 & _ & Eb).
    apply bind_Ok_inv in Eb. destruct Eb as (l & _ & Eb).
    apply (@fold_res_Ok _ _ (fun st => st = (ss, false))) in Eb; auto. intros j st1 st2 _ -> E2. eapply narrow_pair_id; eauto.
  Qed.

  (** ** The faces of the spheres *)
  Lemma face_of_ok ss i f : placed_on w ss i f -> face_of ss i = Ok f.
  Proof.
    intros (E & _). unfold record in E. unfold face_of. destruct (st_att ss) as [l|]; [|discriminate].
    destruct (nth_error l i) as [r|] eqn:Er; [|rewrite nth_overflow in E; [discriminate|apply nth_error_None; auto]].
    rewrite (get_some Er). cbn [bind]. rewrite (nth_error_nth _ _ None Er) in E. subst r. reflexivity.
  Qed.
  Lemma face_point_ok ss i k : stock ss -> (i < count ss)%nat -> (k < 3)%nat -> gv (face_point w ss i k) = facing w ss i k.
  Proof.
    intros Hs Hi Hk. destruct (stock_nth Hs Hi) as (_ & _ & f & Hp). unfold face_point. rewrite (face_of_ok Hp). cbn [bind].
    destruct Hp as (Er & Hf & _). unfold facing. rewrite Er. unfold face_corner, point3. fold points faces in Hf |- *.
    destruct (nth_error_lt faces Hf) as (row & Erow). rewrite (get_some Erow). cbn [bind]. rewrite (nth_error_nth _ _ [] Erow).
    destruct (Hfaces _ (nth_error_In _ _ Erow)) as (L4 & Hc). destruct (nth_error_lt row (i := S k)) as (c & Ec); [lia|]. rewrite (get_some Ec). cbn [bind].
    specialize (Hc (S k) ltac:(lia)). rewrite (nth_error_nth _ _ 0%nat Ec) in Hc |- *. unfold corner.
    destruct (nth_error_lt points Hc) as (pt & Ept). rewrite (get_some Ept). cbn [bind]. rewrite (nth_error_nth _ _ [] Ept).
    pose proof (Hpts _ (nth_error_In _ _ Ept)) as L3. apply Nat.leb_le in L3. rewrite L3. reflexivity.
  Qed.
  Lemma triangle_normal_ext (c c' : nat -> nat -> R) : (forall k, (k < 3)%nat -> c k = c' k) -> triangle_normal c = triangle_normal c'.
  Proof. intros H. unfold triangle_normal, edge. rewrite (H 0%nat), (H 1%nat), (H 2%nat) by lia. reflexivity. Qed.
  Lemma accepted_face ss i j k p : stock ss -> accepted ss es cs (fun i k => gv (face_point w ss i k)) i j k p -> accepted ss es cs (facing w ss) i j k p.
  Proof.
    intros Hs (A1 & A2 & A3 & A4). unfold accepted. rewrite <- (@triangle_normal_ext (fun k => gv (face_point w ss i k)) (facing w ss i)); auto.
    intros m Hm. apply face_point_ok; auto.
  Qed.

  (** ** The whole loop *)
  Definition final (ss u l : stree R) : Prop :=
    moderate (all_spheres ss es cs) -> (forall it, SeedPairsSpec.usable (all_spheres ss es cs) (e_darts e it)) -> surface_result w ss u l.
  Lemma surface_loop_ok : forall fuel inner it st np ups los ss u l, live st -> (1 <= np)%nat -> st_nd ups = 3%nat -> st_nd los = 3%nat ->
    surface_loop w e fuel inner it st np ups los = Ok (ss, u, l) -> final ss u l.
  Proof.
    induction fuel as [|fuel IH]; intros inner it st np ups los ss u l Hl Hn Nu Nl E; cbn [surface_loop] in E; [discriminate|].
    apply bind_Ok_inv in E. destruct E as ((st1, np1) & Ef & E).
    destruct (@fill_patches_ok _ _ _ _ _ _ Hn Hl Ef) as (Hn1 & (S1 & N1 & O1) & Hcov).
    apply bind_Ok_inv in E. destruct E as ((s1, b) & En & E). destruct (@narrow_id _ _ _ _ Hthr En) as (-> & ->).
    apply bind_Ok_inv in E. destruct E as ((s2, b2) & E2 & E).
    assert (Hsp : spheres (g_ss st1)).
    { apply stock_spheres; auto. intros C. rewrite C29_no_spheres_refuted in E2 by auto. discriminate. }
    destruct (@impose_shrinks _ _ _ _ _ _ (proj1 HL) Hsp E2) as (Sh2 & F2).
    assert (Lv : forall s, shrinks (g_ss st1) s -> live (Progress s (g_num st1) (g_old st1) (g_k st1))).
    { intros s Hs. split; [eapply stock_shrinks; eauto|]. split; auto. cbn. rewrite N1. symmetry. apply (only_radii_count (proj1 Hs)). }
    destruct b2; [eapply IH; [apply Lv; exact Sh2|exact Hn1| | |exact E]; auto|]. rewrite (F2 eq_refl) in *. clear F2 Sh2.
    apply bind_Ok_inv in E. destruct E as ((((s3, u3), l3), b3) & E3 & E).
    destruct (@generate_shrinks _ _ _ _ _ _ _ _ _ _ _ Hsp (stock_nonneg S1) E3) as (Sh3 & Nu3 & Nl3).
    destruct b3; [eapply IH; [apply Lv; exact Sh3|exact Hn1| | |exact E]; congruence|].
    apply bind_Ok_inv in E. destruct E as (fs & Efs & E). apply bind_Ok_inv in E. destruct E as ((s4, tight) & E4 & E).
    pose proof (@validate_shrinks _ _ _ _ _ _ (shrinks_spheres Sh3 Hsp) E4) as Sh4.
    destruct tight; [|eapply IH; [apply Lv; eapply shrinks_trans; eauto|exact Hn1| | |exact E]; congruence].
    injection E as <- <- <-. intros Hmod Hdarts.
    (* the last pass *)
    pose proof (generate_false _ _ _ _ _ _ _ E3) as ->. pose proof (validate_true _ _ _ _ E4) as ->.
    set (s := g_ss st1) in *. set (o := values w e it s) in *.
    assert (Hpos : positive_radii s).
    { intros i Hi. assert (Hi2 : (i < length (all_spheres s es cs))%nat) by (unfold all_spheres; rewrite app_length; unfold count in Hi; lia).
      destruct (Hmod i i Hi2 Hi2) as ((H0 & _) & _). unfold rad, all_spheres, coord in H0. rewrite app_nth1 in H0 by exact Hi. exact H0. }
    destruct (@C29_tree (z_Lip z) s (Nat.max inner (count s)) false (proj1 HL) Hsp Hpos) as (s' & b' & E' & _ & Hlip & _); [lia|].
    assert (E2' : impose_lipschitz (Nat.max inner (count s)) (z_Lip z) s false = Ok (s, false)) by (eapply impose_more; [|exact E2]; lia).
    rewrite E2' in E'. injection E' as <- <-.
    assert (Hin : sphere_input s es cs (z_Lip z) (o_darts o)).
    { destruct Hw as (_ & _ & _ & _ & _ & W1 & W2 & W3 & W4 & _). split.
      - split; [apply stock_nd; auto|]. split; [right; auto|]. split; auto. intros p Hp. eapply stock_rows; eauto.
      - split; auto. split; auto. split; auto. split; auto. split; auto. exact (Hdarts it). }
    destruct (@C64_generation o s es cs (z_Lip z) ups los Hin Nu Nl) as (s5 & u5 & l5 & sh5 & E5 & _ & F5 & _ & Hset).
    assert (E3' : generate_surface_seeds o s es cs (z_Lip z) ups los = Ok (s, u3, l3, false)) by exact E3.
    rewrite E3' in E5. injection E5 as <- <- <- <-. destruct (F5 eq_refl) as (_ & Su & Sl & Du & Dl & Pu & Pl).
    destruct (@C38_triangles o s es cs (z_Lip z) ups los s u3 l3 Hin Nu Nl E3') as (fs' & Efs' & Lf & Hp & Htri). rewrite Efs in Efs'. injection Efs' as <-.
    destruct (@C38_accepted s es cs fs (or_intror Hsp) Hpos Hp) as (s6 & wt & E6 & W & _). 
    assert (E4' : validate_surface_mesh s es cs fs = Ok (s, true)) by exact E4. rewrite E4' in E6. injection E6 as <- <-.
    assert (Fs : forall this other t t2, seeds_of (accepted s es cs (o_face o)) this other t t2 -> seeds_of (accepted s es cs (facing w s)) this other t t2).
    { intros this other t t2 H a Ha. destruct (H a Ha) as (i & j & k & p & b & x & y & A & B). exists i, j, k, p, b, x, y. split; auto. apply accepted_face; auto. }
    split; [exact Hcov|]. split; [intros i Hi; apply stock_nth; auto|]. split; [intros i Hi; apply stock_nth; auto|]. split; [exact Hlip|].
    split; [apply Fs; exact Su|]. split; [apply Fs; exact Sl|]. split; auto. split; auto. split; auto. split; auto. split.
    { intros all i j k Hijk Hk Hi (T1 & T2 & T3 & Ta & x & X1 & X2 & X3 & X4).
      destruct (@C35_found s es cs (z_Lip z) (o_darts o) (o_stale o i j k) (o_face o) i j k x Hin Hijk Hk T1 T2 T3 Ta X1 X2 X3 X4) as (p & Ep).
      destruct (@C35_pair s es cs (z_Lip z) (o_darts o) (o_stale o i j k) (o_face o) i j k p Hin Hijk Hk Ep) as (_ & _ & _ & G).
      exists p. split.
      - rewrite <- (@triangle_normal_ext (o_face o i) (facing w s i)); auto. intros m Hm. apply face_point_ok; auto.
      - destruct (Hset i j k p Hijk Hk Hi Ep) as [A|[(_ & [A|A])|(c & _ & [(_ & A)|(A & _)])]]; [left; exact A|discriminate|right; left; exact A|right; right; exact A|discriminate]. }
    exists fs. split; auto. split; [|apply W; auto].
    intros a Ha. destruct (Htri a Ha) as (i & j & k & p & A & B & C). exists i, j, k, p. split; auto. apply accepted_face; auto.
  Qed.
End Loop.
