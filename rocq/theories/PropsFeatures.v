(** C75: detection of the sharp edges and corners of an input that is not clean. *)
From Coq Require Import Reals Lra.
From Verif Require Import Base Num Vec KdSpec KdTree SurfaceLoop GeometryTriProofs SamplingSpec Sampling Geometry GeometrySpec GeometryProofs SmartTree SmartTreeSpec SmartTreeProofs PolyMesh Regions
  SpheresSpec SpheresProofs PointCloud PointCloudSpec PointCloudProofs PropsKdTree PropsPointCloud FeatureDetect DetectSpec DetectProofs.
Local Open Scope R_scope.

(** The tree holds the points of the cloud, in order, with their vectors and numbers. *)
Definition stored (t : stree R) (C : list cpt) : Prop :=
  ready t /\ st_nd t = 3%nat /\ holds t (map (fun e => It (cp_x e) (cp_normal e) (Some [2%nat; cp_face e])) C).

(** Two vectors orthogonal to a face and anticlockwise are the same. *)
Lemma normal_unique points f v w : normal_to points f v -> normal_to points f w -> v = w.
Proof.
  intros (Lv & _ & _ & Ev) (Lw & _ & _ & Ew). destruct v as [|a [|b [|c [|]]]]; try discriminate. destruct w as [|a' [|b' [|c' [|]]]]; try discriminate.
  pose proof (Ev 0%nat ltac:(lia)) as A0. pose proof (Ev 1%nat ltac:(lia)) as A1. pose proof (Ev 2%nat ltac:(lia)) as A2.
  pose proof (Ew 0%nat ltac:(lia)) as B0. pose proof (Ew 1%nat ltac:(lia)) as B1. pose proof (Ew 2%nat ltac:(lia)) as B2. cbn [nth] in *. congruence.
Qed.

Section Run.
  Variables (points : list (list R)) (faces : list (list nat)) (u : nat -> R) (budget : nat).
  Hypothesis Hp : in_range points.
  Hypothesis Hf : Forall (good_face points) faces.
  Hypothesis Hn : faces <> [].
  Hypothesis Hu : forall k, 0 <= u k < 1.

  Lemma surface_ok extra : exists s r, surface_cloud points faces u budget extra = Ok (s, r)
    /\ mapr (load faces s) (seq 0 (pc_num s)) = Ok faces
    /\ surface_cloud_of points faces (pc_points s) /\ pc_points s <> [] /\ Forall well (pc_points s)
    /\ (forall j f, nth_error faces j = Some f -> exists v, nth_error (pc_normal s) j = Some (Some v) /\ normal_to points f v)
    /\ (forall e, In e (pc_points s) -> exists f, nth_error faces (cp_face e) = Some f /\ nth_error (pc_normal s) (cp_face e) = Some (Some (cp_normal e)))
    /\ r = sqrt (total (map (face_area points) faces) / INR budget).
  Proof.
    assert (Hr : Forall (fun p => length p = 3%nat) points) by (apply (rows3 Hp)).
    assert (Hv : Forall (valid_face points) faces) by (eapply Forall_impl; [|exact Hf]; intros f G; apply G).
    assert (G : forall p, (p < length faces)%nat -> ~ degenerate points (nth p faces [])).
    { intros p L. eapply Forall_forall in Hf; [apply Hf|]. now apply nth_In. }
    destruct (@full_run points faces u Hr Hv Hu extra budget Hn G) as (s & r & bl & l & E & N & P & Lv & Pt & Lb & Ll & B & A & R & Nr).
    assert (Nr' : forall j f, nth_error faces j = Some f -> exists v, nth_error (pc_normal s) j = Some (Some v) /\ normal_to points f v).
    { intros j f Ej. destruct (Nr j (nth_error_Some_lt _ _ Ej)) as (v & Ev & Nv). rewrite (nth_error_nth _ _ [] Ej) in Nv. eauto. }
    assert (On : forall e, In e (pc_points s) -> exists f, nth_error faces (cp_face e) = Some f /\ on_face points f (cp_x e) /\ normal_to points f (cp_normal e)).
    { intros e I. rewrite Pt in I. apply in_app_iff in I as [I|I].
      - apply in_concat in I as (b & Ib & Ie). apply In_nth_error in Ib as (j & Ej). assert (Lj : (j < length faces)%nat) by (rewrite <- Lb; exact (nth_error_Some_lt _ _ Ej)).
        destruct (B j Lj) as (v & more & Nv & Lm & Eb & Am). rewrite (nth_error_nth _ _ [] Ej) in Eb. subst b.
        apply in_app_iff in Ie as [Ie|Ie].
        + apply in_map_iff in Ie as (x & <- & Ix). cbn [cp_face cp_x cp_normal]. exists (nth j faces []). split; [now apply nth_error_nth'|]. split; [|exact Nv].
          eapply landmarks_on; [exact Hu|exact Ix].
        + eapply Forall_forall in Am; [|exact Ie]. destruct Am as (-> & -> & O). exists (nth j faces []). split; [now apply nth_error_nth'|]. auto.
      - apply In_nth_error in I as (t & Et). destruct (A t e Et) as (Pk & O & T).
        assert (Lf : (cp_face e < length faces)%nat) by (destruct Pk as (L & _); now rewrite map_length in L).
        exists (nth (cp_face e) faces []). split; [now apply nth_error_nth'|]. auto. }
    exists s, r. split; [exact E|]. split; [|split; [|split; [|split; [|split; [|split]]]]].
    - rewrite N. rewrite (@mapr_map _ _ _ (fun j => nth j faces [])).
      + f_equal. apply list_ext. intros k. destruct (lt_dec k (length faces)) as [L|L].
        * rewrite (@map_nth_error _ _ _ k _ k) by (rewrite (nth_error_nth' (seq 0 (length faces)) 0%nat (n := k)) by (rewrite seq_length; exact L); now rewrite seq_nth).
          symmetry. now apply nth_error_nth'.
        * rewrite !(proj2 (nth_error_None _ _)) by (rewrite ?map_length, ?seq_length; lia). reflexivity.
      + intros j I. apply in_seq in I. unfold load. rewrite P, (@get_in _ (seq 0 (length faces)) j 0%nat) by (rewrite seq_length; lia). cbn [bind]. rewrite seq_nth by lia. cbn [Nat.add].
        rewrite Lv, (@get_in _ _ j false) by (rewrite repeat_length; lia). cbn [bind].
        rewrite (@nth_indep _ _ _ false true) by (rewrite repeat_length; lia). rewrite nth_repeat. apply get_in. lia.
    - split; [exact On|]. intros j f x Ej Ix. assert (Lj := nth_error_Some_lt _ _ Ej). destruct (B j Lj) as (v & more & Nv & Lm & Eb & Am).
      rewrite (nth_error_nth _ _ [] Ej) in Eb. exists (CPoint x v j). split; [|auto]. rewrite Pt. apply in_or_app. left. apply in_concat. exists (nth j bl []). split; [apply nth_In; lia|].
      rewrite Eb. apply in_or_app. left. apply in_map_iff. exists x. auto.
    - rewrite Pt. destruct faces as [|f fs]; [congruence|]. destruct (B 0%nat ltac:(cbn; lia)) as (v & more & _ & _ & Eb & _). destruct bl as [|b bl]; [discriminate|]. cbn [nth] in Eb. subst b. discriminate.
    - apply Forall_forall. intros e I. destruct (On e I) as (f & Ef & O & Nv). assert (Gf : good_face points f) by (eapply Forall_forall in Hf; [exact Hf|eapply nth_error_In; eauto]).
      destruct (on_face_small faces u _ Hp Hu Nr' Gf O) as (L & Sm). split; [exact L|]. split; [apply Nv|exact Sm].
    - exact Nr'.
    - intros e I. destruct (On e I) as (f & Ef & O & Nv). exists f. split; [exact Ef|]. destruct (Nr' _ f Ef) as (v & Ev & Nv'). now rewrite (normal_unique Nv Nv').
    - exact R.
  Qed.
End Run.

Lemma edges_of_faces points faces thr rmin C es : good_edges points faces thr rmin C es ->
  forall e, In e es -> exists f i, In f faces /\ (i < 3)%nat /\ e = edge_of f i.
Proof.
  intros (pick & -> & _) e I. apply in_flat_map in I as (j & Ij & I). apply in_seq in Ij. apply in_map_iff in I as (i & <- & Ii).
  apply filter_In in Ii as (Ii & _). exists (nth j faces []), i. split; [apply nth_In; lia|]. split; [|reflexivity]. cbn in Ii. lia.
Qed.

(** ** C75: what the detection reports.  For every surface with good faces, every random sequence, every smooth angle that is
    not zero and every rmin: the detection ends; it reports the sharp edges face by face, the cloud of these edges and
    the sharp corners, or it is undefined for one of the three reasons given. *)
Theorem C75_detection (points : list (list R)) faces (u : nat -> R) thr rmin budget ebudget fuel :
  in_range points -> Forall (good_face points) faces -> faces <> [] -> thr < 1 -> (forall k, 0 <= u k < 1) ->
  (0 < ebudget)%Z -> (length faces < fuel)%nat ->
  let feature := 10 * sqrt (total (map (face_area points) faces) / INR budget) in
  feature <= @dbl_max R _ ->
  exists C, surface_cloud_of points faces C /\
  match detect_features points faces u thr rmin budget ebudget fuel with
  | Ok ft =>
      let es := ft_edges ft in let E := ft_edge_points ft in let sp := all_length points es / IZR ebudget in
      stored (ft_surface ft) C /\ stored (ft_edge_cloud ft) E
      /\ good_edges points faces thr rmin C es /\ es <> [] /\ 0 < sp /\ edge_cloud_of points es sp E
      /\ exists normals, length normals = length points
           /\ (forall p, (p < length points)%nat -> good_normals points faces thr rmin C feature p (nth p normals []))
           /\ good_corners points faces thr rmin C es sp E normals (ft_corners ft)
  | UB =>
      (exists f y, In f faces /\ on_face points f y /\ blind (same_sheet thr rmin y) C)
      \/ good_edges points faces thr rmin C []
      \/ (exists es E i y, good_edges points faces thr rmin C es /\ edge_cloud_of points es (all_length points es / IZR ebudget) E
           /\ (i < length es)%nat /\ on_segment (at1 points es i) (at2 points es i) (vec y) /\ blind (same_curve thr (1 / 10 ^ 10) y) E)
  | Fuel => False
  end.
Proof.
  intros Hp Hf Hn Ht Hu Hb Hfu feature Hfe.
  destruct (@surface_ok points faces u budget Hp Hf Hn Hu (per_face budget)) as (s & r & E & Ef & HC & Hne & Hw & HN & HCn & Er).
  exists (pc_points s). split; [exact HC|]. unfold detect_features. rewrite E. cbn [bind].
  destruct (tree_of_ok Hw Hne) as (cloud & -> & Tc). cbn [bind]. rewrite Ef. cbn [bind]. cbv zeta.
  replace (@nmul R _ (nofZ 10) r) with feature by (unfold feature; rewrite Er; reflexivity).
  set (C := pc_points s) in *. set (fn := pc_normal s) in *.
  pose proof (@normals_ok points faces u thr rmin C cloud fn feature Hp Hf Ht Hu Hw Tc HN HCn Hfe fuel (pc_draws s) Hfu) as ON.
  destruct (all_normals _ _ _ _ _ _ _ _ _ _) as [[normals k]| |]; cbn [outcome fst] in ON; cbn [bind]; [|left; exact ON|exact ON]. destruct ON as (Ln & Gn).
  pose proof (@sharp_edges_ok points faces u thr rmin C cloud fn Hp Hf Ht Hu Hw Tc HN HCn k) as OE.
  destruct (sharp_edges _ _ _ _ _ _ _) as [[es k']| |]; cbn [outcome fst] in OE; cbn [bind]; [|left; exact OE|exact OE].
  assert (HE := edges_of_faces OE). rewrite (spacing_ok u _ Hf Hu HN es HE). cbn [bind].
  set (sp := all_length points es / IZR ebudget).
  assert (D : es = [] \/ es <> []) by (destruct es; [now left|right; discriminate]). destruct D as [->|Nes]; [right; left; exact OE|].
  assert (Les : (0 < length es)%nat) by (destruct es; [congruence|cbn; lia]).
  assert (Psp : 0 < sp).
  { unfold sp. apply Rdiv_lt_0_compat; [|now apply IZR_lt]. unfold all_length.
    assert (P : 0 < length_of points es 0) by (apply (len_gt u _ Hf Hu HN es HE Les)).
    pose proof (@sumn_ge (length es) (length_of points es) 0 (fun k Lk => Rlt_le _ _ (len_gt u _ Hf Hu HN es HE Lk)) Les). lra. }
  destruct (cloud_ok u _ _ Hf Hu HN HCn es HE Psp) as (EE & -> & HEc). cbn [bind].
  destruct (tree_of_ok (cloud_well u _ _ Hp Hf Hu HN HCn HE HEc) (cloud_some _ HE HEc Nes)) as (ecloud & -> & Te). cbn [bind].
  pose proof (@corners_ok points faces u thr rmin C cloud fn Hp Hf Ht Hu Hw Tc HN HCn es HE sp EE ecloud Psp HEc Te normals k' Ln) as OC.
  destruct (sharp_corners _ _ _ _ _ _ _ _ _ _ _) as [cs| |]; cbn [outcome] in OC; cbn [bind]; [|destruct OC as [OC|(i & y & Li & Ly & O & B)]; [left; exact OC|right; right; exists es, EE, i, y; auto]|exact OC].
  cbn [ft_edges ft_edge_points ft_surface ft_edge_cloud ft_corners]. cbv zeta. fold sp.
  split; [exact Tc|]. split; [exact Te|]. split; [exact OE|]. split; [exact Nes|]. split; [exact Psp|]. split; [exact HEc|]. exists normals. auto.
Qed.

(** The edge cloud covers the edges: every point of a sharp edge is closer than half the spacing to a point of the cloud
    with the direction of the edge. *)
Theorem C75_edge_cover points es sp E i (x : nat -> R) :
  edge_cloud_of points es sp E -> (i < length es)%nat -> on_segment (at1 points es i) (at2 points es i) x ->
  exists e, In e E /\ cp_face e = i /\ vdist 3 x (vec (cp_x e)) < sp / 2.
Proof.
  intros (bl & -> & Lb & A) Li (t & Ht & Ex).
  destruct (nth_error bl i) as [l|] eqn:El; [|apply nth_error_None in El; unfold cpt in *; rewrite Lb in El; lia].
  destruct (A i l El) as (num & dir & L5 & Hsp & _ & _ & _ & _ & Ll & Al & H0 & H1 & Hj).
  set (N := INR (num + 1)) in *. assert (PN : 0 < N) by (apply lt_0_INR; lia).
  destruct (@SamplingProofs.Int_part_nat (t * N + 1 / 2)) as (j & _ & Hj1); [nra|].
  assert (Lj : (j <= num + 1)%nat).
  { apply INR_le. fold N. destruct (Rle_dec (INR j) N) as [|Nj]; [assumption|exfalso]. assert (S (num + 1) <= j)%nat by (apply INR_lt in Nj || (apply Rnot_le_lt in Nj; apply INR_lt in Nj); lia).
    apply le_INR in H. rewrite S_INR in H. fold N in H. nra. }
  assert (G : exists e, In e l /\ forall d, (d < 3)%nat -> vec (cp_x e) d = at1 points es i d + INR j / N * (at2 points es i d - at1 points es i d)).
  { destruct (Nat.eq_dec j 0) as [->|N0].
    - destruct l as [|e l]; [discriminate|]. exists e. split; [now left|]. intros d Ld. rewrite (H0 e d eq_refl Ld). cbn [INR]. unfold Rdiv. ring.
    - destruct (Nat.eq_dec j (num + 1)) as [->|N1].
      + destruct l as [|e0 [|e l]]; [discriminate..|]. exists e. split; [right; now left|]. intros d Ld. rewrite (H1 e d eq_refl Ld). fold N. unfold Rdiv. rewrite Rinv_r by lra. ring.
      + destruct (nth_error l (S j)) as [e|] eqn:Ee; [|apply nth_error_None in Ee; unfold cpt in *; rewrite Ll in Ee; lia].
        exists e. split; [eapply nth_error_In; eauto|]. intros d Ld. apply (Hj j e d); [lia|exact Ee|exact Ld]. }
  destruct G as (e & Ie & Ee). exists e. split; [apply in_concat; exists l; split; [eapply nth_error_In; eauto|exact Ie]|]. split; [apply (Al e Ie)|].
  set (a := at1 points es i) in *. set (b := at2 points es i) in *. set (q := t - INR j / N).
  assert (Eq : vdist 3 x (vec (cp_x e)) = Rabs q * length_of points es i).
  { unfold length_of. fold a b. rewrite (vdist_sym 3 a b). unfold vdist, norm.
    rewrite (@dot_ext 3 _ (fun d => q * (b d - a d)) _ (fun d => q * (b d - a d))) by (intros d Ld; rewrite (Ex d Ld), (Ee d Ld); unfold q; ring).
    rewrite dot_scal_l, dot_scal_r, <- Rmult_assoc, sqrt_mult_alt by apply Rle_0_sqr. f_equal. apply sqrt_Rsqr_abs. }
  rewrite Eq. assert (Hq : Rabs q * N <= 1 / 2).
  { rewrite <- (Rabs_right N) by lra. rewrite <- Rabs_mult. replace (q * N) with (t * N - INR j) by (unfold q; field; lra). unfold Rabs. destruct (Rcase_abs _); lra. }
  pose proof (Rabs_pos q). assert (0 <= length_of points es i) by apply vdist_nonneg.
  assert (Psp : 0 < sp) by nra.
  destruct (Rle_lt_or_eq_dec 0 (Rabs q) H) as [Pq|<-]; [|lra]. nra.
Qed.

(** ** Where the detection fails.  A surface without sharp edges: undefined (the edge cloud is empty, and its tree is built
    all the same; or a dart sees nothing that is not smooth). *)
Theorem C75_smooth_refuted (points : list (list R)) faces (u : nat -> R) thr rmin budget ebudget fuel :
  in_range points -> Forall (good_face points) faces -> faces <> [] -> thr < 1 -> (forall k, 0 <= u k < 1) ->
  (0 < ebudget)%Z -> (length faces < fuel)%nat ->
  10 * sqrt (total (map (face_area points) faces) / INR budget) <= @dbl_max R _ ->
  (forall C, surface_cloud_of points faces C -> forall f i, In f faces -> (i < 3)%nat -> ~ sharp points faces thr rmin C f i) ->
  detect_features points faces u thr rmin budget ebudget fuel = UB.
Proof.
  intros Hp Hf Hn Ht Hu Hb Hfu Hfe Hs.
  destruct (@C75_detection points faces u thr rmin budget ebudget fuel Hp Hf Hn Ht Hu Hb Hfu Hfe) as (C & HC & H).
  destruct (detect_features _ _ _ _ _ _ _ _) as [ft| |]; [exfalso|reflexivity|contradiction].
  destruct H as (_ & _ & (pick & Ees & Hp') & Ne & _). apply Ne. rewrite Ees.
  assert (G : forall l, (forall j, In j l -> (j < length faces)%nat) -> flat_map (fun j => map (edge_of (nth j faces [])) (filter (pick j) [0; 1; 2]%nat)) l = []).
  { induction l as [|j l IH]; intros Hl; [reflexivity|]. cbn [flat_map]. rewrite IH by (intros; apply Hl; now right). rewrite app_nil_r.
    assert (Lj := Hl j (or_introl eq_refl)). assert (Ej : nth_error faces j = Some (nth j faces [])) by now apply nth_error_nth'.
    assert (F : forall i, (i < 3)%nat -> pick j i = false).
    { intros i Li. specialize (Hp' j _ i Ej Li). destruct (pick j i); [|reflexivity]. exfalso. eapply Hs; [exact HC|eapply nth_error_In; exact Ej|exact Li|exact Hp']. }
    cbn [filter]. rewrite !F by lia. reflexivity. }
  apply G. intros j I. apply in_seq in I. lia.
Qed.
(** A flat sheet is one. *)
Theorem C75_flat_refuted (points : list (list R)) faces (u : nat -> R) thr rmin budget ebudget fuel z :
  in_range points -> Forall (good_face points) faces -> faces <> [] -> thr < 1 -> (forall k, 0 <= u k < 1) ->
  (0 < ebudget)%Z -> (length faces < fuel)%nat ->
  10 * sqrt (total (map (face_area points) faces) / INR budget) <= @dbl_max R _ ->
  (forall p, In p points -> nth 2 p 0 = z) ->
  detect_features points faces u thr rmin budget ebudget fuel = UB.
Proof.
  intros Hp Hf Hn Ht Hu Hb Hfu Hfe Hz. apply C75_smooth_refuted; auto. intros C (On & _) f i If Li (y & Oy & e & h & h' & Fe & _).
  destruct Fe as (Ie & Ns & _). apply Ns. right. destruct (On e Ie) as (g & Eg & Oe & (Ln & _ & _ & Nv)).
  assert (T3 : forall k f, In f faces -> (k < 3)%nat -> tri points f k 2%nat = z).
  { intros k f' If' Lk. unfold tri. apply Hz. apply nth_In. eapply Forall_forall in Hf; [|exact If']. destruct Hf as ((_ & V) & _). apply V. lia. }
  assert (F3 : forall f x, In f faces -> on_face points f x -> nth 2 x 0 = z).
  { intros f' x If' (_ & m & (Sm & B) & _). rewrite (B 2%nat) by lia. rewrite !T3 by (auto; lia). rewrite <- !Rmult_plus_distr_r, Sm. ring. }
  assert (Ig : In g faces) by (eapply nth_error_In; eauto).
  assert (Z : cos_to y e = 0).
  { unfold cos_to. replace (dot 3 (view y e) (vec (cp_normal e))) with 0; [unfold Rdiv; ring|].
    rewrite dot3. unfold view, vec. rewrite (Nv 0%nat), (Nv 1%nat) by lia.
    rewrite (F3 f y If Oy), (F3 g (cp_x e) Ig Oe).
    unfold vprod, sub. rewrite !(T3 _ g Ig) by lia. unfold Rdiv. ring. }
  unfold sin_to. rewrite Z. replace (1 - 0 * 0) with 1 by ring. rewrite sqrt_1. exact Ht.
Qed.

(** The smooth angle zero (threshold 1): no amount of steps is enough, the list of normals of the first point grows for ever. *)
Section Zero.
  Variables (points : list (list R)) (faces : list (list nat)) (thr rmin feature : R) (C : list cpt) (cloud : stree R) (fn : list (option (list R))).
  Hypothesis Hp : in_range points.
  Hypothesis Hf : Forall (good_face points) faces.
  Hypothesis Ht : 1 <= thr.
  Hypothesis Hr : 0 < rmin.
  Hypothesis Hfe : 0 < feature.
  Hypothesis W : Forall well C.
  Hypothesis T : tree_for C cloud.
  Hypothesis HC : surface_cloud_of points faces C.
  Hypothesis HCn : forall e, In e C -> exists f, nth_error faces (cp_face e) = Some f /\ nth_error fn (cp_face e) = Some (Some (cp_normal e)).
  Definition unit3 (v : list R) : Prop := length v = 3%nat /\ unit 3 (vec v).
  Lemma units_dot v w : unit3 v -> unit3 w -> dot 3 (vec v) (vec w) <= thr.
  Proof.
    intros (_ & A) (_ & B). unfold unit in *. pose proof (dot_le_norm 3 (vec v) (vec w)) as H. unfold norm in H. rewrite A, B, sqrt_1 in H. lra.
  Qed.
  Lemma cloud_unit e : In e C -> unit3 (cp_normal e).
  Proof. intros I. destruct HC as (On & _). destruct (On e I) as (f & _ & _ & (L & U & _)). split; [exact L|exact U]. Qed.
  Lemma face_at_some j k : face_of cloud j = Ok k -> exists e, In e C /\ k = cp_face e.
  Proof.
    unfold face_of. destruct T as (_ & _ & _ & _ & Ea). rewrite Ea. rewrite !map_map. unfold get.
    destruct (nth_error (map _ C) j) as [o|] eqn:E; [|discriminate]. cbn [bind]. destruct (nth_error C j) as [e|] eqn:E1.
    - rewrite (map_nth_error _ _ _ E1) in E. injection E as <-. cbn. intros [= <-]. exists e. split; [eapply nth_error_In; eauto|reflexivity].
    - apply nth_error_None in E1. rewrite (proj2 (nth_error_None _ _)) in E by (rewrite map_length; exact E1). discriminate.
  Qed.
  Lemma narrow_zero u v cs x ns' : unit3 v -> forall m ns k, narrow points u thr rmin cloud faces fn m v cs x ns k = Ok ns' -> ns' = ns.
  Proof.
    intros Uv. induction m as [|m IH]; intros ns k E; cbn [narrow] in E; [congruence|].
    apply bind_Ok_inv in E as (d & _ & E). apply bind_Ok_inv in E as (f & Ef & E). apply bind_Ok_inv in E as (w & Ew & E).
    unfold face_across in Ef. apply bind_Ok_inv in Ef as ([j h] & _ & Ef). apply face_at_some in Ef as (e & Ie & ->).
    destruct (HCn e Ie) as (g & _ & En). unfold face_normal in Ew. rewrite (get_some En) in Ew. cbn [bind] in Ew. injection Ew as <-.
    rewrite dot_product_R in E. change (nleb ?a thr) with (Rleb a thr) in E.
    change (Spheres.gv v) with (vec v) in E. change (Spheres.gv (cp_normal e)) with (vec (cp_normal e)) in E.
    rewrite (proj2 (Rleb_true (dot 3 (vec v) (vec (cp_normal e))) thr) (units_dot Uv (@cloud_unit e Ie))) in E. exact (IH _ _ E).
  Qed.
  Lemma around_zero x : length x = 3%nat -> small (vec x) -> (exists e, In e C /\ away x e = 0) -> forall fuel ns ns', Forall unit3 ns ->
    around points thr rmin cloud faces fn feature fuel x ns <> Ok ns'.
  Proof.
    intros Lx Sx (e0 & I0 & Z0). induction fuel as [|fuel IH]; intros ns ns' Hns; cbn [around]; [discriminate|].
    destruct (@C59_closest_nonsmooth_normals cloud (map (@cp_normal R) C) x ns thr dbl_max) as (b & -> & N).
    { apply T. } { apply (t_nrm T). } { apply (nrm_len T). } { intros v I. apply (nrm_rows W T v I). } { destruct T as (_ & -> & _). lia. }
    { intros v I. destruct T as (_ & -> & _). eapply Forall_forall in Hns; [|exact I]. destruct Hns as (-> & _). lia. } { left. apply dbl_max_pos. }
    assert (A : answer C (fun _ => False) x b).
    { refine (@nearest_answer C cloud W T _ _ x b Sx _ _ N); [|intros; now right]. intros j e Ej. split; [|contradiction]. intros (_ & v & Iv & Lv).
      rewrite (@normal_at_c C _ _ Ej) in Lv. destruct T as (_ & Nd & _). rewrite Nd in Lv.
      eapply Forall_forall in Hns; [|exact Iv]. pose proof (@cloud_unit e (nth_error_In _ _ Ej)) as Ue.
      destruct Hns as (_ & Uv), Ue as (_ & Ue). unfold unit in *. pose proof (cauchy_schwarz 3 (vec v) (vec (cp_normal e))) as CS. rewrite Uv, Ue in CS.
      unfold Rabs in Lv. destruct (Rcase_abs _); nra. }
    destruct A as [(_ & B)|(j & e & Ej & -> & Ie & _ & M)]; [destruct (B e0 I0)|]. cbn [bind].
    assert (Z : away x e = 0).
    { pose proof (M e0 I0 (fun H => H)). pose proof (norm_nonneg 3 (view x e)). unfold away in *. lra. }
    rewrite Z. change (nltb 0 feature) with (Rltb 0 feature). rewrite (proj2 (Rltb_true 0 feature) Hfe).
    rewrite (@face_of_c C cloud T _ _ Ej). cbn [bind]. destruct (HCn e Ie) as (f & Ef & En). destruct HC as (On & _). destruct (On e Ie) as (f' & Ef' & Oe & _).
    assert (f' = f) by congruence. subst f'. assert (G : good_face points f) by (eapply Forall_forall in Hf; [exact Hf|eapply nth_error_In; eauto]).
    assert (Ec : face_corners points faces (cp_face e) = Ok (rows_of points f)).
    { unfold face_corners. rewrite (get_some Ef). cbn [bind]. apply corners_of_ok. apply G. }
    rewrite Ec. cbn [bind]. change (Spheres.gv x) with (vec x).
    assert (PD : snd (project_triangle (vec x) (corner (rows_of points f))) < rmin).
    { change (project_triangle (vec x) (corner (rows_of points f))) with (project_triangle (vec x) (tri points f)). destruct G as (V & D & _).
      pose proof (@project_triangle_R (vec x) (tri points f) D) as H. destruct (project_triangle (vec x) (tri points f)) as [q h]. cbn [snd].
      destruct H as (_ & Hm & _).
      - intros k Lk. apply small_dist; [exact Sx|]. intros d _. unfold tri. apply Hp. apply nth_In. destruct V as (_ & V). apply V. lia.
      - destruct Oe as (_ & Oe). assert (Hh : h <= away x e) by exact (Hm _ Oe). lra. }
    change (nltb ?a rmin) with (Rltb a rmin). rewrite (proj2 (Rltb_true _ rmin) PD).
    unfold face_normal. rewrite (get_some En). cbn [bind].
    replace (redundant thr ns (cp_normal e)) with false.
    - apply IH. apply Forall_app. split; [exact Hns|]. constructor; [apply (@cloud_unit e Ie)|constructor].
    - symmetry. apply (proj2 (redundant_false thr ns (cp_normal e))). intros v I. eapply Forall_forall in Hns; [|exact I]. apply (units_dot Hns (@cloud_unit e Ie)).
  Qed.
End Zero.

Theorem C75_zero_angle_refuted (points : list (list R)) faces (u : nat -> R) thr rmin budget ebudget fuel ft :
  in_range points -> Forall (good_face points) faces -> faces <> [] -> 1 <= thr -> 0 < rmin -> (forall k, 0 <= u k < 1) -> (0 < budget)%nat ->
  detect_features points faces u thr rmin budget ebudget fuel <> Ok ft.
Proof.
  intros Hp Hf Hn Ht Hr Hu Hb E.
  destruct (@surface_ok points faces u budget Hp Hf Hn Hu (per_face budget)) as (s & r & E0 & Ef & HC & Hne & Hw & HN & HCn & Er).
  unfold detect_features in E. rewrite E0 in E. cbn [bind] in E. destruct (tree_of_ok Hw Hne) as (cloud & Ec & Tc). rewrite Ec in E. cbn [bind] in E. rewrite Ef in E. cbn [bind] in E. cbv zeta in E.
  apply bind_Ok_inv in E as ([normals k] & E & _). unfold all_normals in E. apply bind_Ok_inv in E as (st & E & _).
  assert (L0 : (0 < length faces)%nat) by (destruct faces; [congruence|cbn; lia]).
  replace (length faces) with (S (length faces - 1)) in E by lia. cbn [seq fold_res] in E.
  apply bind_Ok_inv in E as (st1 & E & _). apply bind_Ok_inv in E as (st2 & E & _).
  destruct (nth_error faces 0) as [f|] eqn:E1; [|apply nth_error_None in E1; lia].
  assert (G : good_face points f) by (eapply Forall_forall in Hf; [exact Hf|eapply nth_error_In; eauto]). destruct G as ((Lf & Vf) & D & _).
  unfold point_normals in E. rewrite (get_some E1) in E. cbn [bind] in E. rewrite (@get_in _ f 1 0%nat) in E by lia. cbn [bind] in E.
  set (p := nth 1 f 0%nat) in *. assert (Lp : (p < length points)%nat) by (apply Vf; lia).
  rewrite (@get_in _ (repeat false (length points)) p false) in E by (rewrite repeat_length; exact Lp). rewrite nth_repeat in E. cbn [bind] in E.
  apply bind_Ok_inv in E as (vis & _ & E). rewrite (@get_in _ (repeat [] (length points)) p []) in E by (rewrite repeat_length; exact Lp). rewrite nth_repeat in E. cbn [bind] in E.
  destruct (HN 0%nat f E1) as (v & En & Nv). unfold face_normal at 1 in E. rewrite (get_some En) in E. cbn [bind] in E.
  rewrite (@get_in _ points p []) in E by exact Lp. cbn [bind] in E. apply bind_Ok_inv in E as (cs & _ & E).
  change (redundant thr [] v) with false in E. cbn iota in E. cbn [app] in E.
  apply bind_Ok_inv in E as (ns & E2 & E). apply bind_Ok_inv in E as (ns' & E3 & _).
  assert (Uv : unit3 v) by (destruct Nv as (A & B & _); split; [exact A|exact B]).
  apply (@narrow_zero points faces thr rmin (pc_points s) cloud (pc_normal s) Ht Tc HC HCn u v cs _ _ Uv) in E2. subst ns.
  set (x := nth p points []) in *. assert (Ix : In x points) by now apply nth_In.
  refine (@around_zero points faces thr rmin (@nmul R _ (nofZ 10) r) (pc_points s) cloud (pc_normal s) Hp Hf Ht Hr _ Hw Tc HC HCn x _ _ _ fuel [v] ns' _ E3).
  - rewrite Er. change (@nmul R _ (nofZ 10) ?a) with (10 * a). apply Rmult_lt_0_compat; [lra|]. apply sqrt_lt_R0. apply Rdiv_lt_0_compat; [|apply lt_0_INR; lia].
    assert (P : forall g, In g faces -> 0 < face_area points g).
    { intros g Ig. apply In_nth_error in Ig as (j & Ej). destruct (HN j g Ej) as (w & _ & (_ & _ & Pn & _)). unfold face_area. lra. }
    destruct faces as [|g fs]; [congruence|]. unfold total. cbn [map fold_right]. pose proof (P g (or_introl eq_refl)).
    assert (Q : forall l, (forall g, In g l -> 0 < face_area points g) -> 0 <= fold_right Rplus 0 (map (face_area points) l)).
    { induction l as [|a l IH]; intros H'; cbn [map fold_right]; [lra|]. pose proof (H' a (or_introl eq_refl)). specialize (IH (fun g I => H' g (or_intror I))). lra. }
    specialize (Q fs (fun g I => P g (or_intror I))). lra.
  - apply (Hp x Ix).
  - intros d _. apply (Hp x Ix).
  - destruct HC as (_ & Hl). destruct (Hp x Ix) as (Lx & _).
    destruct (Hl 0%nat f [tri points f 0 0; tri points f 0 1; tri points f 0 2]%nat E1) as (e & Ie & _ & Ex); [now left|]. exists e. split; [exact Ie|].
    unfold away. rewrite <- (vdist_self 3 (vec x)). unfold vdist, norm. f_equal. apply dot_ext; intros d Ld; unfold view; rewrite Ex; destruct d as [|[|[|d]]]; try lia; reflexivity.
  - repeat constructor; apply Uv.
Qed.

(** A tetrahedron meets the hypotheses. *)
Definition tet_faces : list (list nat) := [[3; 0; 2; 1]; [3; 0; 1; 3]; [3; 0; 3; 2]; [3; 1; 2; 3]]%nat.
Lemma dbl_big : 1000 <= @dbl_max R _.
Proof. unfold dbl_max. change (@nofZ R _) with IZR. apply IZR_le. vm_compute. discriminate. Qed.
Lemma norm_ge v s : s * s <= dot 3 v v -> 0 <= s -> s <= norm 3 v.
Proof. intros H P. unfold norm. rewrite <- (sqrt_square s) by exact P. now apply sqrt_le_1_alt. Qed.
Lemma norm_le v s : dot 3 v v <= s * s -> 0 <= s -> norm 3 v <= s.
Proof. intros H P. unfold norm. rewrite <- (sqrt_square s) by exact P. now apply sqrt_le_1_alt. Qed.
Lemma tiny : 0 < 1 / 10 ^ 10 <= 1 / 10.
Proof. pose proof tol_pos. split; [lra|]. unfold Rdiv. rewrite !Rmult_1_l. apply Rinv_le_contravar; [lra|]. replace 10 with (10 ^ 1) at 1 by ring. apply Rle_pow; [lra|lia]. Qed.
Lemma tet_good : Forall (good_face cube_corner) tet_faces.
Proof.
  assert (G : forall a b c : nat, (a < 4)%nat -> (b < 4)%nat -> (c < 4)%nat ->
    (forall i, (i < 3)%nat -> 1 <= vdist 3 (tri cube_corner [3; a; b; c]%nat i) (tri cube_corner [3; a; b; c]%nat (next i))) ->
    (let s := tri cube_corner [3; a; b; c]%nat in norm 3 (sub (s 1%nat) (s 0%nat)) <= 2 /\ norm 3 (sub (s 2%nat) (s 0%nat)) <= 2
       /\ 1 <= norm 3 (vprod (sub (s 1%nat) (s 0%nat)) (sub (s 2%nat) (s 0%nat)))) -> good_face cube_corner [3; a; b; c]%nat).
  { intros a b c La Lb Lc He (N1 & N2 & N3). pose proof tiny. split; [|split].
    - split; [cbn; lia|]. intros i Li. destruct i as [|[|[|[|i]]]]; cbn; lia.
    - intros [H'|[H'|H']].
      + pose proof (He 0%nat ltac:(lia)) as E. unfold vdist in E. cbn [next] in E. change (norm 3 (sub (tri cube_corner [3; a; b; c]%nat 1) (tri cube_corner [3; a; b; c]%nat 0))) with (vdist 3 (tri cube_corner [3; a; b; c]%nat 1) (tri cube_corner [3; a; b; c]%nat 0)) in H'.
        rewrite vdist_sym in H'. unfold vdist in H'. lra.
      + pose proof (He 2%nat ltac:(lia)) as E. cbn [next] in E. change (norm 3 (sub (tri cube_corner [3; a; b; c]%nat 2) (tri cube_corner [3; a; b; c]%nat 0))) with (vdist 3 (tri cube_corner [3; a; b; c]%nat 2) (tri cube_corner [3; a; b; c]%nat 0)) in H'. lra.
      + pose proof (norm_nonneg 3 (sub (tri cube_corner [3; a; b; c]%nat 1) (tri cube_corner [3; a; b; c]%nat 0))).
        pose proof (norm_nonneg 3 (sub (tri cube_corner [3; a; b; c]%nat 2) (tri cube_corner [3; a; b; c]%nat 0))). nra.
    - intros i Li. specialize (He i Li). lra. }
  repeat (apply Forall_cons; [|]); [| | | |constructor]; (apply G; try lia; [intros i Li; destruct i as [|[|[|i]]]; [..|lia]; apply norm_ge; try lra; rewrite dot3; unfold sub, tri; cbn; lra|]);
    cbv zeta; repeat split; first [apply norm_le|apply norm_ge]; try lra; rewrite dot3; unfold vprod, sub, tri; cbn; lra.
Qed.
Example C75_hypotheses : in_range cube_corner /\ Forall (good_face cube_corner) tet_faces /\ tet_faces <> []
  /\ 10 * sqrt (total (map (face_area cube_corner) tet_faces) / INR 1) <= @dbl_max R _.
Proof.
  pose proof dbl_big as B. split; [|split; [apply tet_good|split; [discriminate|]]].
  - intros p I. cbn in I. destruct I as [<-|[<-|[<-|[<-|[]]]]]; (split; [reflexivity|]); intros d; destruct d as [|[|[|[|d]]]]; cbn; rewrite ?Rabs_R0, ?Rabs_R1; lra.
  - assert (A : total (map (face_area cube_corner) tet_faces) <= 4).
    { unfold total, tet_faces. cbn [map fold_right]. unfold face_area. cbv zeta.
      assert (N : forall a b c : nat, norm 3 (vprod (sub (tri cube_corner [3; a; b; c]%nat 1) (tri cube_corner [3; a; b; c]%nat 0)) (sub (tri cube_corner [3; a; b; c]%nat 2) (tri cube_corner [3; a; b; c]%nat 0))) <= 2 ->
        / 2 * norm 3 (vprod (sub (tri cube_corner [3; a; b; c]%nat 1) (tri cube_corner [3; a; b; c]%nat 0)) (sub (tri cube_corner [3; a; b; c]%nat 2) (tri cube_corner [3; a; b; c]%nat 0))) <= 1) by (intros; lra).
      pose proof (N 0 2 1)%nat as N1. pose proof (N 0 1 3)%nat as N2. pose proof (N 0 3 2)%nat as N3. pose proof (N 1 2 3)%nat as N4.
      assert (Q : forall a b c, (a, b, c) = (0, 2, 1)%nat \/ (a, b, c) = (0, 1, 3)%nat \/ (a, b, c) = (0, 3, 2)%nat \/ (a, b, c) = (1, 2, 3)%nat ->
        norm 3 (vprod (sub (tri cube_corner [3; a; b; c]%nat 1) (tri cube_corner [3; a; b; c]%nat 0)) (sub (tri cube_corner [3; a; b; c]%nat 2) (tri cube_corner [3; a; b; c]%nat 0))) <= 2).
      { intros a b c H. apply norm_le; [|lra]. destruct H as [[= -> -> ->]|[[= -> -> ->]|[[= -> -> ->]|[= -> -> ->]]]]; rewrite dot3; unfold vprod, sub, tri; cbn; lra. }
      specialize (N1 (Q _ _ _ (or_introl eq_refl))). specialize (N2 (Q _ _ _ (or_intror (or_introl eq_refl)))).
      specialize (N3 (Q _ _ _ (or_intror (or_intror (or_introl eq_refl))))). specialize (N4 (Q _ _ _ (or_intror (or_intror (or_intror eq_refl))))). lra. }
    cbn [INR]. unfold Rdiv. rewrite Rinv_1, Rmult_1_r.
    assert (sqrt (total (map (face_area cube_corner) tet_faces)) <= 2); [|lra].
    rewrite <- (sqrt_square 2) by lra. apply sqrt_le_1_alt. lra.
Qed.

(** The model runs: every edge of the tetrahedron is found, and reported once for each of its two faces; the corners are 2, 0, 1, 3. *)
Definition lcg (k : nat) : PrimFloat.float := @ndiv _ FNum (@nofZ _ FNum ((Z.of_nat k * 7919 + (Z.of_nat k * Z.of_nat k) * 104729 + 12345) mod 9973)%Z) (@nofZ _ FNum 9973%Z).
Eval vm_compute in
  match detect_features tet_points tet_faces lcg (@nlit _ FNum 9 1) (@nlit _ FNum 5 2) 0 10 10 with
  | Ok f => Some (ft_edges f, ft_corners f, length (ft_edge_points f)) | _ => None end.

Print Assumptions C75_detection.
Print Assumptions C75_edge_cover.
Print Assumptions C75_smooth_refuted.
Print Assumptions C75_flat_refuted.
Print Assumptions C75_zero_angle_refuted.
