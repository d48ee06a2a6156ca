(** Proofs about the composition of the stages that place the spheres. *)
From Coq Require Import Reals Lra.
From Verif Require Import Base Num Vec KdTree KdSpec SmartTree SmartTreeSpec SmartTreeProofs TreeGrow Geometry GeometrySpec GeometryProofs
  Spheres SpheresSpec SpheresProofs SpheresLipProofs ActivePool ActivePoolSpec ActivePoolRunSpec ActivePoolThreadProofs SamplePool SamplePoolSpec SamplePoolProofs SeedPairsSpec
  PolyMesh PolyMeshSpec PolyMeshProofs PointCloud PointCloudSpec FeatureSpec FeatureProofs CleanClouds CornerSpheres CornerSpec CornerProofs EdgeLoop EdgeLoopSpec EdgeLoopProofs
  SurfaceLoop SurfaceLoopSpec PropsPolyMesh PropsCleanClouds PropsCorners PropsEdges PropsSurfaceLoop Placement PlacementSpec.
Local Open Scope R_scope.

(** The tree of the corner spheres. *)
Lemma corner_tree need fuel k L points corners s :
  CornerSpec.good_setting k points corners -> corners <> [] -> 0 <= L -> (2 <= fuel)%nat ->
  generate_corner_spheres need fuel k L points corners = Ok s ->
  cloud s (normals_of s) /\ forall p, In p (st_pts s) -> length p = 4%nat.
Proof.
  intros Hk Hne HL Hf. unfold generate_corner_spheres.
  assert (Hlen : (0 < length corners)%nat) by (destruct corners; cbn; [congruence|lia]).
  destruct (@first_loop_ok need k points corners Hk Hlen) as (s0 & l & -> & [G Ff Fa Fp] & Hl). cbn [bind].
  rewrite firstn_all in *.
  assert (Hp3 : forall p, In p l -> length (place points (fst p)) = 3%nat).
  { intros p Hp. destruct (Ff p Hp) as (H1 & _). apply (@place_len need k points corners Hk); auto. }
  pose proof (@listed_count points l s0 G) as Cn. pose proof (@listed_radius points l s0 G Hp3) as Rn.
  pose proof (@listed_spheres points l s0 G Hp3 Hl) as S0.
  destruct (@second_loop_ok s0 S0) as (s1 & -> & O1 & Cap).
  { intros i Hi. rewrite Cn in Hi. rewrite Rn by auto. destruct (Ff _ (nth_In l (0%nat, 0) Hi)) as (_ & ((H1 & _) & _) & _).
    destruct Hk as (_ & _ & _ & _ & Hm & _). eapply Rle_trans; [exact H1|exact Hm]. }
  cbn [bind]. assert (S1 : spheres s1) by (eapply only_radii_spheres; eauto).
  destruct (@brute_ok L s1 fuel HL S1 Hf) as (s' & b & -> & O2 & _). cbn [bind]. intros [= <-].
  pose proof (only_radii_trans O1 O2) as O. pose proof (only_radii_spheres O S0) as (Rd & Nd & _).
  pose proof O as (A1 & A2 & A3 & A4 & A5 & A6 & A7 & A8 & A9 & A10 & A11 & A12).
  assert (En : st_nrm s0 = Some (map it_n (map (sphere_item points) l))).
  { destruct G as (_ & _ & _ & [(E & _)|(_ & [_ (_ & E & _) _ _ _])]); [destruct l; [congruence|discriminate]|exact E]. }
  split.
  - assert (Ens : normals_of s' = map it_n (map (sphere_item points) l)) by (unfold normals_of; rewrite A3, En; reflexivity).
    split; [exact Rd|]. split; [exact Nd|]. split; [rewrite Ens, A3; exact En|]. split; [rewrite Ens, !map_length; congruence|].
    intros v Hv. rewrite Ens, map_map in Hv. apply in_map_iff in Hv as (p & <- & _). cbn. lia.
  - intros p Hp. destruct (In_nth _ _ [] Hp) as (i & Hi & <-). rewrite A11. change (i < count s')%nat in Hi.
    rewrite A10, Cn in Hi. rewrite (@listed_row points l s0 G) by auto. rewrite app_length, (Hp3 _ (nth_In l (0%nat, 0) Hi)). reflexivity.
Qed.

(** The clouds. *)
Lemma kept_cloud t C : kept t C -> (forall e, In e C -> length (cp_normal e) = 3%nat) -> cloud t (normals_of t).
Proof.
  intros (Rd & Nd & Hp & Hn & _) HC.
  assert (En : normals_of t = map cp_normal C) by (unfold normals_of; rewrite Hn, map_map; reflexivity).
  split; [exact Rd|]. split; [exact Nd|]. split; [rewrite En, Hn, map_map; reflexivity|].
  split; [rewrite En; unfold count; rewrite Hp, !map_length; reflexivity|].
  intros v Hv. rewrite En in Hv. apply in_map_iff in Hv as (e & <- & He). rewrite (HC e He). lia.
Qed.

(** Slopes of a half and more hold for all pairs if they hold for near ones. *)
Lemma steep_lipschitz L s : 1 / 2 <= L -> positive_radii s -> locally_lipschitz L s -> lipschitz L s.
Proof.
  intros HL Hp Hl i j Hi Hj. destruct (Rlt_dec (gap s i j) (2 * radius s i)) as [H|H]; [now apply Hl|].
  pose proof (Hp j Hj). assert (0 <= gap s i j) by apply vdist_nonneg. nra.
Qed.

Lemma sorted_nth l : ascending l -> forall a b, (a < b < length l)%nat -> (nth a l 0 < nth b l 0)%nat.
Proof.
  intros H. apply Sorted_StronglySorted in H; [|intros x y z; apply Nat.lt_trans].
  induction H as [|x l Hs IH Hx]; intros a b Hab; [cbn in Hab; lia|]. cbn [length] in Hab.
  destruct b as [|b]; [lia|]. destruct a as [|a]; cbn [nth].
  - eapply Forall_forall in Hx; [exact Hx|]. apply nth_In. lia.
  - apply IH. lia.
Qed.

Lemma nonempty_in {A} (l : list A) : l <> [] -> exists x, In x l.
Proof. destruct l as [|x l]; [congruence|]. exists x. now left. Qed.
Lemma nil_or {A} (l : list A) : l = [] \/ l <> [].
Proof. destruct l; [now left|right; discriminate]. Qed.

Lemma triangle_corner (c : nat -> nat -> R) i : (i < 3)%nat -> in_triangle c (c i).
Proof.
  intros L. exists (fun k => if Nat.eqb k i then 1 else 0). split; [|intros k _; destruct (Nat.eqb k i); lra]. split; [|intros d _];
    destruct i as [|[|[|i]]]; cbn; try lia; lra.
Qed.
Lemma triangle_segment (c : nat -> nat -> R) a b x : in_triangle c a -> in_triangle c b -> on_segment a b x -> in_triangle c x.
Proof.
  intros (m & (Sm & Bm) & Pm) (m' & (Sm' & Bm') & Pm') (t & Ht' & E). exists (fun k => m k + t * (m' k - m k)). split.
  - split; [nra|]. intros d L. rewrite E by exact L. rewrite Bm, Bm' by exact L. ring.
  - intros k L. specialize (Pm k L). specialize (Pm' k L). nra.
Qed.
Lemma triangle_ext (c c' : nat -> nat -> R) x x' : (forall k d, (k < 3)%nat -> (d < 3)%nat -> c k d = c' k d) -> (forall d, (d < 3)%nat -> x d = x' d) ->
  in_triangle c x -> in_triangle c' x'.
Proof.
  intros Ec Ex (m & (Sm & Bm) & Pm). exists m. split; [|exact Pm]. split; [exact Sm|]. intros d L. rewrite <- Ex, <- !Ec by lia. now apply Bm.
Qed.

Section Mesh.
  Variables (points : list (list R)) (faces : list (list nat)).
  Notation mesh := (on_mesh points (map (cons 3%nat) faces)).
  Notation surf := (on_surface points faces).
  Lemma point3_at i d : (d < 3)%nat -> vec (point3 points i) d = at_point points i d.
  Proof. intros L. unfold vec, point3, at_point. destruct (nth i points []) as [|? [|? [|? ?]]]; destruct d as [|[|[|d]]]; try lia; reflexivity. Qed.
  Lemma tri_at f : (f < length faces)%nat -> forall k d, (k < 3)%nat -> (d < 3)%nat ->
    ActivePoolSpec.tri (face_tri points (map (cons 3%nat) faces) f) k d = corner_points points (nth f faces []) k d.
  Proof.
    intros L k d Lk Ld.
    assert (E : nth f (map (cons 3%nat) faces) [] = 3%nat :: nth f faces []).
    { rewrite (nth_indep _ [] (3%nat :: [])) by (rewrite map_length; exact L). apply map_nth. }
    unfold ActivePoolSpec.tri, face_tri, corner_points, face_corner. cbn [fst snd]. rewrite E.
    destruct k as [|[|[|k]]]; [| | |lia]; cbn [nth]; now rewrite point3_at.
  Qed.
  Lemma mesh_surface x : mesh x <-> surf x.
  Proof.
    split.
    - intros (f & L & H). rewrite map_length in L. exists (nth f faces []). split; [now apply nth_In|].
      eapply triangle_ext; [| |exact H]; [|auto]. intros k d Lk Ld. now apply tri_at.
    - intros (f & I & H). destruct (In_nth _ _ [] I) as (i & L & <-). exists i. split; [now rewrite map_length|].
      eapply triangle_ext; [| |exact H]; [|auto]. intros k d Lk Ld. symmetry. now apply tri_at.
  Qed.
  Lemma mesh_ext x y : (forall d, (d < 3)%nat -> x d = y d) -> surf x -> surf y.
  Proof. intros E (f & I & H). exists f. split; [exact I|]. eapply triangle_ext; [| |exact H]; auto. Qed.

  Hypothesis Hp : proper_triangles (length points) faces.
  Variable thr : R.
  Lemma nth_corner f a : In f faces -> In a f -> exists k, (k < 3)%nat /\ nth k f 0%nat = a.
  Proof.
    intros I Ia. destruct Hp as (Ht & _). destruct (Ht f I) as (L & _). destruct (In_nth _ _ 0%nat Ia) as (k & Lk & E). exists k. split; [lia|exact E].
  Qed.
  Lemma edge_on_surface a b x : is_sharp_edge thr points faces a b -> on_segment (at_point points a) (at_point points b) x -> surf x.
  Proof.
    intros (Hw & _) S. destruct (faces_with faces a b) as [|i t] eqn:E; [congruence|].
    assert (Hi : In i (faces_with faces a b)) by (rewrite E; left; auto).
    apply faces_with_in in Hi as (Li & Ia & Ib). exists (nth i faces []). assert (I := nth_In faces [] Li). split; [exact I|].
    destruct (@nth_corner _ _ I Ia) as (k & Lk & Ek). destruct (@nth_corner _ _ I Ib) as (k' & Lk' & Ek').
    eapply triangle_segment; [| |exact S].
    - rewrite <- Ek. exact (@triangle_corner (corner_points points (nth i faces [])) k Lk).
    - rewrite <- Ek'. exact (@triangle_corner (corner_points points (nth i faces [])) k' Lk').
  Qed.
  Lemma corner_edge p : is_sharp_corner thr points faces p -> exists b, b <> p /\ is_sharp_edge thr points faces p b.
  Proof. intros (Q & _ & HQ & Hn & _). destruct Q as [|b Q]; [congruence|]. exists b. apply HQ. left. auto. Qed.
  Lemma corner_on_surface p : is_sharp_corner thr points faces p -> surf (at_point points p).
  Proof.
    intros H. destruct (corner_edge H) as (b & _ & S). eapply edge_on_surface; [exact S|]. exists 0. split; [lra|]. intros d _. ring.
  Qed.
End Mesh.

Lemma edge_stage_eq points q cf cs : edge_setting points q cf cs = edge_stage points q cf cs.
Proof. unfold edge_setting, edge_stage. f_equal. change (5 / 10 = 1 / 2). lra. Qed.
Lemma surface_stage_eq points faces q cf normals es cs : surface_setting points faces q cf normals es cs = surface_stage points faces q cf normals es cs.
Proof. reflexivity. Qed.
Lemma closest_size_ext t (x y : nat -> R) e : (forall d, (d < 3)%nat -> x d = y d) -> closest_size t x e -> closest_size t y e.
Proof.
  intros E (L & H). split; [exact L|]. intros j Lj. specialize (H j Lj). rewrite (@vdist_ext 3 x y (center t e) (center t e)), (@vdist_ext 3 x y (center t j) (center t j)) in H by auto. exact H.
Qed.

(** ** The stages. *)
Section Stages.
  Variables (points : list (list R)) (faces : list (list nat)) (q : request R) (c : chance R) (T : nat).
  Hypothesis Hp : proper_triangles (length points) faces.
  Hypothesis Hc : clean points faces.
  Hypothesis Ho : consistent faces.
  Hypothesis Hf : faces <> [].
  Hypothesis Hq : good_request points faces q.
  Hypothesis Hch : good_chance c T.
  Notation thr := (q_thr q).
  Notation mesh := (on_mesh points (map (cons 3%nat) faces)).
  Notation surf := (on_surface points faces).
  Notation F3 := (fun f : list nat => 3%nat :: f).

  Let rows : good_points points.
  Proof. intros p Ip. destruct Hc as (H & _). rewrite (H p Ip). lia. Qed.
  Lemma features_ok : exists cf, clean_clouds (c_need c) thr points faces (c_clouds c) (c_ebudget c) (c_budget c) = Ok cf
    /\ (forall a b, In (a, b) (cf_edges cf) <-> (a < b)%nat /\ is_sharp_edge thr points faces a b)
    /\ ascending (cf_corners cf)
    /\ (forall p, In p (cf_corners cf) <-> (p < length points)%nat /\ is_sharp_corner thr points faces p)
    /\ (cf_edges cf = [] -> cf_edge_cloud cf = st_new 3)
    /\ (cf_edges cf <> [] -> cloud (cf_edge_cloud cf) (normals_of (cf_edge_cloud cf)))
    /\ cloud (cf_surface cf) (normals_of (cf_surface cf)).
  Proof.
    destruct Hch as (H1 & _ & _ & _ & H2 & H3 & _).
    destruct (@C76_clean_clouds (c_need c) thr points faces (c_clouds c) (c_ebudget c) (c_budget c) Hp Hc Ho Hf H1 H2 H3)
      as (cf & E & S & Ec & A1 & A2 & A3 & A4 & A5 & A6 & A7 & A8).
    destruct (@C52_features thr points faces Hp Hc Ho) as (edges & corners & D & De & Da & Dc).
    exists cf. split; [exact Ec|]. split; [exact A1|].
    assert (Ecc : cf_corners cf = corners).
    { unfold clean_clouds in Ec. rewrite D in Ec. cbn [bind] in Ec. repeat (apply bind_Ok_inv in Ec as (? & _ & Ec)). injection Ec as <-. reflexivity. }
    split; [rewrite Ecc; exact Da|]. split; [exact A2|]. split; [intros Z; now apply A3|]. split.
    - intros Ne. destruct (A4 Ne) as (_ & K). eapply kept_cloud; [exact K|]. intros e I. destruct (In_nth_error _ _ I) as (t & Et).
      destruct (A5 t e Et) as (ed & _ & _ & _ & _ & _ & L & _). exact L.
    - eapply kept_cloud; [exact A7|]. intros e I. destruct (In_nth_error _ _ I) as (t & Et).
      destruct (A8 t e Et) as (f & _ & _ & _ & _ & _ & L & _). exact L.
  Qed.

  Variable cf : clean_features R.
  Hypothesis De : forall a b, In (a, b) (cf_edges cf) <-> (a < b)%nat /\ is_sharp_edge thr points faces a b.
  Hypothesis Da : ascending (cf_corners cf).
  Hypothesis Dc : forall p, In p (cf_corners cf) <-> (p < length points)%nat /\ is_sharp_corner thr points faces p.
  Hypothesis Ke : cf_edges cf <> [] -> cloud (cf_edge_cloud cf) (normals_of (cf_edge_cloud cf)).
  Hypothesis K0 : cf_edges cf = [] -> cf_edge_cloud cf = st_new 3.
  Hypothesis Ks : cloud (cf_surface cf) (normals_of (cf_surface cf)).

  Lemma sharp_sym a b : is_sharp_edge thr points faces a b -> is_sharp_edge thr points faces b a.
  Proof.
    assert (E : forall x y, faces_with faces x y = faces_with faces y x).
    { intros x y. unfold faces_with. apply filter_ext. intros i. apply andb_comm. }
    intros (H1 & H2). split; rewrite (E b a); auto.
  Qed.
  Lemma corner_has_edge p : In p (cf_corners cf) -> cf_edges cf <> [].
  Proof.
    intros I E. apply Dc in I as (L & H). destruct (corner_edge H) as (b & N & S).
    assert (I : In (Nat.min p b, Nat.max p b) (cf_edges cf)).
    { apply De. split; [lia|]. destruct (Nat.lt_ge_cases p b).
      - rewrite Nat.min_l, Nat.max_r by lia. exact S.
      - rewrite Nat.min_r, Nat.max_l by lia. now apply sharp_sym. }
    rewrite E in I. exact I.
  Qed.

  Lemma place_at p d : (d < 3)%nat -> vec (place points p) d = at_point points p d.
  Proof. exact (@point3_at points p d). Qed.
  Lemma corner_setting_ok : cf_corners cf <> [] -> CornerSpec.good_setting (corner_setting q cf) points (cf_corners cf).
  Proof.
    intros Ne. assert (En : cf_edges cf <> []) by (destruct (nonempty_in Ne) as (p & Ip); exact (@corner_has_edge p Ip)).
    destruct Hq as (Q1 & Q2 & Q3 & Q4 & Q5). pose proof dbl_max_pos.
    split; [exact Ks|]. split; [now apply Ke|]. split; [|split; [|split]].
    - intros p I. apply Dc in I as (L & _). split; [exact L|]. apply rows. now apply nth_In.
    - intros t Et. destruct (Q4 t Et) as (S & _ & A). split; [exact S|]. intros p I. apply Dc in I as (_ & H1).
      destruct (A (at_point points p)) as (j & Lj & Hj); [eapply corner_on_surface; eauto|]. exists j. split; [exact Lj|].
      erewrite vdist_ext; [exact Hj| |auto]. intros d Ld. now apply place_at.
    - exact (proj2 Q2).
    - cbn [corner_setting k_tol]. cbn. lra.
  Qed.
  Lemma corner_places : distinct_places points (cf_corners cf).
  Proof.
    intros a b Hab. pose proof (@sorted_nth _ Da a b Hab) as L. destruct Hc as (_ & _ & A).
    assert (Ia : In (nth a (cf_corners cf) 0%nat) (cf_corners cf)) by (apply nth_In; lia).
    assert (Ib : In (nth b (cf_corners cf) 0%nat) (cf_corners cf)) by (apply nth_In; lia).
    apply Dc in Ia as (La & _). apply Dc in Ib as (Lb & _).
    erewrite vdist_ext; [|intros d Ld; now apply place_at|intros d Ld; now apply place_at].
    specialize (A _ _ La Lb (Nat.lt_neq _ _ L)). pose proof tol_pos.
    eapply Rlt_le_trans; [|exact A]. assumption.
  Qed.

  Variable cs : stree R.
  Hypothesis Ecs : cf_corners cf <> [] -> generate_corner_spheres (c_need c) (c_fuel c) (corner_setting q cf) (q_Lip q) points (cf_corners cf) = Ok cs.
  Lemma corners_ok : cf_corners cf <> [] -> corner_result points faces q cf cs /\ positive_radii cs
    /\ cloud cs (normals_of cs) /\ spheres cs /\ (forall p, In p (st_pts cs) -> length p = 4%nat).
  Proof.
    intros Ne. assert (G := corner_setting_ok Ne). destruct Hq as (Q1 & Q2 & Q3 & Q4 & Q5). destruct Hch as (_ & _ & _ & _ & _ & _ & C2).
    destruct (@C51_corner_spheres (c_need c) (c_fuel c) _ (q_Lip q) points (cf_corners cf) G Ne (proj1 Q3) C2)
      as (s & E & S & A1 & A2 & A3 & A4 & A5 & A6 & A7 & A8 & A9).
    rewrite (Ecs Ne) in E. injection E as <-.
    assert (P : positive_radii cs).
    { apply A9; try (cbn; lra). - intros t Et. apply (Q4 t Et). - left. exact corner_places. }
    destruct (@corner_tree _ _ _ _ _ _ _ G Ne (proj1 Q3) C2 (Ecs Ne)) as (K & L4).
    split; [|split; [exact P|split; [exact K|split; [exact S|exact L4]]]].
    split; [|split; [|split; [|split; [exact A6|exact A7]]]].
    - intros p Lp H. destruct (A3 p) as (i & Li & D); [apply Dc; auto|]. exists i. split; [exact Li|]. destruct D as [D|D]; [exact D|exfalso].
      change (vdist 3 (vec (place points p)) (center cs i) < 0) in D. pose proof (vdist_nonneg 3 (vec (place points p)) (center cs i)). lra.
    - intros i Li. destruct (A1 i Li) as (p & I & D). exists p. apply Dc in I as (Lp & H). split; [exact H|]. split; [exact D|]. split.
      + intros d Ld. rewrite (A2 i p Li D d Ld). now apply place_at.
      + destruct (A5 i p Li D) as (B1 & B2). split; [exact B1|]. intros t Et. destruct (B2 t Et) as (e & He & Hr). exists e. split; [|exact Hr].
        eapply closest_size_ext; [|exact He]. intros d Ld. now apply place_at.
    - intros i Li. split; [now apply P|]. destruct (A1 i Li) as (p & I & D). destruct (A5 i p Li D) as ((R & _) & _). exact R.
  Qed.
  Lemma corners_near : cf_corners cf <> [] -> ActivePoolSpec.usable surf cs.
  Proof.
    intros Ne. destruct (corners_ok Ne) as ((A1 & A2 & _) & _ & _ & S & _). right. split; [exact S|]. intros x Hx.
    assert (L0 : (0 < count cs)%nat). { destruct S as ((_ & N & _) & _). unfold count. destruct (st_pts cs); [congruence|cbn; lia]. }
    exists 0%nat. split; [exact L0|]. destruct (A2 _ L0) as (p & H & _ & E & _). destruct Hq as (_ & _ & _ & _ & Q5).
    erewrite vdist_ext; [apply (Q5 x (at_point points p)); [exact Hx|eapply corner_on_surface; eauto]|auto|]. exact E.
  Qed.

  Notation EL := (map (fun e : nat * nat => [fst e; snd e]) (cf_edges cf)).
  Lemma edge_list i : (i < length EL)%nat -> exists a b, nth i EL [] = [a; b] /\ (a < b < length points)%nat /\ is_sharp_edge thr points faces a b.
  Proof.
    intros L. rewrite map_length in L. destruct (nth i (cf_edges cf) (0, 0)%nat) as [a b] eqn:E. exists a, b.
    assert (I : In (a, b) (cf_edges cf)) by (rewrite <- E; now apply nth_In). apply De in I as (Lab & S).
    split; [|split; [split; [exact Lab|eapply (@sharp_range thr points faces Hp); eauto]|exact S]].
    rewrite (nth_indep _ [] ((fun e : nat * nat => [fst e; snd e]) (0, 0)%nat)) by (rewrite map_length; exact L). rewrite (map_nth (fun e : nat * nat => [fst e; snd e])), E. reflexivity.
  Qed.
  Lemma segment_ext (a b a' b' x : nat -> R) : (forall d, (d < 3)%nat -> a d = a' d) -> (forall d, (d < 3)%nat -> b d = b' d) -> on_segment a b x -> on_segment a' b' x.
  Proof. intros Ea Eb (t & Ht & E). exists t. split; [exact Ht|]. intros d Ld. rewrite <- Ea, <- Eb by exact Ld. now apply E. Qed.
  Lemma edges_surface x : on_edges points EL x -> surf x.
  Proof.
    intros (i & L & H). destruct (edge_list L) as (a & b & E & _ & S). eapply edge_on_surface; [exact Hp|exact S|].
    unfold in_seg, edge_seg, edge_end in H. cbn [fst snd] in H. rewrite E in H. cbn [nth] in H.
    eapply segment_ext; [| |exact H]; intros d Ld; now apply point3_at.
  Qed.
  Lemma edge_setting_ok : cf_edges cf <> [] -> cf_corners cf <> [] -> good_edge_setting (edge_setting points q cf cs).
  Proof.
    intros Ne Nc. destruct Hq as (Q1 & Q2 & Q3 & Q4 & Q5). destruct (corners_ok Nc) as (_ & _ & K & _). pose proof dbl_max_pos.
    unfold good_edge_setting, edge_setting. cbv zeta. cbn [d_points d_edges d_cloud d_ecloud d_input d_cs d_tol d_thr d_rmax d_Lip d_ratio d_rme].
    split; [exact rows|]. split.
    { intros e I. destruct (In_nth _ _ [] I) as (i & Li & <-). destruct (edge_list Li) as (a & b & -> & L & _). split; [cbn; lia|].
      intros [|[|k]] Lk; cbn [nth]; lia. }
    split; [exact Ks|]. split; [now apply Ke|]. split; [exact K|]. split.
    { destruct (corners_near Nc) as [E|(S & A)]; [left; exact E|right]. split; [exact S|]. intros x Hx. apply A. now apply edges_surface. }
    split.
    { intros t Et. destruct (Q4 t Et) as (S & P & A). split; [exact S|]. split; [exact P|]. intros x Hx. apply A. now apply edges_surface. }
    split; [cbn; lra|]. split; [exact Q1|]. split; [exact Q2|]. split; [cbn; lra|]. split; [exact Q3|]. split; [cbn; lra|].
    intros x y Hx Hy. apply Q5; now apply edges_surface.
  Qed.
  Lemma no_corners_ub fuel inner : cf_edges cf <> [] -> c_fuel c = S fuel -> c_inner c = S inner -> cs = st_new 3 ->
    generate_edge_spheres (c_need c) (c_edges c) (edge_setting points q cf cs) (c_fuel c) (c_inner c) (c_emem c) = UB.
  Proof.
    intros Ne -> -> E. apply C72_no_corners_refuted.
    - exact rows.
    - intros e I. destruct (In_nth _ _ [] I) as (i & Li & <-). destruct (edge_list Li) as (a & b & Eab & L & _). cbn [edge_setting d_edges] in *. rewrite Eab. split; [cbn; lia|].
      intros [|[|k]] Lk; cbn [nth d_points edge_setting]; lia.
    - intros Z. cbn [edge_setting d_edges] in Z. apply map_eq_nil in Z. auto.
    - exact Ks.
    - now apply Ke.
    - exact E.
  Qed.

  Variable es : stree R.
  Hypothesis Ees : cf_edges cf <> [] -> generate_edge_spheres (c_need c) (c_edges c) (edge_setting points q cf cs) (c_fuel c) (c_inner c) (c_emem c) = Ok es.
  Lemma edges_ok : cf_edges cf <> [] -> cf_corners cf <> [] -> edge_result (edge_setting points q cf cs) es /\ positive_radii es
    /\ spheres es /\ (forall p, In p (st_pts es) -> length p = 4%nat) /\ ActivePoolSpec.usable surf es.
  Proof.
    intros Ne Nc. assert (G := edge_setting_ok Ne Nc). destruct Hch as (_ & C1 & _). pose proof (Ees Ne) as E. unfold generate_edge_spheres in E.
    destruct (@edge_loop_ok (c_need c) (c_edges c) _ G C1 (c_fuel c) (c_inner c) (EProg (st_new 3) 0 (c_emem c) 0) es) as (A & St & Hn); [split; [exact (stock_new (c_need c) (c_edges c) G C1)|reflexivity]|exact E|].
    assert (S : spheres es) by exact (stock_spheres (c_edges c) G St Hn).
    split; [exact A|]. split; [eapply stock_positive; eauto|]. split; [exact S|]. split; [intros p Ip; eapply stock_rows; eauto|].
    right. split; [exact S|]. intros x Hx. exists 0%nat. assert (L0 : (0 < count es)%nat) by (unfold count; destruct (st_pts es); [congruence|cbn; lia]).
    split; [exact L0|]. destruct A as (_ & A & _). destruct (A _ L0) as (e & _ & Le & H). destruct Hq as (_ & _ & _ & _ & Q5). apply Q5; [exact Hx|].
    apply edges_surface. exists e. split; [exact Le|exact H].
  Qed.

  Hypothesis Hcs : cf_corners cf = [] -> cs = st_new 3.
  Hypothesis Hes : cf_edges cf = [] -> es = st_new 3.
  Hypothesis Hboth : cf_edges cf <> [] -> cf_corners cf <> [].
  Lemma empty_set : sphere_set (q_Lip q) (st_new 3) /\ lipschitz (q_Lip q) (st_new 3).
  Proof.
    split; [|intros i j Hi; cbn in Hi; lia]. split; [reflexivity|]. split; [left; reflexivity|]. split; [intros i j Hi; cbn in Hi; lia|intros p []].
  Qed.
  Lemma surface_setting_ok normals : build_face_normals points faces = Ok normals ->
    1 / 2 <= q_Lip q \/ lipschitz (q_Lip q) es -> SurfaceLoopSpec.good_setting (surface_setting points faces q cf normals es cs).
  Proof.
    intros En HL. destruct (@all_normals_ok points faces (c_clouds c) Hp Hc (proj1 Hch) [] (fun a b I => match I with end)) as (ns & E & Ln & A). rewrite En in E. injection E as <-.
    destruct Hq as (Q1 & Q2 & Q3 & Q4 & Q5). pose proof dbl_max_pos.
    assert (D : (cf_corners cf = [] /\ cf_edges cf = []) \/ (cf_corners cf <> [] /\ cf_edges cf <> [])).
    { destruct (nil_or (cf_edges cf)) as [Ee|Ee]; [left|right; auto]. split; [|exact Ee].
      destruct (nil_or (cf_corners cf)) as [Ep|Ep]; [exact Ep|exfalso]. destruct (nonempty_in Ep) as (p & Ip). exact (@corner_has_edge p Ip Ee). }
    assert (Uc : ActivePoolSpec.usable mesh cs).
    { destruct D as [(D & _)|(D & _)]; [left; rewrite (Hcs D); reflexivity|]. destruct (corners_near D) as [Z|(S & B)]; [left; exact Z|right]. split; [exact S|].
      intros x Hx. apply B. now apply mesh_surface. }
    assert (Ue : ActivePoolSpec.usable mesh es).
    { destruct D as [(_ & D)|(D1 & D2)]; [left; rewrite (Hes D); reflexivity|]. destruct (edges_ok D2 D1) as (_ & _ & _ & _ & [Z|(S & B)]); [left; exact Z|right]. split; [exact S|].
      intros x Hx. apply B. now apply mesh_surface. }
    assert (Sc : sphere_set (q_Lip q) cs /\ lipschitz (q_Lip q) cs).
    { destruct D as [(D & _)|(D & _)]; [rewrite (Hcs D); exact empty_set|]. destruct (corners_ok D) as ((_ & _ & _ & _ & L) & _ & _ & S & L4). split; [|exact L].
      split; [apply S|]. split; [right; exact S|]. split; [|exact L4]. intros i j Hi Hj _. now apply L. }
    assert (Se : sphere_set (q_Lip q) es /\ lipschitz (q_Lip q) es).
    { destruct D as [(_ & D)|(D1 & D2)]; [rewrite (Hes D); exact empty_set|]. destruct (edges_ok D2 D1) as ((_ & _ & _ & _ & L & _) & P & S & L4 & _). split.
      - split; [apply S|]. split; [right; exact S|]. split; [exact L|exact L4].
      - destruct HL as [HL|HL]; [|exact HL]. now apply steep_lipschitz. }
    unfold SurfaceLoopSpec.good_setting, surface_setting. cbv zeta. cbn [s_points s_faces s_z s_es s_cs z_Lip z_thr z_rms z_rmax].
    split; [exact rows|]. split.
    { intros f I. apply in_map_iff in I as (g & <- & I). destruct Hp as (Ht & _). destruct (Ht g I) as (L & B). split; [cbn; lia|].
      intros [|k] Lk; [lia|]. cbn [nth]. apply B. apply nth_In. lia. }
    split.
    { unfold good_sizing. cbn [z_cloud z_edges z_input z_normals z_rmax]. split; [exact Ks|]. split.
      { destruct D as [(_ & D)|(_ & D)]; [left; rewrite (K0 D); reflexivity|right; now apply Ke]. }
      split.
      { destruct D as [(D & _)|(D & _)]; [left; rewrite (Hcs D); reflexivity|right; now apply (corners_ok D)]. }
      split.
      { intros t Et. destruct (Q4 t Et) as (S & _ & B). split; [exact S|]. intros x Hx. apply B. now apply mesh_surface. }
      split; [now rewrite map_length|]. split; [|exact (proj2 Q2)].
      intros n I. destruct (In_nth_error _ _ I) as (i & Ei).
      assert (Li : (i < length faces)%nat) by (rewrite <- Ln; exact (nth_error_Some_lt _ _ Ei)).
      destruct (A i (nth i faces [])) as (v & Ev & L3 & _); [now apply nth_error_nth'|]. rewrite Ei in Ev. injection Ev as <-. rewrite L3. lia. }
    split; [exact Ue|]. split; [exact Uc|]. split; [apply Se|]. split; [apply Sc|]. split; [apply Se|]. split; [apply Sc|].
    split; [exact Q3|]. split; [exact Q1|]. split; [cbn; lra|].
    intros x y Hx Hy. apply Q5; now apply mesh_surface.
  Qed.
End Stages.
