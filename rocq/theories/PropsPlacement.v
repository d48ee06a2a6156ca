(** C84: from a clean input to the spheres on its corners, edges and faces. *)
From Coq Require Import Reals Lra.
From Verif Require Import Base Num Vec KdTree KdSpec SmartTree SmartTreeSpec SmartTreeProofs Geometry GeometrySpec GeometryProofs
  Spheres SpheresSpec SpheresProofs ActivePool ActivePoolSpec ActivePoolRunSpec ActivePoolThreadProofs SamplePool SamplePoolSpec SeedPairsSpec
  PolyMesh PolyMeshSpec PolyMeshProofs FeatureSpec FeatureProofs CleanClouds CornerSpheres CornerSpec EdgeLoop EdgeLoopSpec
  SurfaceLoop SurfaceLoopSpec PropsPolyMesh PropsCleanClouds PropsCorners PropsEdges PropsSurfaceLoop Placement PlacementSpec PlacementProofs.
Local Open Scope R_scope.

(** Whenever the stages end, each has the result that the stage promises, and the later stages have got usable arguments from the earlier ones. *)
Theorem C84_placement points faces (q : request R) (c : chance R) T cf cs es ss u l :
  proper_triangles (length points) faces -> clean points faces -> consistent faces -> faces <> [] ->
  good_request points faces q -> good_chance c T ->
  place_spheres points faces q c = Ok (cf, cs, es, (ss, u, l)) ->
  (* the sharp features *)
  (forall a b, In (a, b) (cf_edges cf) <-> (a < b)%nat /\ is_sharp_edge (q_thr q) points faces a b)
  /\ (forall p, In p (cf_corners cf) <-> (p < length points)%nat /\ is_sharp_corner (q_thr q) points faces p)
  (* without sharp edges no spheres on features; with sharp edges there are corners, corner spheres and edge spheres *)
  /\ (cf_edges cf = [] -> cf_corners cf = [] /\ cs = st_new 3 /\ es = st_new 3)
  /\ (cf_edges cf <> [] -> cf_corners cf <> [] /\ corner_result points faces q cf cs /\ edge_result (edge_stage points q cf cs) es)
  (* the surface *)
  /\ exists normals, build_face_normals points faces = Ok normals
       /\ (1 / 2 <= q_Lip q \/ lipschitz (q_Lip q) es ->
           moderate (all_spheres ss es cs) -> (forall it, SeedPairsSpec.usable (all_spheres ss es cs) (e_darts (c_env c) it)) ->
           surface_result (surface_stage points faces q cf normals es cs) ss u l).
Proof.
  intros Hp Hc Ho Hf Hq Hch E. destruct (@features_ok points faces q c T Hp Hc Ho Hf Hch) as (cf0 & E0 & De & Da & Dc & K0 & Ke & Ks).
  unfold place_spheres in E. rewrite E0 in E. cbn [bind] in E. apply bind_Ok_inv in E as (ns & En & E).
  apply bind_Ok_inv in E as (cs0 & Ecs & E). apply bind_Ok_inv in E as (es0 & Ees & E). apply bind_Ok_inv in E as (s0 & Ess & E).
  injection E as -> -> -> ->.
  assert (G1 : cf_corners cf <> [] -> generate_corner_spheres (c_need c) (c_fuel c) (corner_setting q cf) (q_Lip q) points (cf_corners cf) = Ok cs).
  { intros N. destruct (cf_corners cf); [congruence|exact Ecs]. }
  assert (G2 : cf_corners cf = [] -> cs = st_new 3) by (intros N; rewrite N in Ecs; congruence).
  assert (G3 : cf_edges cf <> [] -> generate_edge_spheres (c_need c) (c_edges c) (edge_setting points q cf cs) (c_fuel c) (c_inner c) (c_emem c) = Ok es).
  { intros N. destruct (cf_edges cf); [congruence|exact Ees]. }
  assert (G4 : cf_edges cf = [] -> es = st_new 3) by (intros N; rewrite N in Ees; congruence).
  assert (G5 : cf_edges cf = [] -> cf_corners cf = []).
  { intros N. destruct (nil_or (cf_corners cf)) as [Z|Z]; [exact Z|exfalso]. destruct (nonempty_in Z) as (p & Ip).
    exact (@corner_has_edge points faces q cf De Dc K0 p Ip N). }
  assert (G6 : cf_edges cf <> [] -> cf_corners cf <> []).
  { intros N Z. specialize (G3 N). destruct Hch as (_ & _ & _ & _ & _ & _ & Hfu). destruct (c_fuel c) as [|fuel] eqn:Efu; [lia|]. rewrite <- Efu in *.
    destruct (c_inner c) as [|inner] eqn:Ein.
    - rewrite Efu in G3. unfold generate_edge_spheres in G3. cbn [edge_loop] in G3. apply bind_Ok_inv in G3 as (p0 & _ & G3). discriminate.
    - rewrite <- Ein in *. rewrite (@no_corners_ub points faces q c Hp Hc cf De Dc Ke Ks cs fuel inner N Efu Ein (G2 Z)) in G3. discriminate. }
  split; [exact De|]. split; [exact Dc|]. split; [intros N; auto|]. split.
  - intros N. split; [auto|]. split.
    + now apply (@corners_ok points faces q c T Hp Hc Hq Hch cf De Da Dc Ke K0 Ks cs G1 (G6 N)).
    + rewrite <- edge_stage_eq. now apply (@edges_ok points faces q c T Hp Hc Hq Hch cf De Da Dc Ke K0 Ks cs G1 es G3 N (G6 N)).
  - exists ns. split; [exact En|]. intros HL Hm Hu.
    assert (W := @surface_setting_ok points faces q c T Hp Hc Hq Hch cf De Da Dc Ke K0 Ks cs G1 es G3 G2 G4 G6 ns En HL).
    rewrite <- surface_stage_eq. eapply C65_surface; [exact W| | |exact Ess|exact Hm|exact Hu]; apply Hch.
Qed.

(** In terms of the input alone: every point of a sharp edge is in a corner sphere or well inside an edge sphere, and every point of the surface is in a
    sphere (up to the tolerance 1e-8 of the tests). *)
Theorem C84_covered points faces (q : request R) (c : chance R) T cf cs es ss u l :
  proper_triangles (length points) faces -> clean points faces -> consistent faces -> faces <> [] ->
  good_request points faces q -> good_chance c T ->
  place_spheres points faces q c = Ok (cf, cs, es, (ss, u, l)) ->
  (forall x, on_sharp_edge (q_thr q) points faces x -> in_sphere_of cs 1 x \/ in_sphere_of es (sqrt (1 - 1 / 2 * (1 / 2))) x)
  /\ (1 / 2 <= q_Lip q \/ lipschitz (q_Lip q) es ->
      moderate (all_spheres ss es cs) -> (forall it, SeedPairsSpec.usable (all_spheres ss es cs) (e_darts (c_env c) it)) ->
      (forall x, on_surface points faces x -> in_sphere_of ss (sqrt (1 - 4 / 10 * (4 / 10))) x \/ in_sphere_of es 1 x \/ in_sphere_of cs 1 x)
      /\ (forall i, (i < count ss)%nat -> on_surface points faces (center ss i) /\ radius ss i <= q_rmax q)).
Proof.
  intros Hp Hc Ho Hf Hq Hch E.
  destruct (@C84_placement points faces q c T cf cs es ss u l Hp Hc Ho Hf Hq Hch E) as (De & Dc & D0 & D1 & ns & En & D2). split.
  - intros x (a & b & S & Nab & Hx).
    assert (W : exists a b, In (a, b) (cf_edges cf) /\ on_segment (at_point points a) (at_point points b) x).
    { destruct (Nat.lt_ge_cases a b) as [L|L].
      - exists a, b. split; [apply De; auto|exact Hx].
      - exists b, a. split; [apply De; split; [lia|now apply sharp_sym]|]. destruct Hx as (t & Ht & Hx). exists (1 - t). split; [lra|].
        intros d Ld. rewrite (Hx d Ld). ring. }
    destruct W as (a' & b' & I & Hx'). destruct (D1 ltac:(intros Z; rewrite Z in I; exact I)) as (_ & _ & A & _).
    apply (A x). destruct (In_nth _ _ (0, 0)%nat I) as (i & Li & Ei). exists i. cbn [edge_stage d_points d_edges]. split; [now rewrite map_length|].
    unfold in_seg, edge_seg, edge_end. cbn [fst snd].
    rewrite (nth_indep _ [] ((fun e : nat * nat => [fst e; snd e]) (0, 0)%nat)) by (rewrite map_length; exact Li). rewrite (map_nth (fun e : nat * nat => [fst e; snd e])), Ei. cbn [fst snd nth].
    eapply segment_ext; [| |exact Hx']; intros d Ld; symmetry; now apply point3_at.
  - intros HL Hm Hu. destruct (D2 HL Hm Hu) as (A & B & C & _). split.
    + intros x Hx. apply (A x). apply mesh_surface. exact Hx.
    + intros i Li. split; [|now apply C]. destruct (B i Li) as (f & _ & Lf & H). apply mesh_surface. exists f. split; [exact Lf|exact H].
Qed.

(** An input with sharp edges that bound no sharp corner, such as a disc with a rim, is not meshed: the search among the corner spheres reads outside its arrays. *)
Theorem C84_no_corners_refuted points faces (q : request R) (c : chance R) T a b :
  proper_triangles (length points) faces -> clean points faces -> consistent faces -> faces <> [] -> good_chance c T ->
  (a < b)%nat -> is_sharp_edge (q_thr q) points faces a b -> (forall p, (p < length points)%nat -> ~ is_sharp_corner (q_thr q) points faces p) ->
  (0 < c_inner c)%nat -> place_spheres points faces q c = UB.
Proof.
  intros Hp Hc Ho Hf Hch Lab S Nc Hin. destruct (@features_ok points faces q c T Hp Hc Ho Hf Hch) as (cf & E0 & De & Da & Dc & K0 & Ke & Ks).
  destruct (@all_normals_ok points faces (c_clouds c) Hp Hc (proj1 Hch) [] (fun a b I => match I with end)) as (ns & En & _).
  unfold place_spheres. rewrite E0. cbn [bind]. rewrite En. cbn [bind].
  assert (Z : cf_corners cf = []).
  { destruct (nil_or (cf_corners cf)) as [Z|Z]; [exact Z|exfalso]. destruct (nonempty_in Z) as (p & Ip). apply Dc in Ip as (Lp & H). exact (Nc p Lp H). }
  assert (N : cf_edges cf <> []). { intros N. assert (I : In (a, b) (cf_edges cf)) by (apply De; auto). rewrite N in I. exact I. }
  rewrite Z. cbn [bind].
  destruct Hch as (_ & _ & _ & _ & _ & _ & Hfu). destruct (c_fuel c) as [|fuel] eqn:Efu; [lia|]. rewrite <- Efu in *. destruct (c_inner c) as [|inner] eqn:Ein; [lia|]. rewrite <- Ein in *.
  assert (U := @no_corners_ub points faces q c Hp Hc cf De Dc Ke Ks (st_new 3) fuel inner N Efu Ein eq_refl).
  destruct (cf_edges cf); [congruence|]. rewrite U. reflexivity.
Qed.

(** A case: the corner of a cube, all of whose edges are sharp. *)
Definition case_request (thr : R) : request R := Request thr 1 (1 / 2) None.
Definition case_chance : chance R := Chance auto_balance (fun _ => 0) (fun _ => 0) 5 5 SurfaceLoopCase.case_environment 0 [0] 2 1000.
Lemma case_chance_ok : good_chance case_chance 1.
Proof.
  split; [cbn; intros; lra|]. split; [cbn; intros; lra|]. split; [apply SurfaceLoopCase.case_environment_ok|]. split; [reflexivity|]. cbn. lia.
Qed.
(** Points in a box are not far from each other. *)
Lemma box_near (B : R) (points : list (list R)) faces : 1 <= B <= 100 -> (forall p d, (d < 3)%nat -> - B <= at_point points p d <= B) ->
  forall x y, on_surface points faces x -> on_surface points faces y -> vdist 3 x y < @dbl_max R RNum.
Proof.
  intros HB H.
  assert (I : forall x d, on_surface points faces x -> (d < 3)%nat -> - B <= x d <= B).
  { intros x d (f & _ & m & (Sm & Bm) & Pm) Ld. rewrite (Bm d Ld). unfold corner_points.
    pose proof (Pm 0%nat ltac:(lia)). pose proof (Pm 1%nat ltac:(lia)). pose proof (Pm 2%nat ltac:(lia)).
    pose proof (H (nth 0 f 0%nat) d Ld). pose proof (H (nth 1 f 0%nat) d Ld). pose proof (H (nth 2 f 0%nat) d Ld). nra. }
  intros x y Hx Hy. pose proof SurfaceLoopCase.dbl_1000. apply Rlt_trans with 1000; [|lra].
  unfold vdist, norm. rewrite dot3. unfold sub. rewrite <- (sqrt_Rsqr 1000) by lra. apply sqrt_lt_1_alt. unfold Rsqr.
  assert (Q : forall d, (d < 3)%nat -> 0 <= (x d - y d) * (x d - y d) <= 40000).
  { intros d Ld. pose proof (I x d Hx Ld). pose proof (I y d Hy Ld). split; [apply Rle_0_sqr|].
    assert (- 200 <= x d - y d <= 200) by lra. nra. }
  pose proof (Q 0%nat ltac:(lia)). pose proof (Q 1%nat ltac:(lia)). pose proof (Q 2%nat ltac:(lia)). lra.
Qed.
Lemma case_request_ok thr B points faces : thr < 1 -> 1 <= B <= 100 -> (forall p d, (d < 3)%nat -> - B <= at_point points p d <= B) ->
  good_request points faces (case_request thr).
Proof.
  intros Ht HB H. pose proof SurfaceLoopCase.dbl_1000. unfold good_request, case_request. cbn [q_thr q_rmax q_Lip q_input].
  split; [exact Ht|]. split; [lra|]. split; [lra|]. split; [discriminate|]. now apply (box_near HB).
Qed.
Example C84_hypotheses : proper_triangles (length corner4) tetra /\ clean corner4 tetra /\ consistent tetra /\ tetra <> []
  /\ good_request corner4 tetra (case_request (1 / 2)) /\ good_chance case_chance 1 /\ is_sharp_edge (1 / 2) corner4 tetra 0 1.
Proof.
  destruct C52_example as (E1 & E2 & E3 & E4 & _). split; [exact E1|]. split; [exact E2|]. split; [exact E3|]. split; [discriminate|].
  split; [|split; [exact case_chance_ok|exact E4]]. apply (@case_request_ok _ 1); [lra|lra|].
  intros p d Ld. unfold at_point, corner4. destruct p as [|[|[|[|p]]]]; destruct d as [|[|[|d]]]; try lia; cbn; try (destruct p); cbn; lra.
Qed.

(** Two flat pyramids on a square: with a threshold of 90 degrees the four sides of the square are sharp, and no point is a sharp corner. *)
Definition lens : list (list R) := [[2; 0; 0]; [0; 2; 0]; [-2; 0; 0]; [0; -2; 0]; [0; 0; 1]; [0; 0; -1]].
Definition lens_faces : list (list nat) := [[0; 1; 4]; [1; 2; 4]; [2; 3; 4]; [3; 0; 4]; [1; 0; 5]; [2; 1; 5]; [3; 2; 5]; [0; 3; 5]]%nat.
Lemma lens_proper : proper_triangles (length lens) lens_faces.
Proof. apply properb_ok. reflexivity. Qed.
Lemma sqrt_lo t : 1 <= t -> 1 <= sqrt t.
Proof. intros H. rewrite <- sqrt_1. now apply sqrt_le_1_alt. Qed.
Lemma sqrt_hi t : t <= 16 -> sqrt t <= 4.
Proof. intros H. replace 4 with (sqrt 16); [now apply sqrt_le_1_alt|]. replace 16 with (4 * 4) by ring. apply sqrt_square. lra. Qed.
Lemma lens_clean : clean lens lens_faces.
Proof.
  split; [|split].
  - intros p H. repeat (destruct H as [<-|H]; [reflexivity|]). destruct H.
  - intros f H. unfold sliver, norm. rewrite !dot3. unfold vprod, sub, corner_points, at_point, lens.
    repeat (destruct H as [<-|H]; [cbn [nth]|]); [..|destruct H];
      match goal with |- ~ (sqrt ?x < _ \/ sqrt ?y < _ \/ sqrt ?z < _)%R =>
        pose proof (@sqrt_lo x ltac:(lra)); pose proof (@sqrt_lo y ltac:(lra)); pose proof (@sqrt_lo z ltac:(lra));
        pose proof (@sqrt_hi x ltac:(lra)); pose proof (@sqrt_hi y ltac:(lra)); pose proof (Rmult_le_compat (sqrt x) 4 (sqrt y) 4) end;
      intros [H'|[H'|H']]; lra.
  - intros p q Hp Hq Hpq. change (length lens) with 6%nat in Hp, Hq. unfold vdist, norm. rewrite dot3. unfold at_point, lens.
    destruct p as [|[|[|[|[|[|]]]]]]; try lia; destruct q as [|[|[|[|[|[|]]]]]]; try lia; cbn [nth];
      match goal with |- (_ <= sqrt ?x)%R => pose proof (@sqrt_lo x ltac:(lra)) end; lra.
Qed.
Definition lens_normal (f : list nat) : nat -> R :=
  let c := corner_points lens f in vprod (sub (c 1%nat) (c 0%nat)) (sub (c 2%nat) (c 0%nat)).
Lemma lens_dot f g : let n := norm 3 (lens_normal f) in let m := norm 3 (lens_normal g) in
  1 <= dot 3 (lens_normal f) (lens_normal f) -> 1 <= dot 3 (lens_normal g) (lens_normal g) ->
  (dot 3 (unit_normal lens f) (unit_normal lens g) < 0 <-> dot 3 (lens_normal f) (lens_normal g) < 0).
Proof.
  intros n m H1 H2. assert (P1 : 0 < n) by (pose proof (sqrt_lo H1); unfold n, norm; lra). assert (P2 : 0 < m) by (pose proof (sqrt_lo H2); unfold m, norm; lra).
  assert (E : dot 3 (unit_normal lens f) (unit_normal lens g) = dot 3 (lens_normal f) (lens_normal g) * / (n * m)).
  { unfold unit_normal. fold (lens_normal f) (lens_normal g). fold n m. rewrite !dot3. field. lra. }
  assert (Q : 0 < / (n * m)) by (apply Rinv_0_lt_compat; nra). rewrite E. split; intros H; nra.
Qed.
Definition side (p q : nat) : bool := Nat.ltb p 4 && Nat.ltb q 4 && (Nat.eqb q ((p + 1) mod 4) || Nat.eqb p ((q + 1) mod 4)).
Lemma lens_sharp p q : (p < 6)%nat -> (q < 6)%nat -> p <> q -> is_sharp_edge 0 lens lens_faces p q <-> side p q = true.
Proof.
  intros Hp Hq Hpq. unfold is_sharp_edge.
  destruct p as [|[|[|[|[|[|]]]]]]; try lia; destruct q as [|[|[|[|[|[|]]]]]]; try lia;
    match goal with |- context [faces_with ?l ?a ?b] => let w := eval vm_compute in (faces_with l a b) in change (faces_with l a b) with w end;
    match goal with |- _ <-> ?b = true => let w := eval vm_compute in b in change b with w end;
    (split; [intros (H0 & H); try congruence; try (exfalso; specialize (H _ _ eq_refl); cbn [nth lens_faces] in H; apply lens_dot in H)
            |first [discriminate|intros _; split; [discriminate|intros i j [= <- <-]; cbn [nth lens_faces]; apply lens_dot]]]);
    try reflexivity; rewrite dot3 in *; unfold lens_normal, vprod, sub, corner_points, at_point, lens in *; cbn [nth] in *; lra.
Qed.
Lemma sharp_below p q : is_sharp_edge 0 lens lens_faces p q -> (p < 6)%nat /\ (q < 6)%nat.
Proof. intros H. exact (@sharp_range 0 lens lens_faces lens_proper p q H). Qed.
Example lens_no_corners p : (p < length lens)%nat -> ~ is_sharp_corner 0 lens lens_faces p.
Proof.
  intros Hp (Q & Nd & HQ & Ne & H). change (length lens) with 6%nat in Hp.
  assert (A : forall q, In q Q <-> (q < 6)%nat /\ q <> p /\ side p q = true).
  { intros q. rewrite HQ. split.
    - intros (N & S). destruct (sharp_below S) as (_ & L). split; [exact L|]. split; [exact N|]. apply lens_sharp; auto.
    - intros (L & N & S). split; [exact N|]. apply lens_sharp; auto. }
  assert (Two : forall a b, a <> b -> (forall q, (q < 6)%nat /\ q <> p /\ side p q = true <-> q = a \/ q = b) -> Q = [a; b] \/ Q = [b; a]).
  { intros a b Nab B. assert (P : Permutation [a; b] Q).
    { apply NoDup_Permutation; [|exact Nd|].
      - constructor; [intros [E|[]]; congruence|]. constructor; [intros []|constructor].
      - intros q. rewrite A, B. cbn. intuition congruence. }
    apply Permutation_length_2_inv in P as [E|E]; auto. }
  assert (Go : forall a b, a <> b -> (forall q, (q < 6)%nat /\ q <> p /\ side p q = true <-> q = a \/ q = b) ->
    dot 3 (sub (at_point lens a) (at_point lens p)) (sub (at_point lens b) (at_point lens p)) = 0 -> False).
  { intros a b Nab B D. destruct (Two a b Nab B) as [E|E]; specialize (H _ _ E); unfold cosine in H; [|rewrite dot_comm in H]; rewrite D in H; unfold Rdiv in H; rewrite Rmult_0_l in H; lra. }
  destruct p as [|[|[|[|[|[|]]]]]]; try lia.
  - apply (Go 1%nat 3%nat); [lia| |rewrite dot3; unfold sub, at_point, lens; cbn [nth]; lra]. intros q. destruct q as [|[|[|[|[|[|]]]]]]; cbn; intuition (try discriminate; try lia).
  - apply (Go 0%nat 2%nat); [lia| |rewrite dot3; unfold sub, at_point, lens; cbn [nth]; lra]. intros q. destruct q as [|[|[|[|[|[|]]]]]]; cbn; intuition (try discriminate; try lia).
  - apply (Go 1%nat 3%nat); [lia| |rewrite dot3; unfold sub, at_point, lens; cbn [nth]; lra]. intros q. destruct q as [|[|[|[|[|[|]]]]]]; cbn; intuition (try discriminate; try lia).
  - apply (Go 0%nat 2%nat); [lia| |rewrite dot3; unfold sub, at_point, lens; cbn [nth]; lra]. intros q. destruct q as [|[|[|[|[|[|]]]]]]; cbn; intuition (try discriminate; try lia).
  - destruct (nonempty_in Ne) as (q & I). apply A in I as (_ & _ & S). discriminate.
  - destruct (nonempty_in Ne) as (q & I). apply A in I as (_ & _ & S). discriminate.
Qed.
Example C84_lens : place_spheres lens lens_faces (case_request 0) case_chance = UB.
Proof.
  apply (@C84_no_corners_refuted lens lens_faces (case_request 0) case_chance 1 0 1 lens_proper lens_clean).
  - apply consistentb_ok; [|reflexivity]. intros f Hf. apply (proj1 lens_proper f Hf).
  - discriminate.
  - exact case_chance_ok.
  - lia.
  - apply lens_sharp; [lia|lia|lia|reflexivity].
  - exact lens_no_corners.
  - cbn. lia.
Qed.

(** Runs in double precision: an octahedron without sharp features gets one sphere (C65_run has six). *)
Definition octa_triangles : list (list nat) := map (@tl nat) octa_faces.
Definition run_chance : chance float :=
  Chance auto_balance (fun k => (nofZ (Z.of_nat (k * 37 mod 101)) / nofZ 101)%num) (fun _ => n0) 4 4 octa_environment n0 [n0] 3 1200.
Example C84_run :
  (match place_spheres octa_points octa_triangles (Request (low (-1)) (low 10) (nlit 5 1) None) run_chance with
   | Ok (cf, cs, es, (ss, u, l)) => Some (cf_edges cf, [st_n (cf_surface cf); st_n cs; st_n es; st_n ss; st_n u; st_n l])
   | _ => None
   end) = Some ([], [4; 0; 0; 1; 0; 0]%nat).
Proof. vm_cast_no_check (eq_refl (Some (@nil (nat * nat), [4; 0; 0; 1; 0; 0]%nat))). Qed.

Print Assumptions C84_placement.
Print Assumptions C84_covered.
Print Assumptions C84_no_corners_refuted.
