(** C87: from the surface seeds to the cells of the volume mesh. *)
From Coq Require Import Floats.
From Coq Require Import Reals Lra Relations.
From Verif Require Import Base Num Vec KdSpec SamplingSpec SmartTree SmartTreeSpec KdTree Geometry GeometrySpec GeometryAngle Graph Spheres Coloring ColoringSpec
  SeedSides SidesSpec SurfaceRegions PolyMesh Regions RegionsSpec RegionsProofs Interior InteriorSpec EdgeSeeds VolumeSeeds VolumeSpec Voro VoroSpec
  VoroMesh VoroMeshSpec SpheresSpec SeedPairsSpec WholeMesh WholeMeshSpec PropsKdTree PropsEdgeSeeds PropsSeedSides PropsSurfaceRegions PropsVolume.
From Verif Require PropsRegions PropsVoroMesh PropsSavedMesh PropsInterior InteriorTreeProofs.
Local Open Scope nat_scope.

Lemma read_ok (s : stree R) seeds : describes s seeds -> surface_seeds s = Ok seeds.
Proof.
  intros (Hl & H). unfold surface_seeds. change (st_n s) with (count s). rewrite <- Hl.
  rewrite (@mapr_ok _ _ (seed_of s) (fun i => nth i seeds (MkPSeed [] 0 (0, 0, 0)))).
  - f_equal. apply nth_ext with (d := MkPSeed [] 0 (0, 0, 0)) (d' := MkPSeed [] 0 (0, 0, 0)); [now rewrite map_length, seq_length|].
    intros i Hi. rewrite map_length, seq_length in Hi.
    rewrite (nth_indep _ _ ((fun i => nth i seeds (MkPSeed [] 0 (0, 0, 0))) 0)) by now rewrite map_length, seq_length.
    rewrite (map_nth (fun i => nth i seeds (MkPSeed [] 0 (0, 0, 0)))). now rewrite seq_nth by lia.
  - intros i Hi. apply in_seq in Hi. pose proof (nth_error_nth' seeds (MkPSeed [] 0 (0, 0, 0)) (n := i) ltac:(lia)) as E.
    destruct (H i _ E) as (Hp & m & a & b & c & rest & Hr & Ht). destruct (nth i seeds _) as [x p t] eqn:En. cbn [q_x q_pair q_tri] in *. subst t.
    unfold seed_of, get. rewrite Hp. cbn [bind]. unfold record in Hr. destruct (st_att s) as [att|]; [|discriminate].
    assert (Ea : nth_error att i = Some (Some (m :: p :: a :: b :: c :: rest))).
    { destruct (nth_error att i) as [o|] eqn:Eo; [|apply nth_error_None in Eo; rewrite nth_overflow in Hr by exact Eo; discriminate Hr].
      apply nth_error_nth with (d := None) in Eo. congruence. }
    rewrite Ea. reflexivity.
Qed.

(** The setting of a run: what the colouring (C78) and the seeding of the volume (C79) ask for. *)
Definition mesh_setting (s : stree R) (seeds : list (pseed R)) (cap cap_s : nat) (surf edge corner sizing : list (list R)) (L rmax : R)
  (imposed : option (list (list R))) (dir2 : nat -> list R) (dr : nat -> draws R) (u : nat -> R) : Prop :=
  describes s seeds /\ surface_setting s (surf ++ edge ++ corner) seeds cap cap_s (length surf) (length edge)
  /\ forall regs, length regs = length seeds -> volume_setting L rmax (st_pts s) regs surf edge corner sizing imposed dir2 dr u.

Section Run.
  Variables (fuel lfuel cfuel cap cap_s : nat) (s : stree R) (seeds : list (pseed R)) (surf edge corner sizing : list (list R)) (L rmax : R)
    (threads : nat) (imposed : option (list (list R))) (monitor : bool) (dir3 dir2 : nat -> list R) (dr : nat -> draws R) (u : nat -> R).
  Let run := mesh_surface fuel lfuel cfuel point_angle cap cap_s s surf edge corner sizing L rmax threads imposed monitor dir3 dir2 dr u.
  Let n := length seeds.
  Let side := beside (surf ++ edge ++ corner) seeds (length surf) (length edge).
  Let same := chain side.
  Hypothesis HS : mesh_setting s seeds cap cap_s surf edge corner sizing L rmax imposed dir2 dr u.

  Lemma stages w d : run = Ok w -> good_seeds d (v_points (w_seeds w)) (v_sizes (w_seeds w)) ->
    let v := w_seeds w in let N := length (v_points v) in
    exists regs k far outer rename kk,
      color_surface s (surf ++ edge ++ corner) seeds point_angle cap cap_s (length surf) (length edge) = Ok (Some k, regs, false)
      /\ length regs = n
      /\ pushed_corner s far /\ outer < n /\ (forall j, j < n -> (dist_to s far outer <= dist_to s far j)%R)
      /\ (forall i j, i < n -> j < n -> (nth i regs 0 = nth j regs 0 <-> same i j))
      /\ (forall i, i < n -> (nth i regs 0 = 0 <-> same outer i))
      /\ keeps (st_pts s) regs (v_points v) (v_regions v) /\ fresh surf regs n (v_points v) (v_regions v)
      /\ mesh_of (length (v_regions v)) (w_faces w)
      /\ w_regions w = map rename (v_regions v) /\ merge_regions n (v_regions v) (w_faces w) = Ok (map rename (v_regions v), kk)
      /\ (forall a, In a (v_regions v) -> linked n (v_regions v) (w_faces w) a (rename a))
      /\ (forall c, c < N -> nth_error (w_cells w) c = Some (if nth c (w_regions w) 0 =? 0 then [] else faces_around (w_faces w) c))
      /\ length (w_cells w) = N
      /\ w_num w = length (filter (fun r => negb (r =? 0)) (w_regions w))
      /\ (forall f, In f (w_faces w) -> exists fc i j, face_row fc i j f /\ polygon (length (w_vertices w)) fc /\ owner_pair (v_regions v) i j /\ i <> j
           /\ forall k, In k fc -> exists p, voronoi_vertex d (nth i (v_points v) []) (v_points v) p /\ welded p (nth k (w_vertices w) []))
      /\ (forall a b fc fc' i j, nth_error (w_faces w) a = Some (length fc :: fc ++ [i; j]) ->
            (nth_error (w_faces w) b = Some (length fc' :: fc' ++ [i; j]) \/ nth_error (w_faces w) b = Some (length fc' :: fc' ++ [j; i])) -> a = b).
  Proof.
    destruct HS as (Hd & Hs & Hv). intros E (Gd & Gs & Gp). cbv zeta.
    destruct (C78_regions Hs) as (regs & k & far & outer & Ec & Lr & Hf & Ho & Hm & H1 & _ & _ & H4 & _). cbv zeta in *.
    pose proof (Hv regs Lr) as V.
    unfold run, mesh_surface in E. rewrite (read_ok Hd) in E. cbn [bind] in E. rewrite Ec in E. cbn [bind] in E.
    apply bind_Ok_inv in E as (v & Ev & E). apply bind_Ok_inv in E as ((vertices & faces) & Em & E).
    apply bind_Ok_inv in E as ((((regions & kk) & cells) & m) & Ex & E). injection E as <-. cbn [w_seeds w_vertices w_faces w_regions w_cells w_num] in *.
    assert (Ln : st_n s = n) by (symmetry; apply Hd).
    assert (KF : keeps (st_pts s) regs (v_points v) (v_regions v) /\ fresh surf regs n (v_points v) (v_regions v) /\ length (v_sizes v) = length (v_points v)).
    { rewrite <- Ln. destruct imposed as [points|].
      - destruct (@C79_imposed fuel lfuel L rmax threads (st_pts s) regs surf edge corner sizing dir3 dir2 dr u points monitor v V Ev) as (A & B & C & _). auto.
      - destruct (@C79_seeds fuel lfuel L rmax threads (st_pts s) regs surf edge corner sizing dir3 dir2 dr u monitor v V Ev) as (A & B & C & _). auto. }
    destruct KF as (K & Fr & Lz). pose proof K as (Lk & Lle & Kk).
    assert (Lp : length (st_pts s) = n) by exact Ln.
    assert (Ne : v_points v <> []).
    { intros Z. rewrite Z in Lle. cbn in Lle. lia. }
    unfold voronoi_mesh in Em. apply bind_Ok_inv in Em as (cs & Ecs & Em).
    destruct (@PropsVoroMesh.C42_faces_partial d fuel cfuel (v_points v) (v_regions v) (v_sizes v) cs Gd Gs Ne Lk Lz Gp Ecs)
      as (vx & fs & Em' & _ & P3 & P4).
    unfold voronoi_mesh in Em'. rewrite Ecs in Em'. cbn [bind] in Em'. rewrite Em in Em'. injection Em' as <- <-.
    assert (Hmesh : mesh_of (length (v_regions v)) faces).
    { intros f If. destruct (P3 f If) as (fc & i & j & Er & _ & (O1 & O2 & _) & _). exists i, j. split; [exists fc; exact Er|auto]. }
    rewrite Ln in Ex. unfold explicit_mesh in Ex. apply bind_Ok_inv in Ex as ((r' & k') & Emr & Ex).
    apply bind_Ok_inv in Ex as ((rows & m') & Ecf & Ex). injection Ex as -> -> -> ->.
    destruct (@merge_regions_ok n (v_regions v) faces Hmesh) as (g & kg & Eg & _ & G & _). rewrite Eg in Emr. injection Emr as <- <-.
    assert (Hm2 : mesh_of (length (map g (v_regions v))) faces) by now rewrite map_length.
    destruct (@PropsRegions.C40_cells (map g (v_regions v)) faces Hm2) as (rows' & m2 & Ec2 & Lc2 & Em2 & Hr2). rewrite Ec2 in Ecf. injection Ecf as -> ->.
    rewrite map_length, Lk in Lc2. rewrite map_length, Lk in Hr2.
    exists regs, k, far, outer, g, kg. split; [exact Ec|]. split; [exact Lr|]. split; [exact Hf|]. split; [exact Ho|]. split; [exact Hm|].
    split; [exact H1|]. split; [exact H4|]. split; [exact K|]. split; [exact Fr|]. split; [exact Hmesh|]. split; [reflexivity|]. split; [exact Eg|]. split.
    { intros a Ia. apply G. now apply count_regions_lt. }
    split; [exact Hr2|]. split; [exact Lc2|]. split; [exact Em2|]. split; [exact P3|exact P4].
  Qed.

  (** The surface seeds are the first seeds of the mesh, at their places; all other seeds are outside the surface spheres.  Exactly the surface
      seeds on the outer side have no cell.  Surface seeds on one side are in one region, and an added seed is in the region of some surface
      seed that has a cell.  The row of a cell lists the faces around it.  Every face is a polygon of at least three different corners,
      each welded to a point with no seed nearer than the owner; it separates a cell from another cell or from a surface seed of the outer side, and
      two seeds have at most one face in common. *)
  Theorem C87_mesh w d : run = Ok w -> good_seeds d (v_points (w_seeds w)) (v_sizes (w_seeds w)) ->
    let v := w_seeds w in let N := length (v_points v) in let region i := nth i (w_regions w) 0 in
    exists far outer, pushed_corner s far /\ outer < n /\ (forall j, j < n -> (dist_to s far outer <= dist_to s far j)%R)
    /\ n <= N /\ (forall i x, i < n -> x < 3 -> nth x (nth i (v_points v) []) 0%R = nth x (nth i (st_pts s) []) 0%R)
    /\ (forall k, n <= k < N -> outside (1 / 10 ^ 10)%R (nth k (v_points v) []) surf)
    /\ length (w_regions w) = N
    /\ (forall i, i < N -> (region i = 0 <-> i < n /\ same outer i))
    /\ (forall i j, i < n -> j < n -> same i j -> region i = region j)
    /\ (forall k, n <= k < N -> exists i, i < n /\ ~ same outer i /\ region k = region i)
    /\ length (w_cells w) = N
    /\ (forall c, c < N -> nth_error (w_cells w) c = Some (if region c =? 0 then [] else faces_around (w_faces w) c))
    /\ w_num w = length (filter (fun c => negb (region c =? 0)) (seq 0 N))
    /\ (forall f, In f (w_faces w) -> exists fc i j, face_row fc i j f /\ polygon (length (w_vertices w)) fc /\ i <> j /\ i < N /\ j < N
         /\ region i <> 0 /\ (region j <> 0 \/ j < n /\ same outer j)
         /\ forall k, In k fc -> exists p, voronoi_vertex d (nth i (v_points v) []) (v_points v) p /\ welded p (nth k (w_vertices w) []))
    /\ (forall a b fc fc' i j, nth_error (w_faces w) a = Some (length fc :: fc ++ [i; j]) ->
          (nth_error (w_faces w) b = Some (length fc' :: fc' ++ [i; j]) \/ nth_error (w_faces w) b = Some (length fc' :: fc' ++ [j; i])) -> a = b).
  Proof.
    intros E G. destruct (stages E G) as (regs & k & far & outer & g & kg & Ec & Lr & Hf & Ho & Hm & H1 & H4 & (Lk & Lle & Kk) & Fr & Hmesh & Er & Eg & Hl & Hc & Lc & Hn & Hfc & Hp).
    cbv zeta in *. set (v := w_seeds w) in *. set (N := length (v_points v)) in *.
    assert (Ln : length (st_pts s) = n) by (symmetry; apply HS). rewrite Ln in *.
    assert (Z0 : forall a b, linked n (v_regions v) (w_faces w) a b -> (a = 0 <-> b = 0)).
    { intros a b LL. refine (@PropsSavedMesh.linked_zero n (v_regions v) (w_faces w) a b _ LL). intros i Hi Hi2. apply Fr. rewrite Lk in Hi2. auto. }
    assert (Rg : forall i, i < N -> nth i (w_regions w) 0 = g (nth i (v_regions v) 0)).
    { intros i Hi. rewrite Er. rewrite (nth_indep _ 0 (g 0)) by (rewrite map_length, Lk; exact Hi). apply map_nth. }
    assert (Rz : forall i, i < N -> (nth i (w_regions w) 0 = 0 <-> nth i (v_regions v) 0 = 0)).
    { intros i Hi. rewrite (Rg i Hi). symmetry. apply Z0, Hl. apply nth_In. rewrite Lk. exact Hi. }
    assert (Rn : forall i, i < n -> nth i (v_regions v) 0 = nth i regs 0) by (intros i Hi; apply Kk; exact Hi).
    assert (Zi : forall i, i < N -> (nth i (w_regions w) 0 = 0 <-> i < n /\ same outer i)).
    { intros i Hi. rewrite (Rz i Hi). destruct (Nat.lt_ge_cases i n) as [Li|Li].
      - rewrite (Rn i Li), (H4 i Li). tauto.
      - split; [|lia]. intros Z. exfalso. destruct (Fr i ltac:(lia)) as (A & _). auto. }
    exists far, outer. split; [exact Hf|]. split; [exact Ho|]. split; [exact Hm|]. split; [exact Lle|]. split; [intros i x Hi Hx; apply Kk; auto|].
    split; [intros i Hi; apply Fr; exact Hi|]. split; [rewrite Er, map_length; exact Lk|]. split; [exact Zi|]. split.
    { intros i j Hi Hj S. rewrite (Rg i), (Rg j) by lia. f_equal. rewrite (Rn i Hi), (Rn j Hj). now apply H1. }
    split.
    { intros i Hi. destruct (Fr i ltac:(lia)) as (A & B & _). apply In_nth with (d := 0) in B. destruct B as (j & Hj & Ej). rewrite Lr in Hj. exists j. split; [exact Hj|].
      split; [rewrite <- (H4 j Hj); congruence|]. rewrite (Rg i), (Rg j) by lia. f_equal. rewrite (Rn j Hj). congruence. }
    split; [exact Lc|]. split; [exact Hc|]. split.
    { rewrite Hn. assert (Lw : length (w_regions w) = N) by (rewrite Er, map_length; exact Lk). rewrite <- Lw. clear.
      induction (w_regions w) as [|a l IH] using rev_ind; [reflexivity|]. rewrite app_length. cbn [length]. rewrite Nat.add_1_r, seq_S, !filter_app, !app_length.
      f_equal; [rewrite IH; f_equal; apply filter_ext_in; intros x Ix; apply in_seq in Ix; rewrite app_nth1 by lia; reflexivity|].
      cbn [filter Nat.add]. rewrite nth_middle. destruct (a =? 0); reflexivity. }
    split; [|exact Hp]. intros f If. destruct (Hfc f If) as (fc & i & j & Q1 & Q2 & (O1 & O2 & O3 & O4) & Q4 & Q5). rewrite Lk in O1, O2.
    exists fc, i, j. split; [exact Q1|]. split; [exact Q2|]. split; [exact Q4|]. split; [exact O1|]. split; [exact O2|]. split; [rewrite (Rz i O1); exact O3|]. split; [|exact Q5].
    destruct (Nat.eq_dec (nth j (w_regions w) 0) 0) as [Z|Z]; [right; now apply Zi|now left].
  Qed.

  (** No region of the final mesh joins seeds with different labels, whatever labelling the mesher can see. *)
  Theorem C87_no_leak w d {A} (label : nat -> A) : run = Ok w -> good_seeds d (v_points (w_seeds w)) (v_sizes (w_seeds w)) ->
    visible n side (v_regions (w_seeds w)) (w_faces w) label ->
    forall i j, i < length (w_regions w) -> j < length (w_regions w) -> nth i (w_regions w) 0 = nth j (w_regions w) 0 -> label i = label j.
  Proof.
    intros E G (V1 & V2 & V3). destruct (stages E G) as (regs & k & far & outer & g & kg & Ec & Lr & Hf & Ho & Hm & H1 & H4 & (Lk & Lle & Kk) & Fr & Hmesh & Er & Eg & Hl & _).
    cbv zeta in *. set (v := w_seeds w) in *. set (N := length (v_points v)) in *.
    assert (Ln : length (st_pts s) = n) by (symmetry; apply HS). rewrite Ln in *.
    assert (Lw : length (w_regions w) = N) by (rewrite Er, map_length; exact Lk). rewrite Lw.
    assert (Rg : forall i, i < N -> nth i (w_regions w) 0 = g (nth i (v_regions v) 0)).
    { intros i Hi. rewrite Er. rewrite (nth_indep _ 0 (g 0)) by (rewrite map_length, Lk; exact Hi). apply map_nth. }
    assert (Rn : forall i, i < n -> nth i (v_regions v) 0 = nth i regs 0) by (intros i Hi; apply Kk; exact Hi).
    assert (Sm : forall i j, same i j -> label i = label j).
    { intros i j. induction 1 as [|i j x _ IH Hs]; auto. rewrite IH. destruct Hs as [Hs|Hs]; apply V1 in Hs; auto. }
    assert (Rep : forall i, i < N -> exists i', i' < n /\ nth i (v_regions v) 0 = nth i' regs 0 /\ label i = label i').
    { intros i Hi. destruct (Nat.lt_ge_cases i n) as [Li|Li]; [exists i; auto|]. destruct (Fr i ltac:(lia)) as (_ & B & _).
      apply In_nth with (d := 0) in B. destruct B as (j & Hj & Ej). rewrite Lr in Hj. exists j. split; [exact Hj|]. split; [auto|].
      apply V2; [lia|exact Hj|]. rewrite (Rn j Hj). auto. }
    assert (One : forall i j, i < N -> j < N -> nth i (v_regions v) 0 = nth j (v_regions v) 0 -> label i = label j).
    { intros i j Hi Hj Q. destruct (Rep i Hi) as (i' & Li & Ei & ->). destruct (Rep j Hj) as (j' & Lj & Ej & ->).
      apply Sm. apply H1; auto. congruence. }
    assert (Lk2 : forall a b, linked n (v_regions v) (w_faces w) a b ->
      a = b \/ ((exists i, i < N /\ nth i (v_regions v) 0 = a) /\ (exists j, j < N /\ nth j (v_regions v) 0 = b)
                /\ forall i j, i < N -> j < N -> nth i (v_regions v) 0 = a -> nth j (v_regions v) 0 = b -> label i = label j)).
    { intros a b. induction 1 as [a b (f & i & j & If & Hb & Hi & Hj & Ea & Eb)|a|a b _ IH|a b c _ IH1 _ IH2].
      - right. assert (Li : i < N) by (rewrite <- Lk; apply nth_error_Some; congruence). assert (Lj : j < N) by (rewrite <- Lk; apply nth_error_Some; congruence).
        apply nth_error_nth with (d := 0) in Ea, Eb. split; [eauto|]. split; [eauto|]. intros i' j' Li' Lj' Qi Qj.
        rewrite (One i' i Li' Li), (One j' j Lj' Lj) by congruence. apply V3; auto. exists f. auto.
      - now left.
      - destruct IH as [->|(P & Q & R)]; [now left|right]. split; [exact Q|]. split; [exact P|]. intros i j Hi Hj Qi Qj. symmetry. auto.
      - destruct IH1 as [->|(P1 & Q1 & R1)]; [exact IH2|]. destruct IH2 as [<-|(P2 & Q2 & R2)]; [right; auto|right]. split; [exact P1|]. split; [exact Q2|].
        intros i j Hi Hj Qi Qj. destruct P2 as (m & Lm & Em). rewrite (R1 i m Hi Lm Qi Em). auto. }
    intros i j Hi Hj Q. rewrite (Rg i Hi), (Rg j Hj) in Q.
    assert (LL : linked n (v_regions v) (w_faces w) (nth i (v_regions v) 0) (nth j (v_regions v) 0)).
    { apply rst_trans with (g (nth i (v_regions v) 0)); [apply Hl, nth_In; rewrite Lk; exact Hi|]. rewrite Q. apply rst_sym, Hl, nth_In. rewrite Lk. exact Hj. }
    destruct (Lk2 _ _ LL) as [Z|(_ & _ & R)]; [now apply One|]. apply R; auto.
  Qed.
End Run.

(** The lens of C78 (two surface spheres, four edge spheres, sixteen seeds), with the seeds in a tree that holds their attributes. *)
Definition lens_attributes (q : pseed R) : list nat := let '(a, b, c) := q_tri q in [6; q_pair q; a; b; c; 0].
Definition lens_call (q : pseed R) : op R := OpAdd (q_x q) (Some [0; 0; 1]%R) (Some (lens_attributes q)).
Definition lens_surf := firstn 2 lens.
Definition lens_edge := skipn 2 lens.

Lemma lens_near a b : In a (lens ++ map q_x lens_seeds) -> In b (lens ++ map q_x lens_seeds) -> (cdist a b <= 50)%R.
Proof.
  assert (H : forall x, In x (lens ++ map q_x lens_seeds) -> (-1 <= nth 0 x 0 <= 1 /\ -1 <= nth 1 x 0 <= 1 /\ -1 <= nth 2 x 0 <= 1)%R).
  { intros x Hx. cbn in Hx. repeat (destruct Hx as [<-|Hx]; [cbn; lra|]). destruct Hx. }
  intros Ha Hb. apply sq_bound. rewrite sq_dist. destruct (H a Ha) as (A0 & A1 & A2), (H b Hb) as (B0 & B1 & B2). nra.
Qed.

Example C87_hypotheses : exists s,
  run auto_balance (st_new 3) (map lens_call lens_seeds) = Ok s
  /\ mesh_setting s lens_seeds 6 16 lens_surf lens_edge [] [] (1/4) 1 None (fun _ => [3/5; 4/5]%R)
       (fun _ => DR (fun _ => 0%R) (fun _ _ => [1;0;0]%R) (fun _ _ => 0%R)) (fun _ => 0%R).
Proof.
  destruct (@C07_any_history auto_balance 3 [1/4; 0; 1/4; 1/4]%R (Some [0; 0; 1]%R) (Some [6; 1; 0; 2; 3; 0]) (map lens_call (tl lens_seeds)))
    as (s & items & Hrun & Hready & Hnd & Hh & _ & Hi).
  - lia.
  - split; [cbn; lia|]. split; [intros l E; injection E as <-; cbn; lia|]. intros l E. injection E as <-. split; [discriminate|cbn; lia].
  - apply Forall_forall. intros o Ho. apply in_map_iff in Ho. destruct Ho as (q & <- & Hq).
    cbn in Hq. repeat (destruct Hq as [<-|Hq]; [split; [cbn; lia|split; [intros l E; injection E as <-; cbn; lia|
      intros l E; injection E as <-; split; [discriminate|cbn; lia]]]|]). destruct Hq.
  - assert (Hn : ~ In OpReenumerate (map lens_call (tl lens_seeds))).
    { intros H. apply in_map_iff in H. destruct H as (q & H & _). discriminate H. }
    specialize (Hi Hn). subst items. destruct Hh as (Hp & _ & Ha). exists s. split; [exact Hrun|].
    assert (Hp' : st_pts s = map q_x lens_seeds) by (rewrite Hp; reflexivity).
    split; [|split].
    + split; [unfold count; rewrite Hp'; reflexivity|]. intros i q Hq. split; [rewrite Hp'; now apply map_nth_error|].
      unfold record. rewrite Ha. do 16 (destruct i as [|i]; [injection Hq as <-; repeat eexists|]). now destruct i.
    + now apply lens_setting_of.
    + intros regs Hr. rewrite Hp'. assert (NB : forall x, (x <= 100)%R -> (x < @dbl_max R _)%R) by (intros x; apply near_big').
      assert (Hc : forall P : list R -> Prop, (forall x, In x (lens ++ map q_x lens_seeds) -> P x) ->
        (forall x, In x lens_surf -> P x) /\ (forall x, In x lens_edge -> P x) /\ forall x, In x (map q_x lens_seeds) -> P x).
      { intros P H. split; [|split]; intros x Hx; apply H; apply in_or_app; [left|left|right; auto].
        - rewrite <- (firstn_skipn 2 lens). apply in_or_app. now left.
        - rewrite <- (firstn_skipn 2 lens). apply in_or_app. now right. }
      destruct (Hc (fun x => In x (lens ++ map q_x lens_seeds)) ltac:(auto)) as (Is & Ie & Iq).
      assert (Re : forall x, In x lens_edge -> InteriorSpec.rad x = (5/4)%R) by (intros x Hx; cbn in Hx; repeat (destruct Hx as [<-|Hx]; [reflexivity|]); destruct Hx).
      assert (Rs : forall x, In x lens_surf -> InteriorSpec.rad x = 1%R) by (intros x Hx; cbn in Hx; repeat (destruct Hx as [<-|Hx]; [reflexivity|]); destruct Hx).
      constructor.
      * constructor.
        -- lra.
        -- split; [discriminate|]. split; [|now rewrite map_length]. repeat constructor; unfold InteriorSpec.rad; cbn; lra.
        -- intros a b A B. rewrite (Rs a A), (Rs b B). pose proof (InteriorTreeProofs.cdist_nonneg a b). lra.
        -- repeat constructor; unfold InteriorSpec.rad; cbn; lra.
        -- constructor.
        -- intros so Hso. split; [|split].
           ++ intros x Hx. apply NB. pose proof (lens_near (Ie so Hso) (Ie x Hx)). lra.
           ++ intros x [].
           ++ intros y Hy. rewrite (Re so Hso) in Hy. split; intros x Hx; apply NB; pose proof (InteriorTreeProofs.cdist_triangle y so x).
              ** pose proof (lens_near (Ie so Hso) (Iq x Hx)). lra.
              ** pose proof (lens_near (Ie so Hso) (Is x Hx)). lra.
        -- intros k. cbn. lra.
      * lra.
      * lra.
      * split; [|intros a b []]. intros a b A B. rewrite (Re a A), (Re b B). pose proof (InteriorTreeProofs.cdist_nonneg a b). lra.
      * constructor.
      * intros k. cbn [d_front d_dir d_len]. split; [intros; lra|]. split; [|intros; lra]. intros _ _.
        exact (proj2 (proj2 (proj2 (proj2 PropsInterior.C69_hypotheses)))).
      * intros k. lra.
      * discriminate.
Qed.

Print Assumptions C87_mesh.
Print Assumptions C87_no_leak.
