(** C76: the point clouds of a clean input. *)
From Coq Require Import Reals Lra.
From Verif Require Import Base Num Vec KdSpec KdTree SamplingSpec Sampling SamplingProofs Geometry GeometrySpec GeometryProofs GeometryTriProofs SmartTree SmartTreeSpec SmartTreeProofs PolyMesh PolyMeshSpec Regions
  Spheres SpheresProofs PointCloud PointCloudSpec PointCloudProofs FeatureSpec FeatureProofs PropsPolyMesh PropsKdTree PropsPointCloud CleanClouds.
Local Open Scope R_scope.

(** ** Specification. *)
(** The length of edge (a, b), the point at the fraction [s] of it, and its direction. *)
Definition edge_length (pts : list (list R)) (e : nat * nat) : R := vdist 3 (at_point pts (fst e)) (at_point pts (snd e)).
Definition along (pts : list (list R)) (e : nat * nat) (s : R) (x : list R) : Prop :=
  forall d, (d < 3)%nat -> nth d x 0 = at_point pts (fst e) d + s * (at_point pts (snd e) d - at_point pts (fst e) d).
Definition directed (pts : list (list R)) (e : nat * nat) (v : list R) : Prop :=
  length v = 3%nat /\ unit 3 (fun d => nth d v 0) /\
  forall d, (d < 3)%nat -> nth d v 0 = (at_point pts (snd e) d - at_point pts (fst e) d) / edge_length pts e.
(** The tree holds the points, in order, with their vectors and numbers. *)
Definition kept (t : stree R) (C : list (@cpoint R)) : Prop :=
  ready t /\ st_nd t = 3%nat /\ holds t (map (fun e => It (cp_x e) (cp_normal e) (Some [2%nat; cp_face e])) C).
(** Point number [t] of the cloud of the edges, and of the faces (as [3; corners]): element and place follow the random numbers. *)
Definition edge_throw (pts : list (list R)) (edges : list (nat * nat)) (u : nat -> R) (k : nat) (e : @cpoint R) : Prop :=
  exists ed, nth_error edges (cp_face e) = Some ed /\ chosen (map (edge_length pts) edges) (u k) (cp_face e)
    /\ length (cp_x e) = 4%nat /\ nth 3 (cp_x e) 0 = 1 /\ along pts ed (u (k + 1)%nat) (cp_x e) /\ directed pts ed (cp_normal e).
Definition face_throw (pts : list (list R)) (faces : list (list nat)) (u : nat -> R) (k : nat) (e : @cpoint R) : Prop :=
  exists f, nth_error faces (cp_face e) = Some f /\ chosen (map (fun f => face_area pts (3%nat :: f)) faces) (u k) (cp_face e)
    /\ length (cp_x e) = 4%nat /\ nth 3 (cp_x e) 0 = 1 /\ on_face pts (3%nat :: f) (firstn 3 (cp_x e)) /\ normal_to pts (3%nat :: f) (cp_normal e).

(** ** Proofs. *)
Lemma grown_ok need (C : list (@cpoint R)) : C <> [] -> Forall (fun e => (3 <= length (cp_x e))%nat /\ length (cp_normal e) = 3%nat) C ->
  exists t, grown need C = Ok t /\ kept t C.
Proof.
  intros Ne W. destruct C as [|e C]; [congruence|]. clear Ne. unfold grown. cbn [map].
  set (ops := map (fun e => OpAdd (cp_x e) (Some (cp_normal e)) (Some [2%nat; cp_face e])) C).
  assert (G : forall e' : @cpoint R, (3 <= length (cp_x e'))%nat /\ length (cp_normal e') = 3%nat -> good_args 3 (cp_x e') (Some (cp_normal e')) (Some [2%nat; cp_face e'])).
  { intros e' (L1 & L2). split; [lia|]. split; intros l [= <-]; [lia|]. split; [discriminate|cbn; lia]. }
  destruct (@C07_any_history need 3 (cp_x e) (Some (cp_normal e)) (Some [2%nat; cp_face e]) ops) as (t & items & E & Rd & Nd & Ho & _ & Ex).
  - lia.
  - apply G. now inversion W.
  - apply Forall_map. eapply Forall_impl; [|exact (Forall_inv_tail W)]. intros a Wa. apply G. exact Wa.
  - exists t. split; [exact E|]. split; [exact Rd|]. split; [exact Nd|]. rewrite Ex in Ho.
    + assert (A : forall l : list (@cpoint R), Forall (fun e => (3 <= length (cp_x e))%nat /\ length (cp_normal e) = 3%nat) l ->
        added 3 (map (fun e => OpAdd (cp_x e) (Some (cp_normal e)) (Some [2%nat; cp_face e])) l) = map (fun e => It (cp_x e) (cp_normal e) (Some [2%nat; cp_face e])) l).
      { induction l as [|a l IH]; intros Wl; [reflexivity|]. cbn [map added]. f_equal; [|apply IH; now inversion Wl].
        destruct (Forall_inv Wl) as (_ & La). unfold item_of. rewrite (firstn_all2 (cp_normal a)) by lia. reflexivity. }
      cbn [added] in Ho. rewrite <- (A (e :: C) W). exact Ho.
    + intros H. apply in_map_iff in H as (a & Ha & _). discriminate.
Qed.

Section Clean.
  Variables (pts : list (list R)) (faces : list (list nat)) (u : nat -> R).
  Hypothesis Hp : proper_triangles (length pts) faces.
  Hypothesis Hc : clean pts faces.
  Hypothesis Hu : forall k, 0 <= u k < 1.
  Notation F3 := (fun f : list nat => 3%nat :: f).

  Let rows : Forall (fun p => length p = 3%nat) pts. Proof. apply Forall_forall. apply Hc. Qed.
  Lemma clean_valid f : In f faces -> valid_face pts (F3 f).
  Proof.
    intros I. destruct Hp as (Ht & _). destruct (Ht f I) as (L & B). split; [cbn; lia|].
    intros i Li. destruct i as [|i]; [lia|]. cbn [nth]. apply B. apply nth_In. lia.
  Qed.
  Lemma clean_tri f : tri pts (F3 f) = corner_points pts f.
  Proof. reflexivity. Qed.
  Lemma clean_good f : In f faces -> ~ degenerate pts (F3 f).
  Proof. intros I. unfold degenerate. rewrite clean_tri. now apply Hc. Qed.

  (** *** Edges. *)
  Variable edges : list (nat * nat).
  Hypothesis He : forall a b, In (a, b) edges -> (a < b)%nat /\ (b < length pts)%nat.
  Lemma ends_ok i e : nth_error edges i = Some e -> ends_of pts edges i = Ok (nth (fst e) pts [], nth (snd e) pts []).
  Proof.
    intros E. destruct e as [a b]. destruct (He a b) as (L1 & L2); [eapply nth_error_In; eauto|]. unfold ends_of. rewrite (get_some E). cbn [bind fst snd].
    rewrite !(@get_in _ pts _ []) by lia. reflexivity.
  Qed.
  Lemma length_tol e : In e edges -> 1 / 10 ^ 10 <= edge_length pts e.
  Proof.
    intros I. destruct e as [a b]. destruct (He a b I) as (L1 & L2). destruct Hc as (_ & _ & A). unfold edge_length. cbn [fst snd].
    apply A; lia.
  Qed.
  Lemma length_pos e : In e edges -> 0 < edge_length pts e.
  Proof.
    intros I. pose proof (length_tol _ I). pose proof tol_pos. lra.
  Qed.
  Lemma lengths_ok : mapr (fun i => '(x, y) <- ends_of pts edges i ;; Ok (distance 3 (gv x) (gv y))) (seq 0 (length edges)) = Ok (map (edge_length pts) edges).
  Proof.
    rewrite (@mapr_map _ _ _ (fun i => edge_length pts (nth i edges (0, 0)%nat))).
    - f_equal. apply list_ext. intros k. destruct (lt_dec k (length edges)) as [L|L].
      + rewrite (@map_nth_error _ _ _ k _ k) by (rewrite (nth_error_nth' (seq 0 (length edges)) 0%nat (n := k)) by (rewrite seq_length; exact L); now rewrite seq_nth).
        symmetry. rewrite (@map_nth_error _ _ _ k _ (nth k edges (0, 0)%nat)) by now apply nth_error_nth'. reflexivity.
      + rewrite !(proj2 (nth_error_None _ _)) by (rewrite ?map_length, ?seq_length; lia). reflexivity.
    - intros j I. apply in_seq in I. rewrite (@ends_ok j (nth j edges (0, 0)%nat)) by (apply nth_error_nth'; lia). cbn [bind]. now rewrite distance_R.
  Qed.
  Lemma edge_throws_ok c : edges <> [] -> make_cdf (map (edge_length pts) edges) = Ok c ->
    forall m k, exists l, edge_throws pts u m edges c k = Ok l /\ length l = m /\
      forall t e, nth_error l t = Some e -> edge_throw pts edges u (k + 2 * t) e.
  Proof.
    intros Ne C. induction m as [|m IH]; intros k.
    - exists []. split; [reflexivity|]. split; [reflexivity|]. intros [|] e E; discriminate.
    - cbn [edge_throws].
      destruct (@pool_pick_ok (map (edge_length pts) edges) (u k)) as (c' & i & C' & Pi & Li & Ch & _).
      { intros E. apply map_eq_nil in E. congruence. }
      { apply Forall_map. apply Forall_forall. intros e I. pose proof (length_pos _ I). lra. }
      { apply rsum_pos; [apply Forall_map, Forall_forall; intros e I; pose proof (length_pos _ I); lra|].
        destruct (nth_error edges 0) as [e|] eqn:E0; [|apply nth_error_None in E0; destruct edges; [congruence|cbn in E0; lia]].
        apply nth_error_In in E0. exists (edge_length pts e). split; [now apply in_map|now apply length_pos]. }
      { apply Hu. }
      rewrite C in C'. injection C' as <-. rewrite Pi. cbn [bind]. rewrite map_length in Li.
      assert (Ei : nth_error edges i = Some (nth i edges (0, 0)%nat)) by now apply nth_error_nth'. set (ed := nth i edges (0, 0)%nat) in *.
      rewrite (ends_ok _ Ei). cbn [bind]. destruct (IH (k + 2)%nat) as (l & El & Ll & A). rewrite El. cbn [bind].
      eexists. split; [reflexivity|]. split; [cbn; lia|]. intros [|t] e Et; cbn [nth_error] in Et.
      + injection Et as <-. exists ed. cbn [cp_face cp_x cp_normal]. rewrite Nat.mul_0_r, Nat.add_0_r. split; [exact Ei|].
        split; [split; [now rewrite map_length|exact Ch]|]. split; [reflexivity|]. split; [reflexivity|].
        assert (Ie : In ed edges) by (eapply nth_error_In; eauto). assert (P := length_pos _ Ie). assert (T := length_tol _ Ie).
        split; [intros d Ld; destruct d as [|[|[|]]]; [reflexivity..|lia]|].
        split; [reflexivity|].
        set (v := fun d => gv (nth (snd ed) pts []) d - gv (nth (fst ed) pts []) d).
        assert (N : norm 3 v = edge_length pts ed).
        { unfold edge_length. rewrite vdist_sym. reflexivity. }
        assert (Z : forall d, (d < 3)%nat -> nth d (map (snd (normalize_vector 3 v)) (seq 0 3)) 0 = v d / edge_length pts ed).
        { intros d Ld. rewrite normalize_R, N, (proj2 (Rltb_false _ _)) by exact T. cbn [snd]. destruct d as [|[|[|]]]; [reflexivity..|lia]. }
        split; [|exact Z].
        unfold unit. rewrite (@dot_ext 3 _ (fun d => v d / norm 3 v) _ (fun d => v d / norm 3 v)) by (intros d Ld; rewrite N; apply Z; exact Ld).
        apply normalized_unit. rewrite N. exact P.
      + specialize (A t e Et). replace (k + 2 * S t)%nat with (k + 2 + 2 * t)%nat by lia. exact A.
  Qed.
  Lemma edge_sample_ok budget k : exists l, edge_sample pts u budget edges k = Ok l
    /\ length l = (match edges with [] => 0 | _ => budget end)%nat
    /\ forall t e, nth_error l t = Some e -> edge_throw pts edges u (k + 2 * t) e.
  Proof.
    assert (D : edges = [] \/ edges <> []) by (destruct edges; [now left|right; discriminate]). destruct D as [->|Ne].
    - exists []. split; [reflexivity|]. split; [reflexivity|]. intros [|] e E; discriminate.
    - destruct (@make_cdf_ok (map (edge_length pts) edges)) as (c & C & _).
      destruct (@edge_throws_ok c Ne C budget k) as (l & El & Ll & A). exists l. split; [|split; [|exact A]].
      + unfold edge_sample. rewrite lengths_ok. cbn [bind]. rewrite C. cbn [bind]. rewrite El. destruct edges; [congruence|reflexivity].
      + rewrite Ll. destruct edges; [congruence|reflexivity].
  Qed.

  (** *** Faces. *)
  Lemma rows3_of l : forall ns, build_face_normals pts l = Ok ns -> Forall (fun v => length v = 3%nat) ns.
  Proof.
    induction l as [|f l IH]; cbn [build_face_normals]; intros ns E; [injection E as <-; constructor|].
    apply bind_Ok_inv in E as (v & E1 & E). apply bind_Ok_inv in E as (r & E2 & E). injection E as <-. constructor; [|now apply IH].
    unfold face_normal in E1. repeat (apply bind_Ok_inv in E1 as (? & _ & E1)). injection E1 as <-. reflexivity.
  Qed.
  Lemma all_normals_ok : exists ns, build_face_normals pts faces = Ok ns /\ length ns = length faces
    /\ forall i f, nth_error faces i = Some f -> exists v, nth_error ns i = Some v /\ normal_to pts (F3 f) v.
  Proof.
    destruct (@FeatureProofs.normals_ok pts faces Hp Hc faces (incl_refl _)) as (ns & E & L & A). exists ns. split; [exact E|]. split; [exact L|].
    intros i f Ei. assert (Li := nth_error_Some_lt _ _ Ei). exists (nth i ns []). split; [apply nth_error_nth'; lia|].
    specialize (A i Li). rewrite (nth_error_nth _ _ [] Ei) in A. assert (If : In f faces) by (eapply nth_error_In; eauto).
    assert (P := @area_pos pts (F3 f) (@clean_good f If)). unfold face_area in P. cbv zeta in P.
    set (N := vprod (sub (tri pts (F3 f) 1%nat) (tri pts (F3 f) 0%nat)) (sub (tri pts (F3 f) 2%nat) (tri pts (F3 f) 0%nat))) in *.
    assert (Z : forall d, (d < 3)%nat -> nth d (nth i ns []) 0 = N d / norm 3 N) by exact A.
    assert (P' : 0 < norm 3 N) by lra.
    split; [|split; [|split; [exact P'|exact Z]]].
    - apply rows3_of in E. eapply Forall_forall in E; [exact E|]. apply nth_In. lia.
    - unfold unit. rewrite (@dot_ext 3 _ (fun d => N d / norm 3 N) _ (fun d => N d / norm 3 N)) by (intros d Ld; apply Z; exact Ld).
      now apply normalized_unit.
  Qed.
  Notation area := (fun f => face_area pts (F3 f)).
  Lemma areas_all : mapr (fun i => cs <- face_rows pts faces i ;; Ok (triangle_area (corner cs))) (seq 0 (length faces)) = Ok (map area faces).
  Proof.
    rewrite (@mapr_map _ _ _ (fun i => area (nth i faces []))).
    - f_equal. apply list_ext. intros k. destruct (lt_dec k (length faces)) as [L|L].
      + rewrite (@map_nth_error _ _ _ k _ k) by (rewrite (nth_error_nth' (seq 0 (length faces)) 0%nat (n := k)) by (rewrite seq_length; exact L); now rewrite seq_nth).
        symmetry. rewrite (@map_nth_error _ _ _ k _ (nth k faces [])) by now apply nth_error_nth'. reflexivity.
      + rewrite !(proj2 (nth_error_None _ _)) by (rewrite ?map_length, ?seq_length; lia). reflexivity.
    - intros j I. apply in_seq in I. unfold face_rows. rewrite (@get_in _ faces j []) by lia. cbn [bind].
      rewrite corners_of_ok by (apply clean_valid, nth_In; lia). cbn [bind]. now rewrite area_ok.
  Qed.
  Lemma face_throws_ok ns c : length ns = length faces -> (forall i f, nth_error faces i = Some f -> exists v, nth_error ns i = Some v /\ normal_to pts (F3 f) v) ->
    faces <> [] -> make_cdf (map area faces) = Ok c ->
    forall m k, exists l, face_throws pts u faces ns m c k = Ok l /\ length l = m /\ forall t e, nth_error l t = Some e -> face_throw pts faces u (k + 3 * t) e.
  Proof.
    intros Ln An Ne C. induction m as [|m IH]; intros k.
    - exists []. split; [reflexivity|]. split; [reflexivity|]. intros [|] e E; discriminate.
    - cbn [face_throws].
      destruct (@pool_pick_ok (map area faces) (u k)) as (c' & i & C' & Pi & Li & Ch & _).
      { intros E. apply map_eq_nil in E. congruence. }
      { apply Forall_map. apply Forall_forall. intros f I. pose proof (@area_pos pts (F3 f) (@clean_good f I)). lra. }
      { apply rsum_pos; [apply Forall_map, Forall_forall; intros f I; pose proof (@area_pos pts (F3 f) (@clean_good f I)); lra|].
        destruct (nth_error faces 0) as [f|] eqn:E0; [|apply nth_error_None in E0; destruct faces; [congruence|cbn in E0; lia]].
        apply nth_error_In in E0. exists (area f). split; [now apply (in_map area)|now apply area_pos, clean_good]. }
      { apply Hu. }
      rewrite C in C'. injection C' as <-. rewrite Pi. cbn [bind]. rewrite map_length in Li.
      assert (Ei : nth_error faces i = Some (nth i faces [])) by now apply nth_error_nth'. set (f := nth i faces []) in *.
      assert (If : In f faces) by (eapply nth_error_In; eauto).
      unfold face_rows at 1. rewrite (get_some Ei). cbn [bind]. rewrite (corners_of_ok (@clean_valid f If)). cbn [bind].
      destruct (@drawn pts u rows Hu (F3 f) (k + 1) (@clean_valid f If)) as (x & Ex & Ox). rewrite Ex. cbn [bind].
      destruct (An i f Ei) as (v & Ev & Nv). rewrite (get_some Ev). cbn [bind].
      destruct (IH (k + 3)%nat) as (l & El & Ll & A). rewrite El. cbn [bind].
      eexists. split; [reflexivity|]. split; [cbn; lia|]. intros [|t] e Et; cbn [nth_error] in Et.
      + injection Et as <-. exists f. cbn [cp_face cp_x cp_normal]. rewrite Nat.mul_0_r, Nat.add_0_r. split; [exact Ei|].
        split; [split; [now rewrite map_length|exact Ch]|]. assert (Lx : length x = 3%nat) by apply Ox.
        split; [rewrite app_length, Lx; reflexivity|]. split; [rewrite app_nth2 by lia; rewrite Lx; reflexivity|].
        split; [|exact Nv]. rewrite firstn_app, Lx, firstn_all2 by lia. cbn [Nat.sub firstn]. now rewrite app_nil_r.
      + specialize (A t e Et). replace (k + 3 * S t)%nat with (k + 3 + 3 * t)%nat by lia. exact A.
  Qed.
End Clean.

(** ** C76. *)
Theorem C76_clean_clouds need (thr : R) pts faces (u : nat -> R) ebudget budget :
  proper_triangles (length pts) faces -> clean pts faces -> consistent faces -> faces <> [] -> (forall k, 0 <= u k < 1) ->
  (0 < ebudget)%nat -> (0 < budget)%nat ->
  exists cf E S, clean_clouds need thr pts faces u ebudget budget = Ok cf
    /\ (forall a b, In (a, b) (cf_edges cf) <-> (a < b)%nat /\ is_sharp_edge thr pts faces a b)
    /\ (forall p, In p (cf_corners cf) <-> (p < length pts)%nat /\ is_sharp_corner thr pts faces p)
    /\ (cf_edges cf = [] -> E = [] /\ cf_edge_cloud cf = st_new 3)
    /\ (cf_edges cf <> [] -> length E = ebudget /\ kept (cf_edge_cloud cf) E)
    /\ (forall t e, nth_error E t = Some e -> edge_throw pts (cf_edges cf) u (2 * t) e)
    /\ length S = budget /\ kept (cf_surface cf) S
    /\ (forall t e, nth_error S t = Some e -> face_throw pts faces u (2 * length E + 3 * t) e).
Proof.
  intros Hp Hc Ho Hf Hu Hb1 Hb2. destruct (@C52_features thr pts faces Hp Hc Ho) as (edges & corners & D & De & _ & Dc).
  assert (He : forall a b, In (a, b) edges -> (a < b)%nat /\ (b < length pts)%nat).
  { intros a b I. apply De in I as (L & S). split; [exact L|]. eapply sharp_range; eauto. }
  destruct (@edge_sample_ok pts faces u Hc Hu edges He ebudget 0) as (E & EE & LE & AE).
  destruct (@all_normals_ok pts faces u Hp Hc Hu edges He) as (ns & En & Ln & An).
  destruct (@make_cdf_ok (map (fun f => face_area pts (3%nat :: f)) faces)) as (c & C & _).
  destruct (@face_throws_ok pts faces u Hp Hc Hu edges He ns c Ln An Hf C budget (match edges with [] => 0 | _ => 2 * ebudget end)%nat) as (S & ES & LS & AS).
  destruct (@grown_ok need S) as (ft & Eft & Kft).
  { intros ->. cbn in LS. lia. }
  { apply Forall_forall. intros e I. apply In_nth_error in I as (t & Et). destruct (AS t e Et) as (f & _ & _ & L & _ & _ & (L3 & _)). lia. }
  assert (K : exists et, grown need E = Ok et /\ (edges = [] -> E = [] /\ et = st_new 3) /\ (edges <> [] -> kept et E)).
  { assert (Dd : edges = [] \/ edges <> []) by (destruct edges; [now left|right; discriminate]). destruct Dd as [->|Ne].
    - destruct E; [|discriminate]. exists (st_new 3). split; [reflexivity|]. split; [auto|congruence].
    - destruct (@grown_ok need E) as (et & Eet & Ket).
      + intros ->. destruct edges; [congruence|cbn in LE; lia].
      + apply Forall_forall. intros e I. apply In_nth_error in I as (t & Et). destruct (AE t e Et) as (f & _ & _ & L & _ & _ & (L3 & _)). lia.
      + exists et. split; [exact Eet|]. split; [congruence|auto]. }
  destruct K as (et & Eet & K1 & K2).
  exists (CleanFeatures edges corners et ft), E, S. cbn [cf_edges cf_corners cf_edge_cloud cf_surface].
  split.
  { unfold clean_clouds. rewrite D. cbn [bind]. rewrite En. cbn [bind]. rewrite EE. cbn [bind]. rewrite Eet. cbn [bind].
    unfold face_sample. rewrite (@areas_all pts faces u Hp Hu edges He). cbn [bind]. rewrite C. cbn [bind]. rewrite ES. cbn [bind]. rewrite Eft. reflexivity. }
  split; [exact De|]. split; [exact Dc|]. split; [exact K1|].
  split; [intros Ne; split; [rewrite LE; destruct edges; [congruence|reflexivity]|now apply K2]|].
  split; [exact AE|]. split; [exact LS|]. split; [exact Kft|].
  intros t e Et. specialize (AS t e Et). rewrite LE. destruct edges; exact AS.
Qed.

(** Without faces the table of areas is empty and the search for a face reads outside it. *)
Theorem C76_no_faces_refuted need (thr : R) pts (u : nat -> R) ebudget budget :
  (0 < budget)%nat -> clean_clouds need thr pts [] u ebudget budget = UB.
Proof.
  intros L. unfold clean_clouds.
  assert (D : detect_features thr pts [] = Ok ([], [])).
  { unfold detect_features. cbn [build_face_normals].
    assert (E1 : exists pf, build_point_faces (length pts) [] = Ok pf) by (eexists; reflexivity). destruct E1 as (pf & ->). cbn [bind].
    change (sharp_edges thr [] pf []) with (@Ok (list (nat * nat)) []). cbn [bind].
    change (point_edges (length pts) []) with (@Ok (list (list nat)) (repeat [] (length pts))). cbn [bind].
    assert (G : forall m j, (j + m <= length pts)%nat -> sharp_corners_from thr pts [] (repeat [] (length pts)) (seq j m) = Ok []).
    { induction m as [|m IH]; intros j Lj; [reflexivity|]. cbn [seq sharp_corners_from].
      rewrite (@get_in _ (repeat [] (length pts)) j []) by (rewrite repeat_length; lia). cbn [bind]. rewrite nth_repeat.
      change (sharp_corner thr pts [] [] j) with (@Ok bool false). cbn [bind]. rewrite IH by lia. reflexivity. }
    rewrite G by lia. reflexivity. }
  rewrite D. cbn [bind build_face_normals]. cbn [edge_sample bind]. change (grown need (@nil (@cpoint R))) with (Ok (@st_new R _ 3)). cbn [bind].
  unfold face_sample. cbn [length seq mapr bind]. change (make_cdf (@nil R)) with (Ok (@nil R)). cbn [bind]. destruct budget as [|b]; [lia|]. reflexivity.
Qed.

(** The tetrahedron at a corner of a cube meets the hypotheses (C52_example); the model runs on it. *)
Example C76_hypotheses : proper_triangles (length corner4) tetra /\ clean corner4 tetra /\ consistent tetra /\ tetra <> [].
Proof. destruct C52_example as (A & B & C & _). split; [exact A|]. split; [exact B|]. split; [exact C|discriminate]. Qed.
Example C76_run :
  match @clean_clouds _ FNum (fun _ _ => false) (@nlit _ FNum 9 1) tet_points tetra (fun k => @ndiv _ FNum (@nofZ _ FNum (Z.of_nat (k * 7 mod 11))) (@nofZ _ FNum 11)) 5 6 with
  | Ok cf => (length (cf_edges cf), cf_corners cf, length (st_pts (cf_edge_cloud cf)), length (st_pts (cf_surface cf)), st_att (cf_surface cf))
  | _ => (0%nat, [], 0%nat, 0%nat, None) end = (6, [0; 1; 2; 3], 5, 6, Some [Some [2; 1]; Some [2; 1]; Some [2; 0]; Some [2; 0]; Some [2; 0]; Some [2; 3]])%nat.
Proof. vm_compute. reflexivity. Qed.

Print Assumptions C76_clean_clouds.
Print Assumptions C76_no_faces_refuted.
