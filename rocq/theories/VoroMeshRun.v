(** Proofs about VoroMesh.v over the real numbers: welding and the whole extraction. *)
From Coq Require Import Reals Lra Relations.
From Verif Require Import Base Num SamplingSpec Vec KdSpec KdTree SmartTree DenseQR Geometry GeometryProofs Spheres
  PolyMesh PolyMeshProofs Regions RegionsProofs MonitorProofs KdQueryProofs SpokeFlatProofs Interior InteriorSpec InteriorTreeProofs
  InteriorProofs InteriorRunProofs SurfaceShrinkProofs Voro VoroSpec VoroProofs VoroMesh VoroMeshSpec VoroMeshProofs.
Local Open Scope R_scope.

Lemma Forall2_nth_r {A B} (P : A -> B -> Prop) l l' i b : Forall2 P l l' -> nth_error l' i = Some b -> exists a, nth_error l i = Some a /\ P a b.
Proof. intros HF. revert i. induction HF; intros [|i] E; cbn in *; try discriminate; [injection E as <-; eauto|auto]. Qed.
Lemma Forall2_nth_l {A B} (P : A -> B -> Prop) l l' i a : Forall2 P l l' -> nth_error l i = Some a -> exists b, nth_error l' i = Some b /\ P a b.
Proof. intros HF. revert i. induction HF; intros [|i] E; cbn in *; try discriminate; [injection E as <-; eauto|auto]. Qed.
Lemma one_lt_max : 1 < @dbl_max R _.
Proof. unfold dbl_max. change (@nofZ R _) with IZR. apply IZR_lt. vm_compute. reflexivity. Qed.
Lemma dst_R (x v : list R) : nsqrt (sq_dist x v) = cdist x v.
Proof. rewrite sq_dist_R. cbn [nsqrt RNum]. apply sqrt_square, cdist_nonneg. Qed.
Lemma micro_eq : @nlit R _ 1 6 = 1 / 10 ^ 6.
Proof. unfold nlit. cbn [nofZ ndiv RNum]. replace (10 ^ Z.of_nat 6)%Z with 1000000%Z by reflexivity. lra. Qed.

Lemma nearest_corner_ok (vs : list (vertex R)) (x : list R) j h : nearest_corner vs x = (j, h) ->
  match j with None => h = dbl_max | Some j => exists v, nth_error vs j = Some v /\ h = cdist x (v_pt v) end
  /\ forall v, In v vs -> h <= cdist x (v_pt v).
Proof.
  unfold nearest_corner.
  assert (G : forall l st, (forall j v, In (j, v) l -> nth_error vs j = Some v) ->
    match fst st with None => snd st = dbl_max | Some j => exists v, nth_error vs j = Some v /\ snd st = cdist x (v_pt v) end ->
    let r := fold_left (fun st '(j, v) => let dst := nsqrt (sq_dist x (v_pt v)) in if nltb dst (snd st) then (Some j, dst) else st) l st in
    match fst r with None => snd r = dbl_max | Some j => exists v, nth_error vs j = Some v /\ snd r = cdist x (v_pt v) end
    /\ snd r <= snd st /\ forall j v, In (j, v) l -> snd r <= cdist x (v_pt v)).
  { induction l as [|[j0 v0] l IH]; intros st Hl Hst; cbn [fold_left]; [cbn zeta; split; [exact Hst|]; split; [lra|intros ? ? []]|].
    cbn zeta. rewrite dst_R. destruct (nltb (cdist x (v_pt v0)) (snd st)) eqn:E; [apply Rltb_true in E|apply Rltb_false in E].
    - destruct (IH (Some j0, cdist x (v_pt v0))) as (I1 & I2 & I3).
      + intros; apply Hl; now right.
      + cbn [fst snd]. exists v0. split; [apply Hl; now left|reflexivity].
      + cbn zeta in *. cbn [snd] in I2. split; [exact I1|]. split; [lra|]. intros j1 v1 [Ein|Hin]; [injection Ein as <- <-; exact I2|eauto].
    - destruct (IH st) as (I1 & I2 & I3); [intros; apply Hl; now right|exact Hst|]. cbn zeta in *. split; [exact I1|]. split; [exact I2|].
      intros j1 v1 [Ein|Hin]; [injection Ein as <- <-; lra|eauto]. }
  intros E. destruct (G (numbered vs) (None, dbl_max)) as (G1 & _ & G3).
  - intros j0 v0 Hin. apply in_numbered in Hin. exact Hin.
  - reflexivity.
  - cbn zeta in *. rewrite E in G1, G3. cbn [fst snd] in G1, G3. split; [exact G1|]. intros v Hv. apply In_nth_error in Hv. destruct Hv as (i & Ei).
    apply (G3 i v). apply nth_error_In with i. rewrite numbered_nth, Ei. reflexivity.
Qed.
Lemma nearest_corner_ext (vs : list (vertex R)) (x x' : list R) : (forall d, (d < 3)%nat -> gv x d = gv x' d) -> nearest_corner vs x = nearest_corner vs x'.
Proof.
  intros E. unfold nearest_corner. generalize (@None nat, @dbl_max R _). induction (numbered vs) as [|[j v] l IH]; intros st; cbn [fold_left]; auto.
  assert (Es : sq_dist x (v_pt v) = sq_dist x' (v_pt v)) by (unfold sq_dist; rewrite !range3, !E by lia; reflexivity). cbn zeta. rewrite Es. apply IH.
Qed.
Lemma cdist_0 a b : cdist a b <= 0 -> forall d, (d < 3)%nat -> gv a d = gv b d.
Proof.
  intros E. assert (E0 : cdist a b = 0) by (pose proof (cdist_nonneg a b); lra). pose proof (cdist_sq a b) as Hs. rewrite E0 in Hs.
  pose proof (Rle_0_sqr (gv a 0%nat - gv b 0%nat)) as P0. pose proof (Rle_0_sqr (gv a 1%nat - gv b 1%nat)) as P1.
  pose proof (Rle_0_sqr (gv a 2%nat - gv b 2%nat)) as P2. unfold Rsqr in *.
  assert (Z : forall u, u * u = 0 -> u = 0) by (intros u Hu; destruct (Rmult_integral _ _ Hu); auto).
  intros d Hd. destruct d as [|[|[|d]]]; [| | |lia].
  - assert (gv a 0%nat - gv b 0%nat = 0) by (apply Z; lra). lra.
  - assert (gv a 1%nat - gv b 1%nat = 0) by (apply Z; lra). lra.
  - assert (gv a 2%nat - gv b 2%nat = 0) by (apply Z; lra). lra.
Qed.
Lemma cdist_self a : cdist a a = 0. Proof. apply vdist_self. Qed.

Section Extract.
  Variables (d : R) (l : list (list R)) (regs : list nat) (rank : nat -> nat) (cells : list (cell R)).
  Hypothesis Hn : length cells = length l.
  Hypothesis Hr : length regs = length l.
  Hypothesis Hrank : forall k, (k < length l)%nat -> (rank k < length l)%nat.
  Hypothesis Hinj : forall k k', (k < length l)%nat -> (k' < length l)%nat -> rank k = rank k' -> k = k'.
  Hypothesis Hg : forall k, (k < length l)%nat ->
       (nth k regs 0%nat = 0%nat -> nth k cells None = None)
       /\ (nth k regs 0%nat <> 0%nat -> exists vs, nth k cells None = Some vs /\ good_cell d l regs rank k vs).
  (** Corner c of cell s. *)
  Definition corner_is (s c : nat) (v : vertex R) : Prop := (s < length l)%nat /\ exists vs, nth s cells None = Some vs /\ nth_error vs c = Some v.
  Lemma good_of s vs : (s < length l)%nat -> nth s cells None = Some vs -> nth s regs 0%nat <> 0%nat /\ good_cell d l regs rank s vs.
  Proof.
    intros Hs E. destruct (Hg Hs) as (G1 & G2). destruct (Nat.eq_dec (nth s regs 0%nat) 0) as [E0|E0]; [rewrite (G1 E0) in E; discriminate|].
    destruct (G2 E0) as (vs' & E' & Hc). split; auto. congruence.
  Qed.
  Lemma cell_of_ok s vs : (s < length l)%nat -> nth s cells None = Some vs -> cell_of cells s = Ok vs.
  Proof. intros Hs E. unfold cell_of. rewrite (@get_nth _ cells s None) by lia. cbn [bind]. now rewrite E. Qed.

  (** One corner: its link, to a corner at most 1e-6 away. *)
  Lemma tag_ok s c v : corner_is s c v -> exists b v', tag cells s c v = Ok b /\ corner_is (fst b) (snd b) v'
    /\ cdist (v_pt v) (v_pt v') <= 1 / 10 ^ 6
    /\ (b = (s, c) \/ (rank (fst b) < rank s)%nat \/ (fst b = s /\ tag cells s (snd b) v' = Ok b)).
  Proof.
    intros (Hs & vs & Ev & Ec). assert (Hin : In v vs) by (eapply nth_error_In; eauto).
    destruct (@good_of s vs Hs Ev) as (Hrs & (Hso & Hgc)). destruct (Hgc v Hin) as (_ & _ & _ & _ & (o & Eo & (Ho1 & Ho2 & _) & Ho3) & _).
    destruct (Hg Ho1) as (_ & Go). destruct (Go Ho2) as (vo & Evo & _). unfold tag. rewrite Eo. cbn [known bind].
    rewrite (@cell_of_ok o vo Ho1 Evo). cbn [bind]. destruct (nearest_corner vo (v_pt v)) as [j h] eqn:En.
    destruct (@nearest_corner_ok vo (v_pt v) j h En) as (N1 & N2). rewrite micro_eq.
    destruct (nltb (1 / 10 ^ 6) h) eqn:Eh.
    - exists (s, c), v. split; [reflexivity|]. split; [split; [exact Hs|exists vs; auto]|]. split; [rewrite cdist_self; lra|]. now left.
    - assert (Eh' := Eh). apply Rltb_false in Eh'. destruct j as [j|].
      2:{ exfalso. rewrite N1 in Eh'. pose proof one_lt_max as HM. revert HM Eh'. generalize (@dbl_max R _). intros r. cbv [pow]. lra. }
      destruct N1 as (v' & Ev' & Eh1). cbn [known bind]. exists (o, j), v'. split; [reflexivity|]. cbn [fst snd].
      split; [split; [exact Ho1|exists vo; auto]|]. split; [lra|]. right.
      destruct (Nat.eq_dec o s) as [->|Hos].
      + right. split; [reflexivity|]. assert (vo = vs) by congruence. subst vo.
        assert (E0 : cdist (v_pt v) (v_pt v') <= 0) by (rewrite <- Eh1; specialize (N2 v Hin); rewrite cdist_self in N2; exact N2).
        pose proof (@cdist_0 _ _ E0) as Ex. assert (Hin' : In v' vs) by (eapply nth_error_In; eauto).
        rewrite <- (Hso v v' Hin Hin' Ex), Eo. cbn [known bind]. rewrite (@cell_of_ok s vs Hs Ev). cbn [bind].
        rewrite <- (@nearest_corner_ext vs _ _ Ex), En, Eh. reflexivity.
      + left. assert (rank o <> rank s) by (intros E; apply Hos; apply Hinj; auto). lia.
  Qed.

  Lemma tags_ok : exists t, tags cells = Ok t /\ length t = length l
    /\ (forall a, valid t a <-> exists v, corner_is (fst a) (snd a) v)
    /\ (forall a b v, corner_is (fst a) (snd a) v -> (link t a = Ok b <-> tag cells (fst a) (snd a) v = Ok b)).
  Proof.
    unfold tags.
    destruct (@mapr_total (nat * cell R) (list (nat * nat)) (fun '(s, o) => match o with None => Ok [] | Some vs => mapr (fun '(c, v) => tag cells s c v) (numbered vs) end)
      (fun p row => match snd p with None => row = [] | Some vs => Forall2 (fun q b => tag cells (fst p) (fst q) (snd q) = Ok b) (numbered vs) row end)
      (numbered cells)) as (t & Et & HF).
    { intros [s o] Hin. apply in_numbered in Hin. cbn [fst snd]. destruct o as [vs|]; [|eauto].
      assert (Hs : (s < length l)%nat) by (rewrite <- Hn; eapply nth_error_Some_lt; exact Hin).
      assert (Ev : nth s cells None = Some vs) by (apply nth_error_nth with (d := None) in Hin; exact Hin).
      destruct (@mapr_total _ _ (fun '(c, v) => tag cells s c v) (fun q b => tag cells s (fst q) (snd q) = Ok b) (numbered vs)) as (row & Er & Hrow); [|eauto].
      intros [c v] Hc. apply in_numbered in Hc. destruct (@tag_ok s c v) as (b & v' & Eb & _); [split; [exact Hs|exists vs; auto]|]. exists b. auto. }
    exists t. split; [exact Et|].
    assert (Lt : length t = length l). { rewrite <- Hn. rewrite <- (Forall2_len HF). unfold numbered. rewrite combine_length, seq_length. lia. }
    split; [exact Lt|].
    assert (Row : forall s row, nth_error t s = Some row -> exists o, nth_error cells s = Some o
       /\ match o with None => row = [] | Some vs => Forall2 (fun q b => tag cells s (fst q) (snd q) = Ok b) (numbered vs) row end).
    { intros s row Es. destruct (@Forall2_nth_r _ _ _ _ _ _ _ HF Es) as ([s' o] & E1 & E2). rewrite numbered_nth in E1.
      destruct (@nth_error (cell R) cells s) as [o'|] eqn:Eo; [|discriminate E1]. cbn in E1. injection E1 as <- <-. exists o'. auto. }
    assert (L : forall a b, link t a = Ok b <-> exists v, corner_is (fst a) (snd a) v /\ tag cells (fst a) (snd a) v = Ok b).
    { intros [s c] b. cbn [fst snd]. rewrite link_Ok. cbn [fst snd]. split.
      - intros (row & E1 & E2). destruct (Row s row E1) as (o & Eo & Ho). destruct o as [vs|]; [|subst row; destruct c; discriminate].
        destruct (@Forall2_nth_r _ _ _ _ _ _ _ Ho E2) as ([c' v] & E3 & E4). rewrite numbered_nth in E3.
        destruct (nth_error vs c) as [v'|] eqn:Ev; [|discriminate]. cbn in E3. injection E3 as <- <-. exists v'. split; [|exact E4].
        split; [rewrite <- Hn; eapply nth_error_Some_lt; exact Eo|]. exists vs. split; [|exact Ev]. apply nth_error_nth with (d := None) in Eo. exact Eo.
      - intros (v & (Hs & vs & Ev & Ec) & Et'). destruct (nth_error t s) as [row|] eqn:Es; [|apply nth_error_None in Es; lia].
        exists row. split; [reflexivity|]. destruct (Row s row Es) as (o & Eo & Ho). apply nth_error_nth with (d := None) in Eo.
        assert (Eo' : o = Some vs) by (etransitivity; [symmetry; exact Eo|exact Ev]). rewrite Eo' in Ho.
        assert (Ec' : nth_error (numbered vs) c = Some (c, v)) by (rewrite numbered_nth, Ec; reflexivity).
        destruct (@Forall2_nth_l _ _ _ _ _ _ _ Ho Ec') as (b' & E1 & E2). cbn [fst snd] in E2. congruence. }
    assert (U : forall s c v v', corner_is s c v -> corner_is s c v' -> v = v').
    { intros s c v v' (_ & vs & E1 & E2) (_ & vs' & E3 & E4). congruence. }
    split.
    - intros a. split; [intros (b & Eb); apply L in Eb; destruct Eb as (v & Hv & _); eauto|].
      intros (v & Hv). destruct (@tag_ok _ _ _ Hv) as (b & _ & Eb & _). exists b. apply L. eauto.
    - intros a b v Hv. rewrite L. split; [intros (v' & Hv' & E); rewrite (U _ _ _ _ Hv Hv'); exact E|eauto].
  Qed.

  (** A corner that points to itself weighs less than one that points elsewhere in its cell. *)
  Definition self (t : link_table) (a : nat * nat) : bool := match link t a with Ok b => pair_eqb b a | _ => false end.
  Definition weight (t : link_table) (a : nat * nat) : nat := (2 * rank (fst a) + if self t a then 0 else 1)%nat.

  Theorem extract_ok : exists vertices faces, extract_mesh (2 * length l) regs cells = Ok (vertices, faces)
    /\ (forall p, In p vertices -> exists k, (k < length l)%nat /\ nth k regs 0%nat <> 0%nat /\ voronoi_vertex d (nth k l []) l p)
    /\ NoDup (map (fun f => (nth (length f - 2) f 0%nat, nth (length f - 1) f 0%nat)) faces)
    /\ forall f, In f faces -> exists fc i j, face_row fc i j f /\ polygon (length vertices) fc /\ owner_pair regs i j /\ i <> j
         /\ 0 < cdist (nth i l []) (nth j l [])
         /\ forall k, In k fc -> exists p, voronoi_vertex d (nth i l []) l p /\ welded p (nth k vertices []).
  Proof.
    destruct tags_ok as (t & Et & Lt & Vt & Tt). unfold extract_mesh. rewrite Et. cbn [bind].
    assert (Step : forall a b, link t a = Ok b -> exists v v', corner_is (fst a) (snd a) v /\ corner_is (fst b) (snd b) v'
       /\ cdist (v_pt v) (v_pt v') <= 1 / 10 ^ 6 /\ (b = a \/ (weight t b < weight t a)%nat)).
    { intros a b Eb. assert (Ha : valid t a) by (eexists; eauto). apply Vt in Ha. destruct Ha as (v & Hv).
      assert (Eb' := proj1 (Tt a b v Hv) Eb).
      destruct (@tag_ok _ _ _ Hv) as (b' & v' & E1 & E2 & E3 & E4). assert (b' = b) by congruence. subst b'.
      exists v, v'. split; [exact Hv|]. split; [exact E2|]. split; [exact E3|]. destruct E4 as [->|[E4|(E4 & E5)]].
      - left. destruct a. reflexivity.
      - right. unfold weight. destruct (self t b), (self t a); lia.
      - destruct (pair_eqb b a) eqn:Ep; [left; now apply pair_eqb_eq|]. right.
        assert (Sb : self t b = true).
        { unfold self. rewrite <- E4 in E5. rewrite (proj2 (Tt b b v' E2) E5). now apply pair_eqb_eq. }
        assert (Sa : self t a = false) by (unfold self; rewrite Eb; exact Ep). unfold weight. rewrite Sa, Sb, E4. lia. }
    assert (Fall : falls (weight t) t).
    { intros a b Eb. destruct (Step a b Eb) as (v & v' & _ & Hv' & _ & Hw). split; [apply Vt; eauto|exact Hw]. }
    destruct (@resolve_ok (weight t) (2 * length l) t Fall) as (t' & Er & Vr & Lr & Hl).
    { intros a Ha. apply Vt in Ha. destruct Ha as (v & (Hs & _)). unfold weight. specialize (Hrank Hs). destruct (self t a); lia. }
    rewrite Er. cbn [bind]. destruct (chosen_ok t') as (chosen & Ec & ND & Hc). rewrite Ec. cbn [bind].
    assert (Hcor : forall a, In a chosen -> exists v, corner_is (fst a) (snd a) v).
    { intros a Ha. apply Hc in Ha. apply Vt, Vr. eexists; eauto. }
    destruct (@mapr_total _ _ (fun a => vs <- cell_of cells (fst a) ;; v <- get vs (snd a) ;; Ok (v_pt v))
      (fun a p => exists v, corner_is (fst a) (snd a) v /\ p = v_pt v) chosen) as (vertices & Ev & HV).
    { intros a Ha. destruct (Hcor a Ha) as (v & Hv). assert (Hv0 := Hv). destruct Hv0 as (Hs & vs & E1 & E2). rewrite (@cell_of_ok _ _ Hs E1). cbn [bind].
      rewrite (get_some E2). cbn [bind]. eauto. }
    unfold extract_vertices. rewrite Ev. cbn [bind].
    assert (LV : length vertices = length chosen) by (symmetry; apply (Forall2_len HV)).
    assert (Num : forall s c v, corner_is s c v -> exists k a, vertex_number t' chosen s c = Ok k /\ nth_error chosen k = Some a /\ leads t (s, c) a).
    { intros s c v Hv. assert (Hva : valid t' (s, c)) by (apply Vr, Vt; cbn [fst snd]; eauto). destruct Hva as (a & Ea).
      destruct (Hl _ _ Ea) as (E1 & E2). unfold vertex_number. rewrite Ea. cbn [bind].
      destruct (@number_of_total chosen a) as (k & Ek); [now apply Hc|]. exists k, a. split; [exact Ek|]. split; [now apply number_of_ok|exact E2]. }
    assert (Leads : forall a b, leads t a b -> forall v v', corner_is (fst a) (snd a) v -> corner_is (fst b) (snd b) v' -> welded (v_pt v) (v_pt v')).
    { induction 1 as [a|a b c El Hlead IH]; intros v v' (Hs & vs & E1 & E2) Hv'.
      - destruct Hv' as (_ & vs' & E3 & E4). assert (v = v') by congruence. subst v'. constructor.
      - destruct (Step a b El) as (w & w' & (_ & vs' & E3 & E4) & Hw' & Hd & _). assert (w = v) by congruence. subst w.
        apply Relation_Operators.rt1n_trans with (v_pt w'); [exact Hd|]. apply IH; auto. }
    assert (Neigh : forall s vs nb, (s < length l)%nat -> nth s cells None = Some vs -> In nb (neighbors vs) ->
       (nb < length l)%nat /\ 0 < cdist (nth s l []) (nth nb l [])).
    { intros s vs nb Hs E1 Hnb. apply neighbors_ok in Hnb. destruct Hnb as (v & Hv & Hnb). destruct (@good_of s vs Hs E1) as (_ & (_ & Hgc)).
      destruct (Hgc v Hv) as (_ & _ & G3 & _ & _ & _ & _ & G8). split; [now apply G3|now apply G8]. }
    set (wf := (100 * length chosen + 2)%nat). set (num := vertex_number t' chosen).
    assert (HC : forall i, (i < length cells)%nat -> nth i regs 0%nat <> 0%nat -> exists vs, nth i cells None = Some vs
       /\ forall nb, In nb (neighbors vs) -> (nb < length cells)%nat /\ exists fc, face_corners_of wf vs (num i) nb = Ok fc).
    { intros i Hi Hri. rewrite Hn in Hi. destruct (Hg Hi) as (_ & G2). destruct (G2 Hri) as (vs & E1 & (_ & Hgc)). exists vs. split; [exact E1|].
      intros nb Hnb. split; [rewrite Hn; exact (proj1 (@Neigh i vs nb Hi E1 Hnb))|]. unfold wf. apply face_total; [| |exact Hnb].
      - intros c Hcl. destruct (nth_error vs c) as [v|] eqn:Evc; [|apply nth_error_None in Evc; lia].
        destruct (@Num i c v) as (k & a & Ek & Ea & _); [split; [exact Hi|exists vs; auto]|]. exists k. split; [exact Ek|].
        apply nth_error_Some. congruence.
      - intros v Hv. destruct (Hgc v Hv) as (_ & G2' & _ & _ & _ & G6 & G7 & _). split; [lia|exact G2']. }
    assert (HL : length cells = length regs) by lia.
    fold wf num. rewrite (@count_ok _ regs cells wf num HL HC). cbn [bind]. rewrite (@fill_ok _ regs cells wf num HL HC). cbn [bind].
    exists vertices, (map (row_of cells wf num) (filter (big cells wf num) (jobs regs cells))). split; [reflexivity|]. split; [|split].
    - intros p Hp. destruct (@Forall2_In_r _ _ _ _ _ _ HV Hp) as (a & _ & v & (Hs & vs & E1 & E2) & ->).
      exists (fst a). split; [exact Hs|]. destruct (@good_of _ vs Hs E1) as (Hrs & (_ & Hgc)). split; [exact Hrs|].
      apply (Hgc v). eapply nth_error_In; eauto.
    - rewrite map_map.
      assert (Ep : forall p, (nth (length (row_of cells wf num p) - 2) (row_of cells wf num p) 0%nat, nth (length (row_of cells wf num p) - 1) (row_of cells wf num p) 0%nat) = p).
      { intros [i j]. unfold row_of. cbn [fst snd]. generalize (corners_at cells wf num (i, j)). intros fc.
        cbn [length]. rewrite app_length. cbn [length].
        replace (S (length fc + 2) - 2)%nat with (S (length fc)) by lia. replace (S (length fc + 2) - 1)%nat with (S (length fc + 1)) by lia. cbn [nth].
        rewrite !app_nth2 by lia. replace (length fc - length fc)%nat with 0%nat by lia. replace (length fc + 1 - length fc)%nat with 1%nat by lia. reflexivity. }
      rewrite (map_ext _ _ Ep), map_id. apply NoDup_filter, NoDup_jobs.
    - intros f Hf. apply in_map_iff in Hf. destruct Hf as ([i j] & <- & Hp). apply filter_In in Hp. destruct Hp as (Hj & Hb).
      assert (Hj0 := Hj). apply in_jobs in Hj0. destruct Hj0 as (J1 & J2 & (vs & J3 & J4) & J5). rewrite Hn in J1.
      pose proof (@corners_at_ok _ regs cells wf num HC i j vs Hj J3) as Ef. set (fc := corners_at cells wf num (i, j)) in *.
      destruct (@Neigh i vs j J1 J3 J4) as (N1 & N2).
      unfold face_corners_of in Ef. apply walk_ok in Ef; [|constructor|intros k []]. destruct Ef as (F1 & F2).
      assert (FK : forall k, In k fc -> exists p, (k < length vertices)%nat /\ voronoi_vertex d (nth i l []) l p /\ welded p (nth k vertices [])).
      { intros k Hk. destruct (F2 k Hk) as (c & Eck). unfold num, vertex_number in Eck. apply bind_Ok_inv in Eck. destruct Eck as (a & Ea & Ek).
        assert (Hva : valid t (i, c)) by (apply Vr; eexists; eauto). apply Vt in Hva. cbn [fst snd] in Hva. destruct Hva as (v & Hv).
        apply number_of_ok in Ek. destruct (@Forall2_nth_l _ _ _ _ _ _ _ HV Ek) as (p & Ep & v' & Hv' & ->).
        exists (v_pt v). split; [apply nth_error_Some; congruence|]. split.
        - destruct Hv as (_ & vs' & E1 & E2). assert (vs' = vs) by congruence. subst vs'. destruct (@good_of i vs J1 J3) as (_ & (_ & Hgc)).
          apply (Hgc v). eapply nth_error_In; eauto.
        - apply nth_error_nth with (d := []) in Ep. rewrite Ep. apply (Leads (i, c) a); auto. apply Hl. exact Ea. }
      exists fc, i, j. split; [reflexivity|]. split; [|split; [|split; [|split]]].
      + split; [unfold big in Hb; apply Nat.leb_le in Hb; exact Hb|]. split; [exact F1|]. apply Forall_forall. intros k Hk. destruct (FK k Hk) as (p & Hp & _). exact Hp.
      + split; [lia|]. split; [lia|]. split; [exact J2|exact J5].
      + intros ->. rewrite cdist_self in N2. lra.
      + exact N2.
      + intros k Hk. destruct (FK k Hk) as (p & _ & P1 & P2). eauto.
  Qed.
End Extract.
