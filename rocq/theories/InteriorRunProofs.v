(** Proofs about Interior.v: the darts of the front and the rounds. *)
From Coq Require Import Reals Lra.
From Verif Require Import Base Num SamplingSpec Vec KdSpec KdTree SmartTree DenseQR Geometry GeometryProofs Spheres
  PolyMesh PolyMeshProofs Regions RegionsProofs MonitorProofs KdQueryProofs SpokeFlatProofs Interior InteriorSpec InteriorTreeProofs
  InteriorProofs SurfaceShrinkProofs.
Local Open Scope R_scope.

Definition all (s : istate R) : list (list R) := i_seeds s ++ i_buf s.
Definition allr (s : istate R) : list nat := i_regs s ++ i_bregs s.
Record st_ok (s : istate R) : Prop := {
  so_ne : i_seeds s <> [];
  so_regs : length (i_regs s) = length (i_seeds s);
  so_bregs : length (i_bregs s) = length (i_buf s);
  so_sph : Forall sphere (all s);
  so_tree : indexes (i_seeds s) (i_tree s);
  so_front : Forall (fun k => (k < length (all s))%nat /\ nth k (allr s) 0%nat <> 0%nat) (i_front s)
}.

Lemma get_app {A} (l l' : list A) k : (if (k <? length l)%nat then get l k else get l' (k - length l)) = get (l ++ l') k.
Proof.
  unfold get. destruct (Nat.ltb_spec k (length l)); [rewrite nth_error_app1 by auto|rewrite nth_error_app2 by auto]; reflexivity.
Qed.
Lemma sphere_at_all s k : sphere_at s k = get (all s) k.
Proof. apply get_app. Qed.
Lemma region_at_all s k : st_ok s -> region_at s k = get (allr s) k.
Proof. intros H. unfold region_at, allr. rewrite <- (so_regs H). apply get_app. Qed.
Lemma get_inv {A} (l : list A) i a d : get l i = Ok a -> (i < length l)%nat /\ a = nth i l d.
Proof.
  intros E. apply get_Ok in E. split; [apply nth_error_Some; congruence|]. symmetry. now apply nth_error_nth.
Qed.

(** ** Spheres near a seed *)
Definition reachable (L : R) (l : list (list R)) (sk : list R) (y : list R) : Prop :=
  exists c, In c l /\ cdist sk y < 2 * rad sk + (rad c + L * cdist sk c + 2 * rad sk * L) / (1 - L).
Lemma near_family_Ok L l fam sk out : family_ok l fam -> (3 <= length sk)%nat -> near_family L fam sk (rad sk) = Ok out ->
  l = [] \/ exists c, In c l /\ forall y, In y l ->
    cdist sk y < 2 * rad sk + (rad c + L * cdist sk c + 2 * rad sk * L) / (1 - L) -> In y out.
Proof.
  intros (<- & Hf) Hx. unfold near_family. destruct fam as [l [t|]]; cbn [fst snd] in *; [|auto].
  destruct Hf as (Hne & HI). intros E. right.
  apply bind_Ok_inv in E. destruct E as ((c & h) & E1 & E). destruct (@tree_closest_Ok l t sk c h HI Hx E1) as ((Hc & _) & ->).
  apply bind_Ok_inv in E. destruct E as (sc & E2 & E). apply (get_inv _ _ []) in E2. destruct E2 as (_ & ->).
  apply bind_Ok_inv in E. destruct E as (hits & E3 & E).
  exists (nth c l []). split; [apply nth_In; auto|]. intros y Hy Hd.
  destruct (@tree_in_sphere_ok l t sk (2 * rad sk + (rad (nth c l []) + L * cdist sk (nth c l []) + 2 * rad sk * L) / (1 - L)) HI Hx)
    as (out' & Eo & _ & Hall).
  assert (hits = out').
  { cut (Ok hits = Ok out'); [congruence|]. rewrite <- E3. exact Eo. }
  subst out'. apply In_nth with (d := []) in Hy. destruct Hy as (j & Hj & <-).
  apply mapr_Ok in E. destruct (@Forall2_In_l _ _ _ _ _ _ E (Hall j Hj Hd)) as (b & Hb & Eb).
  apply (get_inv _ _ []) in Eb. destruct Eb as (_ & <-). auto.
Qed.
Lemma reach_bound L l sk c d y : 0 <= L < 1 -> slope L l -> In c l -> In y l -> 0 <= rad sk ->
  cdist sk d <= 2 * rad sk -> cdist d y < rad y ->
  cdist sk y < 2 * rad sk + (rad c + L * cdist sk c + 2 * rad sk * L) / (1 - L).
Proof.
  intros HL Hs Hc Hy Hr Hd Hin. pose proof (Hs y c Hy Hc) as H1.
  pose proof (cdist_triangle y sk c) as T1. rewrite (cdist_sym y sk) in T1.
  pose proof (cdist_triangle sk d y) as T2.
  assert (L * cdist y c <= L * (cdist sk y + cdist sk c)) by (apply Rmult_le_compat_l; lra).
  assert (L * cdist sk y <= L * (2 * rad sk + rad y)) by (apply Rmult_le_compat_l; lra).
  assert (E : rad y * (1 - L) <= rad c + L * cdist sk c + 2 * rad sk * L) by lra.
  assert (rad y <= (rad c + L * cdist sk c + 2 * rad sk * L) / (1 - L)).
  { apply (Rmult_le_reg_r (1 - L)); [lra|]. unfold Rdiv. rewrite Rmult_assoc, Rinv_l, Rmult_1_r by lra. auto. }
  lra.
Qed.

Definition near_ok (L : R) (fixed : list (list R)) (s : istate R) (sk : list R) (near : list (option nat * list R)) : Prop :=
  (forall k y, In (Some k, y) near -> nth_error (all s) k = Some y)
  /\ (forall k y, nth_error (all s) k = Some y -> cdist sk y < 3 / (1 - L) * rad sk -> In (Some k, y) near)
  /\ (forall d y, In y fixed -> cdist sk d <= 2 * rad sk -> cdist d y < rad y -> In (None, y) near).

Lemma gather_Ok L s surf edge corner sf ef cf sk near : 0 <= L < 1 -> st_ok s ->
  family_ok surf sf -> family_ok edge ef -> family_ok corner cf -> slope L surf -> slope L edge -> slope L corner ->
  sphere sk -> gather L s sf ef cf sk = Ok near -> near_ok L (surf ++ edge ++ corner) s sk near.
Proof.
  intros HL HS Fs Fe Fc Ss Se Sc (Hk & Hr) E. unfold gather in E.
  change (gv sk 3%nat) with (rad sk) in E.
  change (nofZ 3 / (n1 - L) * rad sk)%num with (3 / (1 - L) * rad sk) in E.
  assert (Hx : (3 <= length sk)%nat) by lia.
  apply bind_Ok_inv in E. destruct E as (l & E1 & E).
  destruct (@tree_in_sphere_ok _ _ sk (3 / (1 - L) * rad sk) (so_tree HS) Hx) as (l' & E1' & Hlt & Hall).
  assert (l' = l) by congruence. subst l'.
  apply bind_Ok_inv in E. destruct E as (a & E2 & E). apply bind_Ok_inv in E. destruct E as (b & E3 & E).
  apply bind_Ok_inv in E. destruct E as (c & E4 & E). apply bind_Ok_inv in E. destruct E as (d & E5 & E).
  apply bind_Ok_inv in E. destruct E as (e & E6 & E). injection E as <-.
  apply mapr_Ok in E2. apply mapr_Ok in E3.
  split; [|split].
  - intros k y Hin. apply in_app_or in Hin. destruct Hin as [Hin|Hin].
    { destruct (@Forall2_In_r _ _ _ _ _ _ E2 Hin) as (k' & _ & Ek). apply bind_Ok_inv in Ek. destruct Ek as (x & Ex & Ek). injection Ek as -> ->.
      apply get_Ok in Ex. unfold all. rewrite nth_error_app1; auto. apply nth_error_Some. congruence. }
    apply in_app_or in Hin. destruct Hin as [Hin|Hin].
    { destruct (@Forall2_In_r _ _ _ _ _ _ E3 Hin) as (k' & _ & Ek). apply bind_Ok_inv in Ek. destruct Ek as (x & Ex & Ek). injection Ek as <- ->.
      apply get_Ok in Ex. unfold all. rewrite nth_error_app2 by lia. replace (length (i_seeds s) + k' - length (i_seeds s))%nat with k' by lia. auto. }
    apply in_map_iff in Hin. destruct Hin as (x & Ex & _). discriminate.
  - intros k y Ek Hd. unfold all in Ek. destruct (Nat.ltb_spec k (length (i_seeds s))) as [Hlt'|Hge].
    + rewrite nth_error_app1 in Ek by auto. apply in_or_app. left.
      assert (Ey : y = nth k (i_seeds s) []) by (symmetry; apply nth_error_nth; auto).
      assert (Hin : In k l) by (apply Hall; auto; rewrite <- Ey; auto).
      destruct (@Forall2_In_l _ _ _ _ _ _ E2 Hin) as (v & Hv & Ev). rewrite (get_some Ek) in Ev. cbn [bind] in Ev. injection Ev as <-. auto.
    + rewrite nth_error_app2 in Ek by auto. apply in_or_app. right. apply in_or_app. left.
      assert (Hin : In (k - length (i_seeds s))%nat (near_buffer s sk (3 / (1 - L) * rad sk))).
      { unfold near_buffer. apply in_map_iff. exists ((k - length (i_seeds s))%nat, y). split; auto.
        apply filter_In. split.
        - apply nth_error_In with (k - length (i_seeds s))%nat. rewrite numbered_nth, Ek. reflexivity.
        - rewrite sqrt_distance. apply negb_true_iff, Rltb_false. rewrite cdist_sym. lra. }
      destruct (@Forall2_In_l _ _ _ _ _ _ E3 Hin) as (v & Hv & Ev). rewrite (get_some Ek) in Ev. cbn [bind] in Ev. injection Ev as <-.
      replace (length (i_seeds s) + (k - length (i_seeds s)))%nat with k in Hv by lia. auto.
  - intros p y Hy Hp Hin. apply in_or_app. right. apply in_or_app. right. apply (in_map (fun x => (None, x))).
    apply in_app_or in Hy. destruct Hy as [Hy|Hy]; [|apply in_app_or in Hy; destruct Hy as [Hy|Hy]].
    + apply in_or_app. left. destruct (@near_family_Ok L _ _ sk _ Fs Hx E4) as [->|(c0 & Hc0 & H0)]; [destruct Hy|].
      apply H0; [exact Hy|]. exact (@reach_bound L surf sk c0 p y HL Ss Hc0 Hy Hr Hp Hin).
    + apply in_or_app. right. apply in_or_app. left. destruct (@near_family_Ok L _ _ sk _ Fe Hx E5) as [->|(c0 & Hc0 & H0)]; [destruct Hy|].
      apply H0; [exact Hy|]. exact (@reach_bound L edge sk c0 p y HL Se Hc0 Hy Hr Hp Hin).
    + apply in_or_app. right. apply in_or_app. right. destruct (@near_family_Ok L _ _ sk _ Fc Hx E6) as [->|(c0 & Hc0 & H0)]; [destruct Hy|].
      apply H0; [exact Hy|]. exact (@reach_bound L corner sk c0 p y HL Sc Hc0 Hy Hr Hp Hin).
Qed.

(** ** One dart *)
Lemma scan_ok (dart : list R) : forall near best c dsq, scan dart near best = (true, (c, dsq)) ->
  (forall o y, In (o, y) near -> rad y * rad y <= sq_distance dart y)
  /\ dsq <= snd best /\ (forall k y, In (Some k, y) near -> dsq <= sq_distance dart y)
  /\ ((c, dsq) = best \/ exists y, In (Some c, y) near /\ dsq = sq_distance dart y).
Proof.
  induction near as [|[o y] near IH]; intros best c dsq E.
  { cbn in E. injection E as ->. split; [intros ? ? []|]. split; [apply Rle_refl|]. split; [intros ? ? []|auto]. }
  cbn [scan] in E. change (gv y 3%nat * gv y 3%nat)%num with (rad y * rad y) in E.
  set (best' := match o with Some k => if (sq_distance dart y <? snd best)%num then (k, sq_distance dart y) else best | None => best end) in *.
  destruct (Rltb (sq_distance dart y) (rad y * rad y)) eqn:E1;
    change (nltb (sq_distance dart y) (rad y * rad y)) with (Rltb (sq_distance dart y) (rad y * rad y)) in E; rewrite E1 in E; [discriminate|].
  apply Rltb_false in E1. destruct (IH best' c dsq E) as (H1 & H2 & H3 & H4).
  assert (B : snd best' <= snd best /\ (forall k, o = Some k -> snd best' <= sq_distance dart y)
    /\ (best' = best \/ exists k, o = Some k /\ best' = (k, sq_distance dart y))).
  { unfold best'. destruct o as [k|]; [|split; [lra|split; [discriminate|auto]]].
    destruct (Rltb (sq_distance dart y) (snd best)) eqn:E2;
      change (nltb (sq_distance dart y) (snd best)) with (Rltb (sq_distance dart y) (snd best)); rewrite E2; cbn [snd].
    - apply Rltb_true in E2. split; [lra|]. split; [intros; lra|]. right. eauto.
    - apply Rltb_false in E2. split; [lra|]. split; [intros; lra|]. auto. }
  destruct B as (B1 & B2 & B3).
  split; [|split; [|split]].
  - intros o' y' [E'|Hin]; [injection E' as <- <-; auto|]. eapply H1; eauto.
  - lra.
  - intros k y' [E'|Hin]; [|eapply H3; eauto]. injection E' as -> <-. specialize (B2 k eq_refl). lra.
  - destruct H4 as [H4|(y' & Hy & Hd)]; [|right; exists y'; split; auto; now right].
    destruct B3 as [B3|(k & -> & B3)]; [left; congruence|]. rewrite B3 in H4. injection H4 as -> ->.
    right. exists y. split; auto. now left.
Qed.

Lemma sq_ge r d : 0 <= r -> 0 <= d -> r * r <= d * d -> r <= d.
Proof. intros. apply Rsqr_incr_0_var; auto. Qed.

Definition dart_of (sk dir : list R) (u : R) : list R := map (fun d => (gv sk d + (n1 + u) * gv sk 3%nat * gv dir d)%num) (seq 0 3).
Lemma dart_dist sk dir u : 0 <= u <= 1 -> norm 3 (vec dir) <= 1 -> 0 <= rad sk -> cdist (dart_of sk dir u) sk <= 2 * rad sk.
Proof.
  intros Hu Hd Hr. unfold cdist, vdist.
  rewrite (@norm_ext 3 _ (fun d => ((1 + u) * rad sk) * vec dir d)).
  2:{ intros d Hd'. unfold dart_of, vec. destruct d as [|[|[|d]]]; try lia; cbn; unfold gv, rad; cbn; ring. }
  rewrite norm_scal, Rabs_right; [|apply Rle_ge, Rmult_le_pos; lra].
  pose proof (norm_nonneg 3 (vec dir)).
  assert ((1 + u) * rad sk * norm 3 (vec dir) <= (1 + u) * rad sk * 1) by (apply Rmult_le_compat_l; [apply Rmult_le_pos; lra|auto]).
  assert ((1 + u) * rad sk <= 2 * rad sk) by (apply Rmult_le_compat_r; lra). lra.
Qed.
Lemma dart_length sk dir u : length (dart_of sk dir u) = 3%nat. Proof. reflexivity. Qed.
Lemma cdist_with_size (d : list R) z y : length d = 3%nat -> cdist (d ++ [z]) y = cdist d y.
Proof. intros H. apply cdist_ext; auto. intros k Hk. rewrite app_nth1; auto. lia. Qed.

Section Dart.
  Variables (L rmax : R) (fixed sizing : list (list R)) (zf : @family R) (s : istate R) (k : nat) (sk : list R).
  Variable near : list (option nat * list R).
  Hypothesis HL : 1 / 4 <= L < 1.
  Hypothesis Hrmax : 0 <= rmax.
  Hypothesis HS : st_ok s.
  Hypothesis Hk : nth_error (all s) k = Some sk.
  Hypothesis Hz : family_ok sizing zf.
  Hypothesis Hzp : Forall (fun p => 0 <= rad p) sizing.
  Hypothesis Hnear : near_ok L fixed s sk near.

  Lemma sk_sphere : sphere sk.
  Proof. pose proof (so_sph HS) as H. rewrite Forall_forall in H. apply H. eapply nth_error_In; eauto. Qed.
  Lemma alpha4 : 4 <= 3 / (1 - L).
  Proof. apply (Rmult_le_reg_r (1 - L)); [lra|]. unfold Rdiv. rewrite Rmult_assoc, Rinv_l, Rmult_1_r by lra. lra. Qed.

  Lemma throw_dart_Ok dir u new new' : 0 <= u <= 1 -> norm 3 (vec dir) <= 1 ->
    throw_dart L rmax s zf near k sk dir u new = Ok new' ->
    new' = new \/ exists y, new' = new ++ [y] /\ good_dart L rmax fixed sizing (all s) (allr s) k sk y
      /\ forall z, In z new -> rad z * rad z <= cdist y z * cdist y z.
  Proof.
    intros Hu Hdir E. unfold throw_dart in E. fold (dart_of sk dir u) in E. set (dart := dart_of sk dir u) in *.
    destruct sk_sphere as (Hlen & Hr).
    assert (Hdd : cdist dart sk <= 2 * rad sk) by (apply dart_dist; auto).
    destruct (scan dart near (k, sq_distance dart sk)) as [good [c dsq]] eqn:Es.
    apply bind_Ok_inv in E. destruct E as (rk & Erk & E). apply bind_Ok_inv in E. destruct E as (rc & Erc & E).
    rewrite (@region_at_all s k HS) in Erk. rewrite (@region_at_all s c HS) in Erc.
    apply (get_inv _ _ 0%nat) in Erk, Erc. destruct Erk as (Hkr & ->), Erc as (Hcr & ->).
    match type of E with (if ?b then _ else _) = _ => destruct b eqn:Eb end; [|injection E as <-; auto].
    right. apply andb_true_iff in Eb. destruct Eb as (Eb & Ereg). apply andb_true_iff in Eb. destruct Eb as (-> & Enew).
    apply Nat.eqb_eq in Ereg.
    destruct (scan_ok _ _ _ Es) as (S1 & S2 & S3 & S4). cbn [snd] in S2.
    apply bind_Ok_inv in E. destruct E as (sc & Esc & E). rewrite sphere_at_all in Esc.
    apply bind_Ok_inv in E. destruct E as (sz & Esz & E). injection E as <-.
    exists (dart ++ [sz]). split; auto.
    (* the nearest seed *)
    assert (Hc : sc = nth c (all s) [] /\ (c < length (all s))%nat).
    { apply (get_inv _ _ []) in Esc. destruct Esc; auto. }
    assert (Hds : dsq = cdist dart sc * cdist dart sc).
    { rewrite <- sq_distance_R. apply get_Ok in Esc. destruct S4 as [S4|(y & Hy & ->)].
      - injection S4 as -> ->. congruence.
      - apply Hnear in Hy. congruence. }
    assert (Hcl : forall j, (j < length (all s))%nat -> cdist dart sc <= cdist dart (nth j (all s) [])).
    { intros j Hj. set (y := nth j (all s) []).
      assert (Ey : nth_error (all s) j = Some y) by (apply nth_error_nth'; auto).
      destruct (Rle_lt_dec (cdist dart sk) (cdist dart y)) as [Hle|Hlt].
      - rewrite Hds, sq_distance_R in S2. pose proof (sq_ge (cdist_nonneg dart sc) (cdist_nonneg dart sk) S2). lra.
      - assert (Hd : cdist sk y < 3 / (1 - L) * rad sk).
        { pose proof (cdist_triangle sk dart y) as T. rewrite (cdist_sym sk dart) in T. pose proof alpha4.
          assert (4 * rad sk <= 3 / (1 - L) * rad sk) by (apply Rmult_le_compat_r; lra). lra. }
        pose proof (S3 j y (proj1 (proj2 Hnear) j y Ey Hd)) as H. rewrite Hds, sq_distance_R in H.
        apply sq_ge; auto using cdist_nonneg. }
    destruct Hc as (Hsc & Hclt).
    assert (Hrc : 0 <= rad sc).
    { pose proof (so_sph HS) as H. rewrite Forall_forall in H. apply H. rewrite Hsc. apply nth_In; auto. }
    assert (Hsqrt : @nsqrt R _ dsq = cdist dart sc) by (rewrite Hds; cbn; apply sqrt_square, cdist_nonneg).
    (* the size *)
    assert (Hsz0 : 0 <= nmin (gv sc 3%nat + L * nsqrt dsq)%num rmax <= rmax /\ nmin (gv sc 3%nat + L * nsqrt dsq)%num rmax <= rad sc + L * cdist dart sc).
    { rewrite Hsqrt. change (gv sc 3%nat) with (rad sc). cbn [nadd nmul RNum]. unfold nmin. cbn [nltb RNum].
      assert (0 <= L * cdist dart sc) by (apply Rmult_le_pos; [lra|apply cdist_nonneg]).
      destruct (Rltb rmax (rad sc + L * cdist dart sc)) eqn:E0; [apply Rltb_true in E0|apply Rltb_false in E0]; lra. }
    assert (Hsz : 0 <= sz <= rmax /\ sz <= rad sc + L * cdist dart sc /\ (sizing = [] \/ exists i, nearest_sphere dart sizing i /\ sz <= rad (nth i sizing []))).
    { destruct Hz as (Ez & Hzf). destruct zf as [zl [t|]]; cbn [fst snd] in *; subst zl.
      - destruct Hzf as (Hne & HI). apply bind_Ok_inv in Esz. destruct Esz as ((i & h) & Ei & Esz).
        destruct (@tree_closest_Ok sizing t dart i h HI ltac:(cbn; lia) Ei) as (Hni & _).
        apply bind_Ok_inv in Esz. destruct Esz as (p & Ep & Esz). apply (get_inv _ _ []) in Ep. destruct Ep as (Hi & ->).
        set (m := nmin (gv sc 3%nat + L * nsqrt dsq)%num rmax) in *.
        change (gv (nth i sizing []) 3%nat) with (rad (nth i sizing [])) in Esz.
        assert (Hp : 0 <= rad (nth i sizing [])) by (rewrite Forall_forall in Hzp; apply Hzp, nth_In; auto).
        assert (Em : sz = m /\ m <= rad (nth i sizing []) \/ sz = rad (nth i sizing []) /\ rad (nth i sizing []) <= m).
        { injection Esz as <-. unfold nmin. cbn [nltb RNum].
          destruct (Rltb (rad (nth i sizing [])) m) eqn:E0; [apply Rltb_true in E0|apply Rltb_false in E0]; [right|left]; split; auto; lra. }
        split; [lra|]. split; [lra|]. right. exists i. split; auto. lra.
      - injection Esz as <-. split; [apply Hsz0|]. split; [apply Hsz0|auto]. }
    destruct Hsz as (Z1 & Z2 & Z3).
    assert (Hrad : rad (dart ++ [sz]) = sz) by reflexivity.
    assert (Hcd : forall y, cdist (dart ++ [sz]) y = cdist dart y) by (intros; apply cdist_with_size; reflexivity).
    split.
    - split; [reflexivity|]. split; [rewrite Hrad; auto|]. split; [rewrite Hcd; auto|]. split; [|split; [|split]].
      + intros y Hy. rewrite Hcd. destruct (Rle_lt_dec (rad y) (cdist dart y)) as [H|H]; [lra|].
        pose proof (S1 None y (proj2 (proj2 Hnear) dart y Hy ltac:(rewrite cdist_sym; auto) H)) as H'. rewrite sq_distance_R in H'.
        pose proof (cdist_nonneg dart y). pose proof (@sq_ge (rad y) (cdist dart y) ltac:(lra) H0 H'). lra.
      + intros y Hy Hd. rewrite Hcd. apply In_nth_error in Hy. destruct Hy as (j & Ey).
        pose proof (S1 _ y (proj1 (proj2 Hnear) j y Ey Hd)) as H'. rewrite sq_distance_R in H'.
        apply sq_ge; auto using cdist_nonneg. pose proof (so_sph HS) as H. rewrite Forall_forall in H. apply H. eapply nth_error_In; eauto.
      + exists c. split; [split; auto; intros j Hj; rewrite !Hcd, <- Hsc; auto|]. split; auto.
        rewrite Hrad, Hcd, <- Hsc. auto.
      + destruct Z3 as [Z3|(i & (Hi1 & Hi2) & Hi)]; [auto|right]. exists i. split; [|rewrite Hrad; auto].
        split; auto.
    - intros z Hz'. rewrite Hcd. rewrite forallb_forall in Enew. specialize (Enew z Hz').
      apply negb_true_iff in Enew. rewrite sq_distance_R in Enew. apply Rltb_false in Enew. exact Enew.
  Qed.

  Definition darts_ok (new : list (list R)) : Prop :=
    Forall (good_dart L rmax fixed sizing (all s) (allr s) k sk) new
    /\ ForallOrdPairs (fun a b => rad a <= cdist b a) new.
  Lemma throw_all dir u new : (forall d, 0 <= u d <= 1) -> (forall d, norm 3 (vec (dir d)) <= 1) ->
    for_res 20 0 (fun d new => throw_dart L rmax s zf near k sk (dir d) (u d) new) [] = Ok new -> darts_ok new.
  Proof.
    intros Hu Hd E. eapply (for_res_Ok darts_ok); [|split; constructor|exact E].
    intros d st st' _ (P1 & P2) Et. destruct (@throw_dart_Ok (dir d) (u d) st st' (Hu d) (Hd d) Et) as [->|(y & -> & Gy & Gp)]; [split; auto|].
    split; [apply Forall_app; split; auto|].
    clear Et E. induction P2 as [|a l Ha P2 IH]; cbn [app]; [repeat constructor|].
    inversion P1 as [|? ? Ga P1']; subst. constructor.
    - apply Forall_app. split; auto. constructor; [|constructor].
      apply sq_ge; [apply Ga|apply cdist_nonneg|apply Gp; now left].
    - apply IH; auto. intros z Hz'. apply Gp. now right.
  Qed.
End Dart.

(** ** Rounds *)
Lemma well_added_app rmax fixed sizing n0 l regs x y k : length regs = length l -> (k < length l)%nat ->
  well_added rmax fixed sizing n0 l regs k -> well_added rmax fixed sizing n0 (l ++ x) (regs ++ y) k.
Proof.
  intros Hl Hk (m & p & Hm & Hp & R1 & R2 & N & O & M & Z). exists m, p.
  rewrite !(app_nth1 regs) by lia. rewrite !(app_nth1 l) by lia.
  split; [exact Hm|]. split; [exact Hp|]. split; [exact R1|]. split; [exact R2|]. split; [|split; [exact O|split; [exact M|exact Z]]].
  intros j Hj. rewrite (app_nth1 l) by lia. auto.
Qed.
Lemma shrunk_cdist l l' i y : shrunk l l' -> (i < length l)%nat -> cdist (nth i l' []) y = cdist (nth i l []) y.
Proof. intros (_ & H) Hi. apply cdist_ext; auto. apply H; auto. Qed.
Lemma well_added_shrunk rmax fixed sizing n0 l l' regs k : shrunk l l' -> (k < length l)%nat ->
  well_added rmax fixed sizing n0 l regs k -> well_added rmax fixed sizing n0 l' regs k.
Proof.
  intros HS Hk (m & p & Hm & Hp & R1 & R2 & N & O & M & Z). exists m, p.
  assert (Hr : rad (nth k l' []) <= rad (nth k l [])) by (apply HS; auto).
  split; [exact Hm|]. split; [exact Hp|]. split; [exact R1|]. split; [exact R2|]. split; [|split; [|split]].
  - intros j Hj. rewrite !(@shrunk_cdist l l' k _ HS Hk). rewrite !(cdist_sym (nth k l [])), !(@shrunk_cdist l l' _ _ HS) by lia.
    rewrite !(cdist_sym _ (nth k l [])). auto.
  - intros y Hy. rewrite (@shrunk_cdist l l' k _ HS Hk). auto.
  - lra.
  - destruct Z as [Z|(i & (Hi1 & Hi2) & Hi)]; [auto|right]. exists i. split; [|lra]. split; auto.
    intros j Hj. rewrite !(@shrunk_cdist l l' k _ HS Hk). auto.
Qed.
Lemma nth_error_nth2 {A} (l : list A) i a d : nth_error l i = Some a -> (i < length l)%nat /\ nth i l d = a.
Proof. intros E. split; [apply nth_error_Some; congruence|]. now apply nth_error_nth. Qed.

Lemma Forall2_weaken {A B} (P Q : A -> B -> Prop) l l' : (forall a b, P a b -> Q a b) -> Forall2 P l l' -> Forall2 Q l l'.
Proof. intros H HF. induction HF; constructor; auto. Qed.
Lemma Forall2_len {A B} (P : A -> B -> Prop) l l' : Forall2 P l l' -> length l = length l'.
Proof. intros HF. induction HF; cbn; auto. Qed.
Lemma chosen_in {A} b (front : list A) act k : In k (map fst (filter (fun '(_, a) => Bool.eqb a b) (combine front act))) -> In k front.
Proof.
  intros H. apply in_map_iff in H. destruct H as ((x & a) & <- & H). apply filter_In in H. destruct H as (H & _).
  apply in_combine_l in H. auto.
Qed.
Lemma Forall2_numbered {A B} (P : nat * A -> B -> Prop) (l : list A) l' :
  Forall2 P (numbered l) l' -> Forall2 (fun a b => exists i, P (i, a) b) l l'.
Proof.
  unfold numbered. generalize 0%nat. revert l'. induction l as [|a l IH]; intros l' z H; cbn [length seq combine] in H; inversion H; subst; constructor; eauto.
Qed.
Lemma concat_regs (G : nat -> list R -> Prop) (f : nat -> res nat) : forall active news regs,
  Forall2 (fun k l => Forall (G k) l) active news ->
  mapr (fun '(k, l) => r <- f k ;; Ok (repeat r (length (l : list (list R))))) (combine active news) = Ok regs ->
  Forall2 (fun y r => exists k, In k active /\ G k y /\ f k = Ok r) (concat news) (concat regs).
Proof.
  induction active as [|k active IH]; intros news regs H E; inversion H; subst; cbn [combine mapr] in E.
  { injection E as <-. constructor. }
  apply bind_Ok_inv in E. destruct E as (b & Eb & E). apply bind_Ok_inv in E. destruct E as (rs & Er & E). injection E as <-.
  apply bind_Ok_inv in Eb. destruct Eb as (r & Ef & Eb). injection Eb as <-. cbn [concat]. apply Forall2_app.
  - clear - H2 Ef. induction H2 as [|y0 l0 Hy H2 IHl]; cbn [length repeat]; constructor; auto.
    exists k. split; [now left|]. auto.
  - eapply Forall2_weaken; [|apply IH; eauto]. intros y0 r0 (k' & Hk & Hg & Hf). exists k'. split; [now right|]. auto.
Qed.

Section Rounds.
  Variables (L rmax : R) (surf edge corner sizing : list (list R)) (sf ef cf zf : @family R).
  Variables (l0 : list (list R)) (regs0 : list nat).
  Hypothesis HL : 1 / 4 <= L < 1.
  Hypothesis Hrmax : 0 <= rmax.
  Hypothesis Fs : family_ok surf sf.
  Hypothesis Fe : family_ok edge ef.
  Hypothesis Fc : family_ok corner cf.
  Hypothesis Fz : family_ok sizing zf.
  Hypothesis Ss : slope L surf.
  Hypothesis Se : slope L edge.
  Hypothesis Sc : slope L corner.
  Hypothesis Hzp : Forall (fun p => 0 <= rad p) sizing.
  Let fixed := surf ++ edge ++ corner.
  Definition fair_draws (dr : draws R) : Prop :=
    (forall k, 0 <= d_front dr k <= 1) /\ (forall a d, norm 3 (vec (d_dir dr a d)) <= 1) /\ (forall a d, 0 <= d_len dr a d <= 1).
  Definition inv (s : istate R) : Prop := st_ok s /\ extended rmax fixed sizing l0 regs0 (all s) (allr s).
  Definition from_front (s : istate R) (y : list R) (r : nat) : Prop :=
    exists k sk, nth_error (all s) k = Some sk /\ nth_error (allr s) k = Some r /\ r <> 0%nat
      /\ good_dart L rmax fixed sizing (all s) (allr s) k sk y.

  Lemma extended_app s new nregs : inv s -> Forall2 (from_front s) new nregs ->
    extended rmax fixed sizing l0 regs0 (all s ++ new) (allr s ++ nregs)
    /\ forall k, (length (all s) <= k < length (all s ++ new))%nat -> nth k (allr s ++ nregs) 0%nat <> 0%nat.
  Proof.
    intros (HS & E1 & E2 & E3 & E4 & E5) HF. pose proof (Forall2_len HF) as HLn.
    assert (HN : forall k, (length (all s) <= k < length (all s ++ new))%nat -> from_front s (nth k (all s ++ new) []) (nth k (allr s ++ nregs) 0%nat)).
    { intros k Hk. rewrite app_length in Hk. rewrite !app_nth2 by lia. rewrite E1.
      clear - HF Hk. assert (Hi : (k - length (all s) < length new)%nat) by lia. revert Hi. generalize (k - length (all s))%nat. clear Hk.
      induction HF; intros [|i] Hi; cbn in *; try lia; auto. apply IHHF. lia. }
    split.
    - split; [rewrite !app_length; lia|]. split; [rewrite app_length; lia|]. split; [|split].
      + apply Forall_app. split; auto. apply Forall_forall. intros y Hy.
        destruct (@Forall2_In_l _ _ _ _ _ _ HF Hy) as (r & _ & (k & sk & _ & _ & _ & (G1 & G2 & _))). split; [auto|lra].
      + intros i Hi. rewrite (app_nth1 (all s)) by lia. rewrite (app_nth1 (allr s)) by lia. auto.
      + intros k Hk. destruct (Nat.ltb_spec k (length (all s))) as [Hlt|Hge].
        { apply well_added_app; auto. apply E5. lia. }
        assert (Hk' : (length (all s) <= k < length (all s ++ new))%nat) by lia.
        destruct (HN k Hk') as (k0 & sk & H1 & H2 & H3 & (G1 & G2 & G3 & G4 & G5 & (p & (Gp1 & Gp2) & Gp3 & _) & G7)).
        apply nth_error_nth2 with (d := 0%nat) in H2. destruct H2 as (H2 & H2').
        exists (length (all s)), p. split; [lia|]. split; [auto|]. rewrite (@app_nth1 _ (allr s) nregs 0%nat p) by lia.
        split; [congruence|]. split; [auto|]. rewrite (@app_nth1 _ (all s) new [] p) by lia. split; [|split; [auto|split; [lra|auto]]].
        intros j Hj. rewrite (@app_nth1 _ (all s) new [] j) by lia. auto.
    - intros k Hk. destruct (HN k Hk) as (k0 & sk & _ & _ & H & _). auto.
  Qed.

  Lemma throw_darts_Ok s dir u k new : inv s -> (forall d, 0 <= u d <= 1) -> (forall d, norm 3 (vec (dir d)) <= 1) ->
    throw_darts L rmax s sf ef cf zf dir u k = Ok new ->
    exists sk, nth_error (all s) k = Some sk /\ darts_ok L rmax fixed sizing s k sk new.
  Proof.
    intros (HS & _) Hu Hd E. unfold throw_darts in E. apply bind_Ok_inv in E. destruct E as (sk & Ek & E).
    rewrite sphere_at_all in Ek. apply get_Ok in Ek. apply bind_Ok_inv in E. destruct E as (near & En & E).
    exists sk. split; auto.
    assert (Hsk : sphere sk) by (pose proof (so_sph HS) as H; rewrite Forall_forall in H; apply H; eapply nth_error_In; eauto).
    assert (HN : near_ok L fixed s sk near) by (apply (@gather_Ok L s surf edge corner sf ef cf sk near); auto; lra).
    eapply (@throw_all L rmax fixed sizing zf s k sk near); eauto.
  Qed.

  Lemma flush_Ok s new nregs front s' : inv s -> Forall2 (from_front s) new nregs ->
    Forall (fun k => (k < length (all s ++ new))%nat /\ nth k (allr s ++ nregs) 0%nat <> 0%nat) front ->
    flush s new nregs front = Ok s' -> inv s' /\ i_buf s' = [] /\ i_bregs s' = [].
  Proof.
    intros HI HF Hfr E. destruct (@extended_app s new nregs HI HF) as (HE & _). destruct HI as (HS & _). unfold flush in E.
    apply bind_Ok_inv in E. destruct E as (t & Et & E). injection E as <-. cbn [i_buf i_bregs]. split; [|auto].
    assert (Ea : all {| i_seeds := i_seeds s ++ i_buf s ++ new; i_regs := i_regs s ++ i_bregs s ++ nregs; i_buf := []; i_bregs := [];
                        i_tree := t; i_front := front; i_lip := i_lip s |} = all s ++ new).
    { unfold all. cbn. rewrite app_nil_r, app_assoc. reflexivity. }
    assert (Er : allr {| i_seeds := i_seeds s ++ i_buf s ++ new; i_regs := i_regs s ++ i_bregs s ++ nregs; i_buf := []; i_bregs := [];
                        i_tree := t; i_front := front; i_lip := i_lip s |} = allr s ++ nregs).
    { unfold allr. cbn. rewrite app_nil_r, app_assoc. reflexivity. }
    split; [|rewrite Ea, Er; auto].
    assert (Hne : i_seeds s ++ i_buf s ++ new <> []) by (pose proof (so_ne HS); destruct (i_seeds s); [congruence|discriminate]).
    constructor; cbn [i_seeds i_regs i_buf i_bregs i_tree i_front].
    - auto.
    - destruct HE as (HE & _). unfold all, allr in HE. rewrite !app_length in *. lia.
    - reflexivity.
    - rewrite Ea. apply HE.
    - destruct (index_tree_ok Hne) as (t' & Et' & Hi). congruence.
    - rewrite Ea, Er. auto.
  Qed.

  Lemma round_Ok fuel threads dr s s' stop : fair_draws dr -> inv s ->
    round fuel L rmax threads sf ef cf zf dr s = Ok (s', stop) -> inv s' /\ (stop = true -> i_buf s' = [] /\ i_bregs s' = []).
  Proof.
    intros (Df & Dd & Dl) HI E. pose proof HI as (HS & HE). unfold round in E.
    apply bind_Ok_inv in E. destruct E as (front & Ef & E).
    destruct (@shuffle_ok 0 (length (i_front s)) (d_front dr) (i_front s)) as (front' & Ef' & Pf & _); auto; [lia|].
    assert (front' = front) by congruence. subst front'. clear Ef'.
    assert (Hfr : Forall (fun k => (k < length (all s))%nat /\ nth k (allr s) 0%nat <> 0%nat) front).
    { apply Forall_forall. intros k Hk. pose proof (so_front HS) as H. rewrite Forall_forall in H. apply H.
      eapply Permutation_in; [apply Permutation_sym; exact Pf|auto]. }
    apply bind_Ok_inv in E. destruct E as (fs & Efs & E). apply bind_Ok_inv in E. destruct E as (act & Ea & E).
    set (active := chosen true front act) in *. set (inactive := chosen false front act) in *.
    assert (Hact : forall k, In k active -> In k front) by (intros k; apply chosen_in).
    assert (Hin : forall k, In k inactive -> In k front) by (intros k; apply chosen_in).
    clearbody active inactive.
    apply bind_Ok_inv in E. destruct E as (news & En & E).
    apply mapr_Ok, Forall2_numbered in En.
    assert (Hnews : Forall2 (fun k l => Forall (fun y => exists sk, nth_error (all s) k = Some sk /\ good_dart L rmax fixed sizing (all s) (allr s) k sk y) l) active news).
    { eapply Forall2_weaken; [|exact En]. intros k l (i & Et). cbv beta iota in Et.
      destruct (@throw_darts_Ok s _ _ k l HI (Dl i) (Dd i) Et) as (sk & Hk & (H1 & _)).
      eapply Forall_impl; [|exact H1]. intros y Hy. exists sk. auto. }
    destruct ((length (concat news) =? 0)%nat && (length inactive =? 0)%nat) eqn:E0.
    { destruct (length (i_buf s) =? 0)%nat eqn:E1.
      - injection E as <- <-. split; auto. intros _. apply Nat.eqb_eq, length_zero_iff_nil in E1. split; auto.
        pose proof (so_bregs HS) as H. rewrite E1 in H. apply length_zero_iff_nil. auto.
      - apply bind_Ok_inv in E. destruct E as (s1 & E2 & E). injection E as <- <-.
        destruct (@flush_Ok s [] [] [] s1 HI ltac:(constructor) ltac:(constructor) E2) as (H1 & H2 & H3). auto. }
    destruct (length (concat news) =? 0)%nat eqn:E1.
    { injection E as <- <-. split; [|discriminate]. split; [|exact HE].
      destruct HS as [S1 S2 S3 S4 S5 S6]. constructor; auto. cbn [i_front]. rewrite Forall_forall in *. auto. }
    apply bind_Ok_inv in E. destruct E as (regs & Er & E).
    apply (@concat_regs _ _ _ _ _ Hnews) in Er.
    set (new := concat news) in *. set (nregs := concat regs) in *. clearbody new nregs.
    assert (HF : Forall2 (from_front s) new nregs).
    { eapply Forall2_weaken; [|exact Er]. intros y r (k & Hk & (sk & Hsk & G) & Hr).
      rewrite (@region_at_all s k HS) in Hr. apply get_Ok in Hr. exists k, sk. split; auto. split; auto. split; auto.
      rewrite Forall_forall in Hfr. destruct (Hfr k (Hact k Hk)) as (_ & H). rewrite (nth_error_nth _ _ _ Hr) in H. auto. }
    destruct (@extended_app s new nregs HI HF) as (HE' & Hnz).
    set (front' := inactive ++ seq (length (i_seeds s) + length (i_buf s)) (length new)) in *.
    assert (Hfr' : Forall (fun k => (k < length (all s ++ new))%nat /\ nth k (allr s ++ nregs) 0%nat <> 0%nat) front').
    { apply Forall_app. split; apply Forall_forall; intros k Hk.
      - rewrite Forall_forall in Hfr. destruct (Hfr k (Hin k Hk)) as (H1 & H2). rewrite app_length. split; [lia|].
        rewrite app_nth1; auto. destruct HE as (HE & _). lia.
      - apply in_seq in Hk. assert (Hk' : (length (all s) <= k < length (all s ++ new))%nat) by (unfold all; rewrite !app_length; lia).
        split; [lia|auto]. }
    clearbody front'.
    destruct (length (i_buf s) + length new <? 1000 * threads)%nat.
    { injection E as <- <-. split; [|discriminate].
      match goal with |- inv ?x => set (s1 := x) end.
      assert (A1 : all s1 = all s ++ new) by (unfold all; cbn; apply app_assoc).
      assert (A2 : allr s1 = allr s ++ nregs) by (unfold allr; cbn; apply app_assoc).
      split; [|rewrite A1, A2; auto]. constructor; try (rewrite A1); try (rewrite A2); cbn [s1 i_seeds i_regs i_buf i_bregs i_tree i_front].
      - apply HS.
      - apply HS.
      - rewrite !app_length, (so_bregs HS). f_equal. symmetry. apply (Forall2_len HF).
      - apply HE'.
      - apply HS.
      - auto. }
    apply bind_Ok_inv in E. destruct E as (s1 & E2 & E).
    destruct (@flush_Ok s new nregs front' s1 HI HF Hfr' E2) as (HI1 & B1 & B2).
    destruct (2 * i_lip s1 <? length (i_seeds s1))%nat; [|injection E as <- <-; split; auto; discriminate].
    apply bind_Ok_inv in E. destruct E as (seeds & E3 & E). injection E as <- <-. split; [|discriminate].
    destruct HI1 as (HS1 & X1 & X2 & X3 & X4 & X5).
    assert (A1 : all s1 = i_seeds s1) by (unfold all; rewrite B1; apply app_nil_r).
    assert (A2 : allr s1 = i_regs s1) by (unfold allr; rewrite B2; apply app_nil_r).
    assert (Hfr1 : i_front s1 = front').
    { unfold flush in E2. apply bind_Ok_inv in E2. destruct E2 as (t & _ & E2). injection E2 as <-. reflexivity. }
    assert (SM : smoothed L (i_seeds s1) seeds).
    { apply (@lip_seeds_Ok L (i_seeds s1) (i_tree s1) fuel seeds); auto; [lra|apply HS1|]. rewrite <- A1. apply HS1. }
    destruct SM as (Sh & Sp & _). pose proof Sh as (Hlen & Hsh).
    match goal with |- inv ?x => set (s2 := x) end.
    assert (A3 : all s2 = seeds) by (unfold all; cbn; apply app_nil_r).
    assert (A4 : allr s2 = i_regs s1) by (unfold allr; cbn; apply app_nil_r).
    rewrite A1, A2 in *. split.
    - constructor; try (rewrite A3); try (rewrite A4); cbn [s2 i_seeds i_regs i_buf i_bregs i_tree i_front].
      + pose proof (so_ne HS1). destruct (i_seeds s1); [congruence|]. intros ->. cbn in Hlen. lia.
      + lia.
      + reflexivity.
      + auto.
      + apply indexes_ext with (i_seeds s1); [auto| |apply HS1]. intros i d Hi Hd. apply Hsh; auto.
      + rewrite Hlen. pose proof (so_front HS1) as H. rewrite A1, A2, Hfr1 in H. auto.
    - rewrite A3, A4. split; [lia|]. split; [lia|]. split; [auto|]. split.
      + intros i Hi. destruct (X4 i Hi) as (Y1 & Y2 & Y3). destruct (Hsh i ltac:(lia)) as (_ & Y4 & Y5).
        split; [intros d Hd; rewrite Y4; auto|]. split; [lra|auto].
      + intros k Hk. apply (@well_added_shrunk _ _ _ _ _ _ _ _ Sh); [lia|]. apply X5. lia.
  Qed.

  Lemma rounds_Ok lfuel threads dr : (forall k, fair_draws (dr k)) -> forall fuel k s s',
    inv s -> rounds fuel lfuel L rmax threads sf ef cf zf dr k s = Ok s' -> inv s' /\ i_buf s' = [] /\ i_bregs s' = [].
  Proof.
    intros Hd. induction fuel as [|fuel IH]; intros k s s' HI E; cbn [rounds] in E; [discriminate|].
    apply bind_Ok_inv in E. destruct E as ((s1 & stop) & E1 & E). destruct (@round_Ok _ _ _ _ _ _ (Hd k) HI E1) as (HI1 & Hst).
    destruct stop; [injection E as <-; auto|]. eapply IH; eauto.
  Qed.
End Rounds.

Lemma undersized_Ok surf l fam : undersized_family surf l = Ok fam -> family_ok l fam.
Proof.
  unfold undersized_family. destruct (length surf <? length l)%nat; [discriminate|]. apply make_family_Ok.
Qed.

Theorem generate_Ok fuel lfuel (L rmax : R) threads l0 regs0 surf edge corner sizing dr l regs :
  1 / 4 <= L < 1 -> 0 <= rmax -> l0 <> [] -> Forall sphere l0 -> length regs0 = length l0 ->
  slope L surf -> slope L edge -> slope L corner -> Forall (fun p => 0 <= rad p) sizing -> (forall k, fair_draws (dr k)) ->
  generate_interior_seeds fuel lfuel L rmax threads l0 regs0 surf edge corner sizing dr = Ok (l, regs) ->
  extended rmax (surf ++ edge ++ corner) sizing l0 regs0 l regs /\ near_slope L (1 / 10 ^ 10) l l.
Proof.
  intros HL Hrm Hne Hsp Hlr Ss Se Sc Hz Hd E. unfold generate_interior_seeds in E.
  apply bind_Ok_inv in E. destruct E as (t & Et & E). apply bind_Ok_inv in E. destruct E as (seeds & Es & E).
  apply bind_Ok_inv in E. destruct E as (sf & Esf & E). apply bind_Ok_inv in E. destruct E as (ef & Eef & E).
  apply bind_Ok_inv in E. destruct E as (cf & Ecf & E). apply bind_Ok_inv in E. destruct E as (zf & Ezf & E).
  apply bind_Ok_inv in E. destruct E as (s & Ers & E). apply bind_Ok_inv in E. destruct E as (seeds' & Ef & E). injection E as <- <-.
  apply make_family_Ok in Esf, Eef. apply undersized_Ok in Ecf, Ezf.
  destruct (index_tree_ok Hne) as (t' & Et' & HI). assert (t' = t) by congruence. subst t'.
  assert (SM : smoothed L l0 seeds) by (apply (@lip_seeds_Ok L l0 t lfuel seeds); auto; lra).
  destruct SM as (Sh & Sp & _). pose proof Sh as (Hlen & Hsh).
  match type of Ers with rounds _ _ _ _ _ _ _ _ _ _ _ ?x = _ => set (s0 := x) in * end.
  assert (A1 : all s0 = seeds) by (unfold all; cbn; apply app_nil_r).
  assert (A2 : allr s0 = regs0) by (unfold allr; cbn; apply app_nil_r).
  assert (I0 : inv rmax surf edge corner sizing l0 regs0 s0).
  { split.
    - constructor; try (rewrite A1); try (rewrite A2); cbn [s0 i_seeds i_regs i_buf i_bregs i_tree i_front].
      + destruct l0; [congruence|]. intros ->. cbn in Hlen. lia.
      + lia.
      + reflexivity.
      + auto.
      + apply indexes_ext with l0; [auto| |auto]. intros i d Hi Hdd. apply Hsh; auto.
      + apply Forall_forall. intros k Hk. apply in_map_iff in Hk. destruct Hk as ((k' & r) & <- & Hk). cbn [fst].
        apply filter_In in Hk. destruct Hk as (Hk & Hr). apply negb_true_iff, Nat.eqb_neq in Hr.
        apply In_nth_error in Hk. destruct Hk as (i & Hk).
        pose proof (@nth_error_nth2 _ _ _ _ (0%nat, 0%nat) Hk) as (Hi & Hn). rewrite combine_length, seq_length in Hi.
        rewrite combine_nth in Hn by (rewrite seq_length; lia). injection Hn as Hn1 Hn2. rewrite seq_nth in Hn1 by lia. cbn in Hn1. subst k' r.
        split; [lia|auto].
    - rewrite A1, A2. split; [lia|]. split; [lia|]. split; [auto|]. split.
      + intros i Hi. destruct (Hsh i Hi) as (_ & Y1 & Y2). auto.
      + intros k Hk. lia. }
  destruct (@rounds_Ok L rmax surf edge corner sizing sf ef cf zf l0 regs0 HL Hrm Esf Eef Ecf Ezf Ss Se Sc Hz lfuel threads dr Hd fuel 0%nat s0 s I0 Ers)
    as ((HS & X1 & X2 & X3 & X4 & X5) & B1 & B2).
  assert (A3 : all s = i_seeds s) by (unfold all; rewrite B1; apply app_nil_r).
  assert (A4 : allr s = i_regs s) by (unfold allr; rewrite B2; apply app_nil_r).
  rewrite A3, A4 in *.
  assert (SM : smoothed L (i_seeds s) seeds') by (apply (@lip_seeds_Ok L (i_seeds s) (i_tree s) lfuel seeds'); auto; [lra|apply HS]).
  destruct SM as (Sh' & Sp' & NS & _). pose proof Sh' as (Hlen' & Hsh').
  split.
  - split; [lia|]. split; [lia|]. split; [auto|]. split.
    + intros i Hi. destruct (X4 i Hi) as (Y1 & Y2 & Y3). destruct (Hsh' i ltac:(lia)) as (_ & Y4 & Y5).
      split; [intros d Hdd; rewrite Y4; auto|]. split; [lra|auto].
    + intros k Hk. apply (@well_added_shrunk _ _ _ _ _ _ _ _ Sh'); [lia|]. apply X5. lia.
  - intros i j Hi Hj Hc. rewrite Hlen' in Hi, Hj.
    rewrite (@shrunk_cdist _ _ i _ Sh' Hi), cdist_sym, (@shrunk_cdist _ _ j _ Sh' Hj), cdist_sym in Hc |- *.
    destruct (Hsh' i Hi) as (_ & _ & Hr). apply NS; auto. lra.
Qed.
