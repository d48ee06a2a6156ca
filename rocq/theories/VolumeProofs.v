From Coq Require Import Reals Lra.
From Verif Require Import Base Num SamplingSpec Vec KdSpec KdTree SmartTree DenseQR Geometry GeometryProofs Spheres
  PolyMesh PolyMeshProofs Regions RegionsProofs KdQueryProofs SpokeFlatProofs Interior InteriorSpec InteriorTreeProofs
  InteriorProofs InteriorRunProofs SurfaceShrinkProofs EdgeSeeds EdgeSeedsSpec EdgeSeedsProofs MonitorSpec VolumeSeeds VolumeSpec.
From Verif Require MonitorProofs PropsEdgeSeeds.
Local Open Scope R_scope.

Definition same_place (a b : list R) : Prop := forall d, (d < 3)%nat -> nth d a 0 = nth d b 0.

Lemma outside_ext e a b l : same_place a b -> outside e b l -> outside e a l.
Proof. intros H Ho s Hs. rewrite (@cdist_ext a b s s); auto. Qed.

Lemma keeps_refl l regs : length regs = length l -> keeps l regs l regs.
Proof. intros H. split; auto. Qed.
Lemma keeps_trans l0 r0 l1 r1 l2 r2 : keeps l0 r0 l1 r1 -> keeps l1 r1 l2 r2 -> keeps l0 r0 l2 r2.
Proof.
  intros (A1 & A2 & A3) (B1 & B2 & B3). split; auto. split; [lia|]. intros i Hi. destruct (A3 i Hi) as (C1 & C2).
  destruct (B3 i ltac:(lia)) as (D1 & D2). split; [|congruence]. intros d Hd. rewrite D1, C1; auto.
Qed.
Lemma keeps_In surf l0 r0 l1 r1 r : length r0 = length l0 -> keeps l0 r0 l1 r1 -> fresh surf r0 (length l0) l1 r1 -> In r r1 -> In r r0.
Proof.
  intros H (A1 & A2 & A3) F Hr. apply In_nth with (d := 0%nat) in Hr. destruct Hr as (i & Hi & <-).
  destruct (Nat.lt_ge_cases i (length l0)) as [Hl|Hl].
  - destruct (A3 i Hl) as (_ & ->). apply nth_In. lia.
  - apply F. lia.
Qed.
Lemma fresh_trans surf l0 r0 l1 r1 l2 r2 : length r0 = length l0 -> keeps l0 r0 l1 r1 -> keeps l1 r1 l2 r2 ->
  fresh surf r0 (length l0) l1 r1 -> fresh surf r1 (length l1) l2 r2 -> fresh surf r0 (length l0) l2 r2.
Proof.
  intros H K1 K2 F1 F2 k Hk. destruct (Nat.lt_ge_cases k (length l1)) as [Hl|Hl].
  - destruct K2 as (B1 & B2 & B3). destruct (B3 k Hl) as (D1 & D2). destruct (F1 k ltac:(lia)) as (E1 & E2 & E3).
    rewrite D2. split; auto. split; auto. eapply outside_ext; eauto.
  - destruct (F2 k ltac:(lia)) as (E1 & E2 & E3). split; auto. split; auto. eapply keeps_In; eauto.
Qed.

(** ** The seeds of the sharp edges *)
Lemma ensure_facts fuel lfuel L seeds regs surf edge corner sizing dir3 dir2 seeds' regs' :
  PropsEdgeSeeds.edge_setting L seeds regs surf edge corner dir2 ->
  ensure_edge_seeds fuel lfuel L seeds regs surf edge corner sizing dir3 dir2 = Ok (seeds', regs') ->
  keeps seeds regs seeds' regs' /\ fresh surf regs (length seeds) seeds' regs' /\ Forall sphere seeds'
  /\ (length seeds' <= length seeds + 2 * length edge)%nat
  /\ (forall i, (i < length seeds)%nat -> rad (nth i seeds' []) <= rad (nth i seeds []))
  /\ (forall k, (length seeds <= k < length seeds')%nat -> exists so, In so edge /\ cdist (nth k seeds' []) so = rad so).
Proof.
  intros Hs E. destruct (@PropsEdgeSeeds.C74_at_most_two _ _ _ _ _ _ _ _ _ _ _ _ _ Hs E) as ((A1 & A2) & A3 & A4 & A5).
  destruct (PropsEdgeSeeds.es_seeds Hs) as (_ & _ & Hr).
  split; [|split; [|split; [|split; [|split]]]]; auto.
  - split; auto. split; auto. intros i Hi. split; [apply A5; auto|].
    rewrite <- A4 at 1. symmetry. rewrite <- (firstn_skipn (length seeds) regs') at 2. rewrite app_nth1; [|rewrite firstn_length; lia].
    rewrite A4. reflexivity.
  - intros k Hk. destruct (@PropsEdgeSeeds.C74_added _ _ _ _ _ _ _ _ _ _ _ _ _ k Hs E Hk)
      as (i & f & sn & c & Hi & _ & _ & _ & _ & _ & _ & G1 & (p & (Hp & _) & G2) & G3 & _).
    split; auto. split; auto. rewrite G2. apply nth_In. lia.
  - pose proof (@PropsEdgeSeeds.setting_spec fuel lfuel L seeds regs surf edge corner sizing dir3 dir2 Hs) as G. rewrite E in G.
    destruct G as (seeds1 & outs & (_ & S1 & _) & El & Ho & -> & _). apply Forall_app. split; auto.
    apply Forall_forall. intros y Hy. apply in_map_iff in Hy. destruct Hy as ((y' & r) & <- & Hy). cbn [fst].
    apply in_concat in Hy. destruct Hy as (o & Hin & Hy). apply In_nth with (d := []) in Hin. destruct Hin as (i & Hi & <-). rewrite El in Hi.
    destruct (Ho i Hi) as (sn1 & sn2 & o1 & o2 & _ & O1 & _ & O2 & Eo). rewrite Eo in Hy. apply in_app_or in Hy.
    assert (X : forall sn out, outcome seeds1 regs surf (nth i edge []) sn out -> In (y', r) out -> sphere y').
    { intros sn out O Hin. destruct (@PropsEdgeSeeds.outcome_In _ _ _ _ _ _ _ _ O Hin) as (c & x & h & (C1 & C2 & _) & (P1 & _) & _ & -> & _).
      split; [rewrite app_length; cbn; lia|]. unfold rad. rewrite app_nth2 by lia. rewrite P1. exact C2. }
    destruct Hy as [Hy|Hy]; [exact (X _ _ O1 Hy)|exact (X _ _ O2 Hy)].
  - intros i Hi. apply A5; auto.
  - intros k Hk. destruct (@PropsEdgeSeeds.C74_added _ _ _ _ _ _ _ _ _ _ _ _ _ k Hs E Hk) as (i & f & sn & c & Hi & _ & _ & G & _).
    exists (nth i edge []). split; auto. apply nth_In; auto.
Qed.

(** ** The imposed points *)
Lemma impose_Ok fuel L seeds regs surf edge corner sizing imposed out : 0 <= L < 1 ->
  seeds <> [] -> length regs = length seeds -> Forall sphere seeds ->
  slope L surf -> slope L edge -> slope L corner ->
  Forall (fun q => length q = 4%nat /\ in_range q seeds /\ in_range q surf /\ in_range q edge /\ in_range q corner) imposed ->
  impose_interior_seeds fuel L seeds regs surf edge corner sizing imposed = Ok out ->
  exists seeds' kept, out = (seeds' ++ map fst kept, regs ++ map snd kept)
    /\ smoothed L seeds seeds' /\ kept_of seeds regs surf edge corner imposed kept.
Proof.
  intros HL Hne Hlr Hs Ss Se Sc Hq E. unfold impose_interior_seeds in E.
  apply bind_Ok_inv in E. destruct E as (t & Et & E). apply bind_Ok_inv in E. destruct E as (seeds' & El & E).
  apply bind_Ok_inv in E. destruct E as (sf & Esf & E). apply bind_Ok_inv in E. destruct E as (ef & Eef & E).
  apply bind_Ok_inv in E. destruct E as (cf & Ecf & E). apply bind_Ok_inv in E. destruct E as (zf & Ezf & E).
  apply make_family_Ok in Esf, Eef. apply undersized_Ok in Ecf.
  destruct (index_tree_ok Hne) as (t' & Et' & HI). assert (t' = t) by congruence. subst t'.
  assert (SM : smoothed L seeds seeds') by (apply (@lip_seeds_Ok L seeds t fuel seeds'); auto; lra).
  pose proof (proj1 SM) as (Hl' & Hc'). rewrite Hl' in E.
  destruct (@mapr_total _ _ (imposed_region L (length seeds) t regs sf ef cf)
    (fun q o => match o with Some r => survives seeds regs surf edge corner q r | None => is_dropped seeds regs surf edge corner q end) imposed)
    as (ids & Ei & Fi).
  { intros q Hin. rewrite Forall_forall in Hq. destruct (Hq q Hin) as (Q1 & Q2 & Q3 & Q4 & Q5).
    apply (@imposed_region_ok L seeds t regs surf edge corner sf ef cf q); auto. lia. }
  rewrite Ei in E. cbn [bind] in E. exists seeds', (kept_points imposed ids).
  split; [|split; [exact SM|apply kept_of_ids; auto; rewrite Forall_forall in *; intros q Hin; apply Hq; auto]].
  unfold append_imposed in E. destruct (Nat.eqb_spec (length (kept_points imposed ids)) 0) as [E0|E0].
  - destruct (kept_points imposed ids); [|discriminate]. cbn [map]. rewrite !app_nil_r. congruence.
  - rewrite Nat.leb_refl in E. congruence.
Qed.

Lemma kept_of_In seeds regs surf edge corner imposed kept : kept_of seeds regs surf edge corner imposed kept ->
  forall q r, In (q, r) kept -> In q imposed /\ survives seeds regs surf edge corner q r.
Proof.
  induction 1 as [|q r l k Hs H IH|q l k Hd H IH]; intros q' r' Hin; [contradiction| |].
  - destruct Hin as [E|Hin]; [injection E as <- <-; split; [left|]; auto|]. destruct (IH _ _ Hin). split; [right|]; auto.
  - destruct (IH _ _ Hin). split; [right|]; auto.
Qed.
Lemma impose_facts seeds regs surf edge corner imposed kept seeds' : length regs = length seeds ->
  shrunk seeds seeds' -> Forall sphere seeds' -> Forall sphere imposed -> kept_of seeds regs surf edge corner imposed kept ->
  let l := seeds' ++ map fst kept in let r := regs ++ map snd kept in
  keeps seeds regs l r /\ fresh surf regs (length seeds) l r /\ Forall sphere l
  /\ (forall i, (i < length seeds)%nat -> rad (nth i l []) <= rad (nth i seeds [])).
Proof.
  intros Hr (Hl & Hsh) Hsp Hq Hk l r. unfold l, r. split; [|split; [|split]].
  - split; [rewrite !app_length, !map_length; lia|]. split; [rewrite app_length; lia|].
    intros i Hi. rewrite !app_nth1 by lia. split; auto. apply Hsh; auto.
  - intros k Hk'. rewrite app_length, map_length in Hk'.
    rewrite !app_nth2 by lia. rewrite Hl, Hr. set (a := (k - length seeds)%nat).
    assert (Ha : (a < length kept)%nat) by (unfold a; lia).
    change (@nil R) with (fst (@nil R, 0%nat)) at 1. rewrite map_nth. change 0%nat with (snd (@nil R, 0%nat)). rewrite map_nth. cbn [snd].
    destruct (nth a kept ([], 0%nat)) as [q r'] eqn:E. cbn [fst snd].
    destruct (@kept_of_In _ _ _ _ _ _ _ Hk q r') as (Hin & c & _ & Hc & Hr0 & Hs & _). { rewrite <- E. apply nth_In; auto. }
    split; auto. split; [eapply nth_error_In; eauto|auto].
  - apply Forall_app. split; auto. apply Forall_forall. intros q Hin. apply in_map_iff in Hin. destruct Hin as ((q' & r') & <- & Hin).
    rewrite Forall_forall in Hq. apply Hq. eapply kept_of_In; eauto.
  - intros i Hi. rewrite app_nth1 by lia. apply Hsh; auto.
Qed.

(** ** The interior seeds *)
Lemma extended_facts rmax surf edge corner sizing l0 regs0 l regs : length regs0 = length l0 ->
  extended rmax (surf ++ edge ++ corner) sizing l0 regs0 l regs ->
  keeps l0 regs0 l regs /\ fresh surf regs0 (length l0) l regs.
Proof.
  intros H0 (H1 & H2 & H3 & H4 & H5). split.
  - split; auto. split; auto. intros i Hi. destruct (H4 i Hi) as (A & _ & B). auto.
  - assert (G : forall m k, (k < m)%nat -> (length l0 <= k < length l)%nat -> In (nth k regs 0%nat) regs0).
    { induction m as [|m IH]; intros k Hk Hk'; [lia|]. destruct (H5 k Hk') as (m' & p & M1 & M2 & M3 & _). rewrite M3.
      destruct (Nat.lt_ge_cases p (length l0)) as [Hp|Hp].
      - destruct (H4 p Hp) as (_ & _ & ->). apply nth_In. lia.
      - apply IH; lia. }
    intros k Hk. destruct (H5 k Hk) as (m' & p & M1 & M2 & M3 & M4 & _ & M5 & _). split; auto. split; [apply (G (S k)); auto; lia|].
    intros s Hs. specialize (M5 s ltac:(apply in_or_app; auto)). pose proof small_tol. lra.
Qed.

(** ** Rows that a mask keeps *)
Lemma keep_row (mask : list bool) : forall k, (k < length (filter (fun b => b) mask))%nat ->
  exists j, (k <= j < length mask)%nat /\ nth_error mask j = Some true
    /\ (forall A (l : list A), length l = length mask -> nth_error (keep mask l) k = nth_error l j)
    /\ forall m, (forall i, (i < m)%nat -> nth_error mask i <> Some false) -> (k < m)%nat -> j = k.
Proof.
  induction mask as [|b mask IH]; intros k Hk; [cbn in Hk; lia|].
  destruct b; cbn [filter length] in Hk.
  - destruct k as [|k].
    + exists 0%nat. split; [cbn; lia|]. split; [reflexivity|]. split; [|auto]. intros A [|a l] Hl; [discriminate|reflexivity].
    + destruct (IH k ltac:(lia)) as (j & H1 & H2 & H3 & H4). exists (S j). split; [cbn; lia|]. split; [exact H2|]. split.
      * intros A [|a l] Hl; [discriminate|]. injection Hl as Hl. cbn. apply H3; auto.
      * intros m Hm Hkm. f_equal. apply (H4 (pred m)); [|lia]. intros i Hi. apply (Hm (S i)). lia.
  - destruct (IH k Hk) as (j & H1 & H2 & H3 & H4). exists (S j). split; [cbn; lia|]. split; [exact H2|]. split.
    + intros A [|a l] Hl; [discriminate|]. injection Hl as Hl. cbn. apply H3; auto.
    + intros m Hm Hkm. destruct m as [|m]; [lia|]. exfalso. apply (Hm 0%nat ltac:(lia)). reflexivity.
Qed.

Lemma three_place s : same_place (three_coords s) s.
Proof. intros d Hd. unfold three_coords, gv. destruct d as [|[|[|d]]]; try lia; reflexivity. Qed.
Lemma nth_map {A B} (f : A -> B) l k d d' : (k < length l)%nat -> nth k (map f l) d = f (nth k l d').
Proof. intros H. rewrite (nth_indep _ d (f d')) by (rewrite map_length; auto). apply map_nth. Qed.
Lemma map_row {B} (f : list R -> B) l k d : (k < length l)%nat -> nth k (map f l) d = f (nth k l []).
Proof. intros H. rewrite (nth_indep _ d (f [])) by (rewrite map_length; auto). apply map_nth. Qed.
Lemma keeps_points l regs : length regs = length l -> keeps l regs (map three_coords l) regs.
Proof.
  intros H. split; [rewrite map_length; auto|]. split; [rewrite map_length; auto|]. intros i Hi. split; auto.
  rewrite map_row by auto. apply three_place.
Qed.
