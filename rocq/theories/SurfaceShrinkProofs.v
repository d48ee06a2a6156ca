(** Whatever the checks of the surface spheres do, they change radii only and no radius grows; no assumption is made that
    they succeed. *)
From Coq Require Import Reals Lra.
From Verif Require Import Base Num Vec KdTree SmartTree KdSpec SmartTreeSpec SmartTreeProofs TreeGrow DenseQR Geometry GeometrySpec GeometryProofs
  Spheres SpheresSpec SpheresProofs SpheresOverlapProofs SeedPairs PolyMesh Validate.
Local Open Scope R_scope.

Lemma for_res_Ok {St} (P : St -> Prop) body : forall n lo s s',
  (forall k st st', (lo <= k < lo + n)%nat -> P st -> body k st = Ok st' -> P st') -> P s -> for_res n lo body s = Ok s' -> P s'.
Proof.
  induction n as [|n IH]; intros lo s s' Hb Hs E; cbn [for_res] in E; [injection E as <-; auto|].
  apply bind_Ok_inv in E. destruct E as (s1 & E1 & E). apply (IH (S lo) s1 s'); auto.
  - intros k st st' Hk. apply Hb. lia.
  - apply (Hb lo s s1); auto. lia.
Qed.
Lemma fold_res_Ok {A St} (P : St -> Prop) (f : A -> St -> res St) : forall l s s',
  (forall x st st', In x l -> P st -> f x st = Ok st' -> P st') -> P s -> fold_res f l s = Ok s' -> P s'.
Proof.
  induction l as [|x l IH]; intros s s' Hf Hs E; cbn [fold_res] in E; [injection E as <-; auto|].
  apply bind_Ok_inv in E. destruct E as (s1 & E1 & E). apply (IH s1 s'); auto.
  - intros y st st' Hy. apply Hf. now right.
  - apply (Hf x s s1); auto. now left.
Qed.
Lemma each_Ok {A St} (P : St -> Prop) (f : A -> St -> res St) : forall l s s',
  (forall x st st', In x l -> P st -> f x st = Ok st' -> P st') -> P s -> each f l s = Ok s' -> P s'.
Proof.
  assert (G : forall l r s', fold_left (fun r x => s <- r ;; f x s) l r = Ok s' -> exists s, r = Ok s).
  { induction l as [|x l IH]; intros r s' E; cbn [fold_left] in E; [eauto|].
    destruct (IH _ _ E) as (s & Es). apply bind_Ok_inv in Es. destruct Es as (s1 & -> & _). eauto. }
  induction l as [|x l IH]; intros s s' Hf Hs E; unfold each in *; cbn [fold_left bind] in E; [injection E as <-; auto|].
  destruct (G _ _ _ E) as (s1 & E1). rewrite E1 in E. apply (IH s1 s'); auto.
  - intros y st st' Hy. apply Hf. now right.
  - apply (Hf x s s1); auto. now left.
Qed.

Definition nonneg (s : stree R) : Prop := forall i, (i < count s)%nat -> 0 <= radius s i.
Definition shrinks (s s' : stree R) : Prop :=
  only_radii s s' /\ (nonneg s -> forall i, (i < count s)%nat -> 0 <= radius s' i <= radius s i).
Lemma shrinks_refl s : shrinks s s.
Proof. split; [apply only_radii_refl|]. intros H i Hi. specialize (H i Hi). lra. Qed.
Lemma shrinks_nonneg s s' : shrinks s s' -> nonneg s -> nonneg s'.
Proof. intros (O & H) N i Hi. rewrite (only_radii_count O) in Hi. apply H; auto. Qed.
Lemma shrinks_trans a b c : shrinks a b -> shrinks b c -> shrinks a c.
Proof.
  intros H1 H2. split; [eapply only_radii_trans; [apply H1|apply H2]|]. intros N i Hi.
  pose proof (shrinks_nonneg H1 N) as N2. destruct H1 as (O1 & H1). destruct H2 as (O2 & H2).
  specialize (H1 N i Hi). rewrite <- (only_radii_count O1) in Hi. specialize (H2 N2 i Hi). lra.
Qed.
Lemma shrinks_spheres s s' : shrinks s s' -> spheres s -> spheres s'.
Proof. intros (O & _). now apply only_radii_spheres. Qed.

Lemma set_radius_shrinks s i r s' : spheres s -> set_radius s i r = Ok s' ->
  (nonneg s -> (i < count s)%nat -> 0 <= r <= radius s i) -> shrinks s s'.
Proof.
  intros Hs E Hr. destruct (Nat.lt_ge_cases i (count s)) as [Hi|Hi].
  - destruct (@set_radius_ok s Hs i r Hi) as (s1 & E1 & O & R1 & R2). rewrite E in E1. injection E1 as <-.
    split; auto. intros N k Hk. destruct (Nat.eq_dec k i) as [->|Nk]; [rewrite R1; auto|]. rewrite (R2 k Nk). specialize (N k Hk). lra.
  - exfalso. unfold set_radius in E. apply bind_Ok_inv in E. destruct E as (row & E & _). apply get_Ok in E.
    assert (nth_error (st_pts s) i <> None) by congruence. apply nth_error_Some in H. unfold count in Hi. lia.
Qed.
Lemma get_sphere_lt (s : stree R) i sp : get_sphere s i = Ok sp -> (i < count s)%nat.
Proof.
  intros E. unfold get_sphere in E. apply bind_Ok_inv in E. destruct E as (row & E & _). apply get_Ok in E.
  apply nth_error_Some. congruence.
Qed.
Lemma get_sphere_radius s i sp : spheres s -> get_sphere s i = Ok sp -> gv sp 3%nat = radius s i.
Proof.
  intros Hs E. pose proof (get_sphere_lt _ _ E) as Hi. destruct (@get_sphere_ok s Hs i Hi) as (sp' & E' & _ & H).
  rewrite E in E'. injection E' as <-. apply H. lia.
Qed.
Lemma shrink95 s i sp s' : spheres s -> get_sphere s i = Ok sp -> set_radius s i (nmul (gv sp 3%nat) (nlit 95 2)) = Ok s' -> shrinks s s'.
Proof.
  intros Hs E E'. apply (@set_radius_shrinks s i _ s' Hs E'). intros N Hi. specialize (N i Hi).
  rewrite (@get_sphere_radius s i sp Hs E), nlit95. change nmul with Rmult. lra.
Qed.

(** ** The acceptance test *)
Lemma shrink_corner_shrinks i s s' : spheres s -> shrink_corner i s = Ok s' -> shrinks s s'.
Proof.
  intros Hs. unfold shrink_corner. destruct (Nat.ltb i (st_n s)); [|intros [= <-]; apply shrinks_refl].
  intros E. apply bind_Ok_inv in E. destruct E as (sp & E & E'). eapply shrink95; eauto.
Qed.
Lemma two_corners i1 i2 s s1 s2 : spheres s -> shrink_corner i1 s = Ok s1 -> shrink_corner i2 s1 = Ok s2 -> shrinks s s2.
Proof.
  intros Hs E1 E2. pose proof (@shrink_corner_shrinks _ _ _ Hs E1) as H1. eapply shrinks_trans; [exact H1|].
  eapply shrink_corner_shrinks; [|exact E2]. eapply shrinks_spheres; eauto.
Qed.
Lemma check_edge_shrinks faces pf i1 i2 s wt s' wt' : spheres s -> check_edge faces pf i1 i2 (s, wt) = Ok (s', wt') -> shrinks s s'.
Proof.
  intros Hs E. unfold check_edge in E. apply bind_Ok_inv in E. destruct E as (num & _ & E).
  apply bind_Ok_inv in E. destruct E as ((s1, w1) & E1 & E).
  assert (H1 : shrinks s s1).
  { destruct (Nat.eqb num 1).
    - apply bind_Ok_inv in E1. destruct E1 as (a & Ea & E1). apply bind_Ok_inv in E1. destruct E1 as (b & Eb & E1).
      injection E1 as <- _. eapply two_corners; eauto.
    - injection E1 as <- _. apply shrinks_refl. }
  destruct (Nat.ltb 2 num && _)%bool.
  - apply bind_Ok_inv in E. destruct E as (a & Ea & E). apply bind_Ok_inv in E. destruct E as (b & Eb & E).
    injection E as <- _. eapply shrinks_trans; [exact H1|]. eapply two_corners; [|exact Ea|exact Eb]. eapply shrinks_spheres; eauto.
  - injection E as <- _. exact H1.
Qed.
Lemma validate_shrinks s es cs faces s' wt : spheres s -> validate_surface_mesh s es cs faces = Ok (s', wt) -> shrinks s s'.
Proof.
  intros Hs E. unfold validate_surface_mesh in E. apply bind_Ok_inv in E. destruct E as (pf & _ & E).
  apply (@fold_res_Ok _ _ (fun st => shrinks s (fst st)) _ _ _ _) in E; [exact E| |apply shrinks_refl].
  intros f st st' _ Hst Ef. unfold check_face in Ef.
  apply (@fold_res_Ok _ _ (fun st => shrinks s (fst st)) _ _ _ _) in Ef; auto.
  intros i (a, wa) (b, wb) _ Ha Eb. apply bind_Ok_inv in Eb. destruct Eb as (i1 & _ & Eb). apply bind_Ok_inv in Eb. destruct Eb as (i2 & _ & Eb).
  cbn [fst] in *. eapply shrinks_trans; [exact Ha|]. eapply check_edge_shrinks; [|exact Eb]. eapply shrinks_spheres; eauto.
Qed.

(** ** The seeds *)
Definition wanted (ss : stree R) (l : list (nat * R)) : Prop :=
  forall i r, In (i, r) l -> (i < count ss)%nat -> 0 <= r <= radius ss i.
Lemma record_sliver_wanted ss i r l : ((i < count ss)%nat -> 0 <= r <= radius ss i) -> wanted ss l -> wanted ss (record_sliver i r l).
Proof.
  intros Hr. induction l as [|(j, q) l IH]; intros Hl; cbn [record_sliver].
  - intros j q [[= <- <-]|[]]. auto.
  - destruct (Nat.eqb j i) eqn:Ej.
    + apply Nat.eqb_eq in Ej. subst j. intros j q' [[= <- <-]|Hin] Hj.
      * match goal with |- context [if ?b then _ else _] => destruct b end; auto. apply (Hl i q); auto. now left.
      * apply (Hl j q'); auto. now right.
    + intros j' q' [[= <- <-]|Hin] Hj; [apply (Hl j q); auto; now left|]. apply IH; auto. intros a b Hab. apply Hl. now right.
Qed.
Lemma spheres_at_nth (ss es cs : stree R) : forall l sp, spheres_at ss es cs l = Ok sp ->
  length sp = length l /\ forall m, (m < length l)%nat -> sphere_at ss es cs (nth m l 0%nat) = Ok (nth m sp []).
Proof.
  induction l as [|i l IH]; intros sp E; cbn [spheres_at] in E; [injection E as <-; split; auto; intros m Hm; cbn in Hm; lia|].
  apply bind_Ok_inv in E. destruct E as (a & Ea & E). apply bind_Ok_inv in E. destruct E as (r & Er & E). injection E as <-.
  destruct (IH r Er) as (L & H). split; [cbn; lia|]. intros [|m] Hm; cbn [nth]; auto. apply H. cbn in Hm. lia.
Qed.
Lemma one_sliver_wanted o ss es cs cover l l' : spheres ss -> nonneg ss -> wanted ss l ->
  one_sliver o ss es cs cover l = Ok l' -> wanted ss l'.
Proof.
  intros Hs N Hl E. unfold one_sliver in E. apply bind_Ok_inv in E. destruct E as (sp & Es & E).
  destruct (@spheres_at_nth ss es cs cover sp Es) as (L & Hsp).
  pose proof (@resolve_sliver_ok (length cover) (fun m => gv (nth m sp [])) (fun m => negb (Nat.ltb (nth m cover 0%nat) (st_n ss))) (o_pv o cover) (o_nrm o cover)) as HB.
  destruct (resolve_sliver _ _ _ _ _) as ((w, r), d0). destruct HB as (HB & _).
  destruct (Nat.ltb w (length cover)) eqn:Hw; [|injection E as <-; auto]. apply Nat.ltb_lt in Hw.
  apply bind_Ok_inv in E. destruct E as (i & Ei & E). injection E as <-. apply record_sliver_wanted; auto. intros Hi.
  apply get_Ok in Ei. pose proof (nth_error_nth _ _ 0%nat Ei) as En.
  destruct HB as [(-> & _)|(a & b & c & _ & (_ & _ & _ & _ & _ & Hc) & _ & -> & _)]; [lia|].
  assert (Er : gv (nth w sp []) 3%nat = radius ss i).
  { apply get_sphere_radius; auto. specialize (Hsp w Hw). rewrite En in Hsp. unfold sphere_at in Hsp.
    change (st_n ss) with (count ss) in Hsp. apply Nat.ltb_lt in Hi. rewrite Hi in Hsp. exact Hsp. }
  rewrite Er in Hc.
  assert (0 <= nearer (fun m => gv (nth m sp [])) (up_pt (fun m => gv (nth m sp [])) (o_pv o cover) (o_nrm o cover) a b c)
     (lo_pt (fun m => gv (nth m sp [])) (o_pv o cover) (o_nrm o cover) a b c) w).
  { unfold nearer. apply Rmin_glb; apply vdist_nonneg. }
  assert (0 < 1 / 10 ^ 10) by lra. lra.
Qed.

Lemma shrink_slivers_shrinks ss l ss' b : spheres ss -> nonneg ss -> wanted ss l -> shrink_slivers ss l = Ok (ss', b) ->
  only_radii ss ss' /\ forall i, (i < count ss)%nat -> 0 <= radius ss' i <= radius ss i.
Proof.
  intros Hs N Hl E. unfold shrink_slivers in E.
  apply (@each_Ok _ _ (fun st => only_radii ss (fst st) /\ forall i, (i < count ss)%nat -> 0 <= radius (fst st) i <= radius ss i) _ l) in E.
  - exact E.
  - intros (i, r) (s1, b1) (s2, b2) Hin (O & Hr) Es. cbn [fst] in *. destruct (Nat.ltb i (st_n ss)) eqn:Hi.
    + apply Nat.ltb_lt in Hi. change (st_n ss) with (count ss) in Hi. apply bind_Ok_inv in Es. destruct Es as (s3 & Es & E2). injection E2 as -> _.
      pose proof (@only_radii_spheres ss s1 O Hs) as Hs1.
      assert (Hi1 : (i < count s1)%nat) by (rewrite (only_radii_count O); auto).
      destruct (@set_radius_ok s1 Hs1 i r Hi1) as (s4 & E4 & O4 & R1 & R2). rewrite Es in E4. injection E4 as <-.
      split; [eapply only_radii_trans; eauto|]. intros k Hk. destruct (Nat.eq_dec k i) as [->|Nk]; [rewrite R1; apply (Hl i r); auto|]. rewrite R2; auto.
    + injection Es as <- _. auto.
  - cbn [fst]. split; [apply only_radii_refl|]. intros i Hi. specialize (N i Hi). lra.
Qed.
Lemma shrink_marked_shrinks ss f ss' : spheres ss -> shrink_marked ss f = Ok ss' -> shrinks ss ss'.
Proof.
  intros Hs E. unfold shrink_marked in E. apply (@for_res_Ok _ (fun s => shrinks ss s)) in E; [exact E| |apply shrinks_refl].
  intros k s s' _ Hst Eb. apply bind_Ok_inv in Eb. destruct Eb as (b & _ & Eb). destruct b; [|injection Eb as <-; auto].
  apply bind_Ok_inv in Eb. destruct Eb as (sp & E1 & E2). eapply shrinks_trans; [exact Hst|]. eapply shrink95; eauto. eapply shrinks_spheres; eauto.
Qed.

Lemma add_point_nd {F} `{Num F} need (s : stree F) x nv av s' : add_point need s x nv av = Ok s' -> st_nd s' = st_nd s.
Proof.
  unfold add_point. intros E. repeat (apply bind_Ok_inv in E; destruct E as (? & _ & E)).
  destruct (Nat.eqb (st_n s) 0); [injection E as <-; reflexivity|].
  destruct (st_nrm s), (st_att s); try discriminate. destruct (Nat.ltb _ _); [|discriminate].
  destruct (st_lk s) as (lf, rt). apply bind_Ok_inv in E. destruct E as ((lk, h) & _ & E).
  destruct (need h _); [|injection E as <-; reflexivity]. unfold st_build in E.
  repeat (apply bind_Ok_inv in E; destruct E as (? & _ & E)). 
  repeat match type of E with context [let '(_, _) := ?x in _] => destruct x end. injection E as <-. reflexivity.
Qed.
Lemma add_pair_nd {F} `{Num F} need (u l : stree F) p u' l' : add_pair need u l p = Ok (u', l') -> st_nd u' = st_nd u /\ st_nd l' = st_nd l.
Proof.
  unfold add_pair. intros E. apply bind_Ok_inv in E. destruct E as (li & _ & E). apply bind_Ok_inv in E. destruct E as (ui & _ & E).
  apply bind_Ok_inv in E. destruct E as (l1 & El & E). apply bind_Ok_inv in E. destruct E as (u1 & Eu & E). injection E as <- <-.
  split.
  - destruct (Nat.eqb ui _); [eapply add_point_nd; eauto|injection Eu as <-; auto].
  - destruct (Nat.eqb li _); [eapply add_point_nd; eauto|injection El as <-; auto].
Qed.
Definition fair (ss : stree R) (n m : nat) (g : seeding R) : Prop :=
  st_nd (g_up g) = n /\ st_nd (g_lo g) = m /\ (nonneg ss -> wanted ss (g_sliver g)).
Lemma one_triple_fair o ss es cs L i j k g g' n m : spheres ss -> fair ss n m g -> one_triple o ss es cs L i j k g = Ok g' -> fair ss n m g'.
Proof.
  intros Hs (A & B & C) E. unfold one_triple in E. apply bind_Ok_inv in E. destruct E as (mp & _ & E). destruct mp as [p|]; [|injection E as <-; split; auto].
  apply bind_Ok_inv in E. destruct E as (((cu, cl), cover) & _ & E). cbn beta iota in E. destruct (negb (Bool.eqb cu cl)).
  - apply bind_Ok_inv in E. destruct E as (l' & El & E). injection E as <-. unfold fair. cbn [g_up g_lo g_sliver]. split; auto. split; auto.
    intros N. exact (@one_sliver_wanted _ _ _ _ _ _ _ Hs N (C N) El).
  - destruct (_ && _ && _)%bool; [|injection E as <-; split; auto].
    apply bind_Ok_inv in E. destruct E as ((u, l) & El & E). injection E as <-. apply add_pair_nd in El. destruct El as (U1 & L1).
    unfold fair. cbn [g_up g_lo g_sliver]. rewrite U1, L1. auto.
Qed.
Lemma all_triples_fair o ss es cs L g g' n m : spheres ss -> fair ss n m g -> all_triples o ss es cs L g = Ok g' -> fair ss n m g'.
Proof.
  intros Hs Hg E. unfold all_triples in E. eapply (@for_res_Ok _ (fair ss n m)) in E; [exact E| |exact Hg].
  intros i g1 g2 _ H1 E1. apply bind_Ok_inv in E1. destruct E1 as (a & _ & E1). apply bind_Ok_inv in E1. destruct E1 as (near & _ & E1).
  eapply (@each_Ok _ _ (fair ss n m)) in E1; [exact E1| |exact H1]. intros j g3 g4 _ H3 E3. destruct (Nat.leb j i); [injection E3 as <-; auto|].
  eapply (@each_Ok _ _ (fair ss n m)) in E3; [exact E3| |exact H3]. intros k g5 g6 _ H5 E5. destruct (_ || _)%bool; [injection E5 as <-; auto|].
  eapply one_triple_fair; eauto.
Qed.
Lemma generate_shrinks o ss es cs L ups los ss' u l b : spheres ss -> nonneg ss ->
  generate_surface_seeds o ss es cs L ups los = Ok (ss', u, l, b) ->
  shrinks ss ss' /\ st_nd u = st_nd ups /\ st_nd l = st_nd los.
Proof.
  intros Hs N E. unfold generate_surface_seeds in E. apply bind_Ok_inv in E. destruct E as (g & Eg & E).
  eapply (@all_triples_fair o ss es cs L _ g (st_nd ups) (st_nd los)) in Eg; auto; [|split; auto; split; auto; intros _ ? ? []].
  destruct Eg as (A & B & C). specialize (C N). destruct (g_sliver g) as [|e t].
  - apply bind_Ok_inv in E. destruct E as (st1 & _ & E). apply bind_Ok_inv in E. destruct E as ((f, sh) & _ & E). destruct sh.
    + apply bind_Ok_inv in E. destruct E as (s1 & Es & E). injection E as <- <- <- _. cbn [clear_tree st_nd st_new].
      split; auto. eapply shrink_marked_shrinks; eauto.
    + injection E as <- <- <- _. split; auto. apply shrinks_refl.
  - apply bind_Ok_inv in E. destruct E as ((s1, sh) & Es & E). injection E as <- <- <- _. cbn [clear_tree st_nd st_new].
    destruct (@shrink_slivers_shrinks _ _ _ _ Hs N C Es) as (O & Hr). split; [|auto]. split; auto.
Qed.

(** ** The slope *)
Definition lower (s : stree R) (new : list R) : Prop :=
  length new = count s /\ forall i, (i < count s)%nat -> (nonneg s -> 0 <= nth i new 0) /\ nth i new 0 <= radius s i.
Lemma shrink_lower L s i si : 0 <= L -> spheres s -> forall l st st', shrink L s i si l st = Ok st' -> (nonneg s -> 0 <= fst st) ->
  (nonneg s -> 0 <= fst st') /\ fst st' <= fst st /\ (snd st = true -> snd st' = true) /\ (snd st' = false -> fst st' = fst st).
Proof.
  intros HL Hs. induction l as [|j l IH]; intros st st' E H0; cbn [shrink] in E; [injection E as <-; repeat split; auto; lra|].
  destruct (Nat.eqb j i); [apply IH; auto|]. apply bind_Ok_inv in E. destruct E as (sj & Ej & E).
  pose proof (get_sphere_lt _ _ Ej) as Hj. pose proof (@get_sphere_radius s j sj Hs Ej) as Er.
  set (lr := nadd (gv sj 3%nat) (nmul L (distance 3 (gv si) (gv sj)))) in *.
  destruct (nltb lr (fst st)) eqn:Q.
  - apply Rltb_true in Q. destruct (IH _ _ E) as (A & B & C & D).
    { intros N. cbn [fst]. unfold lr. rewrite Er. specialize (N j Hj). change nadd with Rplus. change nmul with Rmult.
      rewrite distance_R. pose proof (vdist_nonneg 3 (gv si) (gv sj)). nra. }
    cbn [fst snd] in *. split; auto. split; [lra|]. split; [auto|]. intros Hf. rewrite C in Hf; [discriminate|auto].
  - apply (IH _ _ E H0).
Qed.
Lemma shrink_all_lower L s : 0 <= L -> spheres s -> forall ord st st', shrink_all L s ord st = Ok st' -> lower s (fst st) ->
  lower s (fst st') /\ (snd st = true -> snd st' = true) /\ (snd st' = false -> fst st' = fst st).
Proof.
  intros HL Hs. induction ord as [|i ord IH]; intros st st' E Hst; cbn [shrink_all] in E; [injection E as <-; auto|].
  apply bind_Ok_inv in E. destruct E as (si & Ei & E). apply bind_Ok_inv in E. destruct E as (l & _ & E).
  apply bind_Ok_inv in E. destruct E as (r & Er & E). apply bind_Ok_inv in E. destruct E as ((r', ch) & Es & E).
  apply bind_Ok_inv in E. destruct E as (new & En & E). pose proof (get_sphere_lt _ _ Ei) as Hi. destruct Hst as (Hl & Hst).
  apply get_Ok in Er. pose proof (nth_error_nth _ _ 0 Er) as Er'. destruct (Hst i Hi) as (H0 & H1). rewrite Er' in H0, H1.
  apply (@shrink_lower L s i si HL Hs l) in Es; auto. cbn [fst snd] in Es. destruct Es as (A & B & C & D).
  assert (Hlt : (i < length (fst st))%nat) by lia. rewrite set_Ok in En by auto. injection En as <-.
  assert (G : forall k, (k < count s)%nat -> nth k (upd (fst st) i r') 0 = if Nat.eq_dec k i then r' else nth k (fst st) 0).
  { intros k Hk. destruct (Nat.eq_dec k i) as [->|Nk]; [apply nth_error_nth, upd_nth_same; auto|].
    destruct (nth_error_lt (fst st) (i := k)) as (v & Ev); [lia|]. rewrite (nth_error_nth _ _ 0 Ev). apply nth_error_nth. rewrite upd_nth_other; auto. }
  destruct (IH _ _ E) as (I1 & I2 & I3).
  { cbn [fst]. split; [rewrite upd_length; auto|]. intros k Hk. rewrite G by auto. destruct (Nat.eq_dec k i) as [->|Nk]; [|auto]. split; auto. lra. }
  cbn [fst snd] in *. split; auto. split; [auto|]. intros Hf. rewrite (I3 Hf).
  assert (ch = false) by (destruct ch; auto; rewrite I2 in Hf; [discriminate|auto]). rewrite (D H).
  apply list_ext. intros k. destruct (Nat.eq_dec k i) as [->|Nk]; [rewrite upd_nth_same; auto|rewrite upd_nth_other; auto].
Qed.
Lemma write_radii_ok s new : spheres s -> length new = count s ->
  exists s', write_radii s new = Ok s' /\ only_radii s s' /\ forall i, (i < count s)%nat -> radius s' i = nth i new 0.
Proof.
  intros Hs Hl. unfold write_radii.
  destruct (@for_res_inv _ (fun k s' => only_radii s s' /\ forall i, (i < count s)%nat -> radius s' i = if Nat.ltb i k then nth i new 0 else radius s i)
    (st_n s) 0 (fun i s' => r <- get new i ;; set_radius s' i r) s) as (s' & E & O & Hr).
  - split; [apply only_radii_refl|]. intros i Hi. reflexivity.
  - intros k s1 Hk (O & Hr). change (st_n s) with (count s) in Hk. destruct (nth_error_lt new (i := k)) as (v & Ev); [lia|]. rewrite (get_some Ev). cbn [bind].
    assert (Hk1 : (k < count s1)%nat) by (rewrite (only_radii_count O); lia).
    destruct (@set_radius_ok s1 (@only_radii_spheres _ _ O Hs) k v Hk1) as (s2 & E2 & O2 & R1 & R2). exists s2. split; auto.
    split; [eapply only_radii_trans; eauto|]. intros i Hi. destruct (Nat.eq_dec i k) as [->|N].
    + rewrite R1. replace (k <? S k)%nat with true by (symmetry; apply Nat.ltb_lt; lia). symmetry. apply nth_error_nth; auto.
    + rewrite R2 by auto. rewrite Hr by auto. destruct (Nat.ltb_spec i k), (Nat.ltb_spec i (S k)); auto; lia.
  - exists s'. split; auto. split; auto. intros i Hi. rewrite Hr by auto. change (0 + st_n s)%nat with (count s). apply Nat.ltb_lt in Hi. now rewrite Hi.
Qed.
Lemma same_radii s s' : only_radii s s' -> (forall p, In p (st_pts s) -> (4 <= length p)%nat) ->
  (forall i, (i < count s)%nat -> radius s' i = radius s i) -> s' = s.
Proof.
  intros (A1 & A2 & A3 & A4 & A5 & A6 & A7 & A8 & A9 & A10 & A11 & A12) Hl Hr.
  assert (Ep : st_pts s' = st_pts s).
  { apply (nth_ext _ _ [] []); auto. intros n Hn. unfold count in A10. apply (nth_ext _ _ 0 0); auto.
    intros d Hd. destruct (Nat.eq_dec d 3) as [->|N]; [apply (Hr n); unfold count; lia|apply A12; auto]. }
  destruct s, s'. cbn in *. subst. reflexivity.
Qed.
Lemma lip_iter_shrinks L ord : 0 <= L -> forall fuel s new sh s' b, spheres s -> lower s new -> (forall i, (i < count s)%nat -> nth i new 0 = radius s i) ->
  lip_iter fuel L ord s new sh = Ok (s', b) -> shrinks s s' /\ (sh = true -> b = true) /\ (b = false -> s' = s).
Proof.
  intros HL. induction fuel as [|fuel IH]; intros s new sh s' b Hs Hn Heq E; cbn [lip_iter] in E; [discriminate|].
  apply bind_Ok_inv in E. destruct E as ((new1, ch) & E1 & E).
  destruct (@shrink_all_lower L s HL Hs ord _ _ E1 Hn) as (Hn1 & _ & Hc). cbn [fst snd] in *.
  destruct (@write_radii_ok s new1 Hs (proj1 Hn1)) as (s1 & Ew & O & Hr). rewrite Ew in E. cbn [bind] in E.
  assert (H1 : shrinks s s1).
  { split; auto. intros N i Hi. rewrite Hr by auto. split; [apply Hn1; auto|apply Hn1; auto]. }
  destruct ch.
  - apply IH in E.
    + destruct E as (E & Et & Ef). rewrite (Et eq_refl) in *. split; [eapply shrinks_trans; eauto|]. split; auto. discriminate.
    + eapply shrinks_spheres; eauto.
    + destruct Hn1 as (L1 & Hn1). split; [rewrite (only_radii_count O); auto|]. intros i Hi. rewrite (only_radii_count O) in Hi. rewrite Hr by auto.
      split; [|lra]. intros N. rewrite <- Hr by auto. apply N. rewrite (only_radii_count O). auto.
    + intros i Hi. rewrite (only_radii_count O) in Hi. symmetry. auto.
  - injection E as <- <-. split; auto. split; auto. intros _. apply same_radii; auto; [apply Hs|]. intros i Hi. rewrite Hr by auto. rewrite Hc by auto. auto.
Qed.
Lemma radii_from_nth (s : stree R) : spheres s -> forall m i new, radii_from s i m = Ok new -> (i + m <= count s)%nat ->
  length new = m /\ forall k, (k < m)%nat -> nth k new 0 = radius s (i + k).
Proof.
  intros Hs. induction m as [|m IH]; intros i new E Hm; cbn [radii_from] in E; [injection E as <-; split; auto; intros; lia|].
  apply bind_Ok_inv in E. destruct E as (r & Er & E). apply bind_Ok_inv in E. destruct E as (t & Et & E). injection E as <-.
  destruct (IH (S i) t Et) as (L1 & H1); [lia|]. rewrite (@get_radius_ok s Hs i) in Er by lia. injection Er as <-. split; [cbn; lia|].
  intros [|k] Hk; cbn [nth]; [now rewrite Nat.add_0_r|]. rewrite H1 by lia. f_equal. lia.
Qed.
Lemma impose_shrinks fuel L s sh s' b : 0 <= L -> spheres s -> impose_lipschitz fuel L s sh = Ok (s', b) ->
  shrinks s s' /\ (b = false -> s' = s).
Proof.
  intros HL Hs E. unfold impose_lipschitz in E. destruct (Nat.eqb (st_n s) 0); [discriminate|].
  apply bind_Ok_inv in E. destruct E as (new & En & E). apply bind_Ok_inv in E. destruct E as ((ks, ord) & _ & E).
  destruct (@radii_from_nth s Hs _ _ _ En) as (Ln & Hn); [change (st_n s) with (count s); lia|]. change (st_n s) with (count s) in Ln, Hn.
  assert (Heq : forall i, (i < count s)%nat -> nth i new 0 = radius s i) by (intros i Hi; rewrite Hn; auto).
  apply lip_iter_shrinks in E; auto.
  - tauto.
  - split; auto. intros i Hi. rewrite Heq by auto. split; [intros N; apply N; auto|lra].
Qed.
(** More fuel does not change the answer. *)
Lemma lip_iter_more L ord : forall fuel fuel' (s : stree R) new sh r, (fuel <= fuel')%nat -> lip_iter fuel L ord s new sh = Ok r -> lip_iter fuel' L ord s new sh = Ok r.
Proof.
  induction fuel as [|fuel IH]; intros fuel' s new sh r Hf E; cbn [lip_iter] in E; [discriminate|].
  destruct fuel' as [|fuel']; [lia|]. cbn [lip_iter]. apply bind_Ok_inv in E. destruct E as ((new1, ch) & -> & E). cbn [bind].
  apply bind_Ok_inv in E. destruct E as (s1 & -> & E). cbn [bind]. destruct ch; auto. apply IH; auto. lia.
Qed.
Lemma impose_more fuel fuel' L (s : stree R) sh r : (fuel <= fuel')%nat -> impose_lipschitz fuel L s sh = Ok r -> impose_lipschitz fuel' L s sh = Ok r.
Proof.
  unfold impose_lipschitz. intros Hf E. destruct (Nat.eqb (st_n s) 0); auto. apply bind_Ok_inv in E. destruct E as (new & -> & E). cbn [bind].
  apply bind_Ok_inv in E. destruct E as ((ks, ord) & -> & E). cbn [bind]. eapply lip_iter_more; eauto.
Qed.
