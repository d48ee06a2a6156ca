(** Proofs about the generation of the surface seeds: the loops. *)
From Coq Require Import Reals Lra.
From Verif Require Import Base Num Vec KdTree SmartTree KdSpec SmartTreeSpec SmartQueryProofs SmartTreeProofs TreeGrow DenseQR Geometry GeometrySpec GeometryProofs
  Spheres SpheresSpec SpheresProofs SpheresOverlapProofs PropsGeometry SeedPairs SeedPairsSpec SeedPairsProofs SeedCoverProofs.
Local Open Scope R_scope.

Lemma each_ok {A S : Type} (P : S -> Prop) (Rel : S -> S -> Prop) (Q : A -> S -> Prop) (f : A -> S -> res S) :
  (forall s, Rel s s) -> (forall a b c, Rel a b -> Rel b c -> Rel a c) ->
  (forall x s s', P s -> P s' -> Q x s -> Rel s s' -> Q x s') ->
  forall l, (forall x s, In x l -> P s -> exists s', f x s = Ok s' /\ P s' /\ Rel s s' /\ Q x s') ->
  forall s, P s -> exists s', each f l s = Ok s' /\ P s' /\ Rel s s' /\ forall x, In x l -> Q x s'.
Proof.
  intros Rr Rt St. induction l as [|x t IH]; intros Hf s Hs.
  - exists s. split; [reflexivity|]. split; auto. split; auto. intros x [].
  - destruct (Hf x s (or_introl eq_refl) Hs) as (s1 & E1 & P1 & R1 & Q1).
    destruct (IH (fun y s' Hy => Hf y s' (or_intror Hy)) s1 P1) as (s2 & E2 & P2 & R2 & Q2).
    exists s2. split.
    { unfold each in *. cbn [fold_left bind]. rewrite E1. exact E2. }
    split; auto. split; [eapply Rt; eauto|]. intros y [<-|Hy]; eauto.
Qed.

(** * Adding a seed *)
Lemma grown_nrm nd s l : grown nd s l -> l <> [] -> st_nrm s = Some (map it_n l).
Proof. intros (_ & _ & _ & [(-> & _) | (_ & [_ (_ & E & _) _ _ _])]) Hl; [congruence|auto]. Qed.
Definition tree3 (t : stree R) : Prop := exists l, grown 3 t l.
Lemma tree3_new : tree3 (st_new 3). Proof. exists []. apply grown_new. Qed.
Lemma nth_last_app {A} (l : list A) x d : nth (length l) (l ++ [x]) d = x.
Proof. rewrite app_nth2, Nat.sub_diag by lia. reflexivity. Qed.
Lemma add_seed need t x nv av : tree3 t -> (3 <= length x)%nat -> length nv = 3%nat -> hd 0%nat av = length av -> av <> [] ->
  exists t', add_point need t x (Some nv) (Some av) = Ok t' /\ tree3 t' /\ st_pts t' = st_pts t ++ [x]
    /\ record t' (count t) = Some av /\ normal_of t' (count t) = nv
    /\ forall a, (a < count t)%nat -> record t' a = record t a /\ normal_of t' a = normal_of t a.
Proof.
  intros (l & G) Hx Hnv Hav Hne.
  destruct (@grown_add 3 need t l x (Some nv) (Some av)) as (t' & E & G'); auto.
  { split; auto. split; [intros ? [= <-]; lia|]. intros ? [= <-]. split; auto. lia. }
  assert (Ei : item_of 3 x (Some nv) (Some av) = It x nv (Some av)).
  { unfold item_of. f_equal; [|f_equal]; [rewrite <- Hnv at 1; apply firstn_all|rewrite Hav; apply firstn_all]. }
  rewrite Ei in G'. assert (Hne' : l ++ [It x nv (Some av)] <> []) by (destruct l; discriminate).
  assert (Ec : count t = length l) by (rewrite <- (grown_n G); reflexivity).
  exists t'. split; auto. split; [eexists; eauto|]. unfold record, normal_of. rewrite (grown_att G' Hne'), (grown_nrm G' Hne'), !map_app. cbn [map it_x it_n it_a].
  split; [rewrite (grown_pts G'), (grown_pts G), map_app; reflexivity|].
  split; [rewrite Ec, <- (map_length it_a l); apply nth_last_app|].
  split; [rewrite Ec, <- (map_length it_n l); apply nth_last_app|].
  intros a Ha. assert (l <> []) by (intros ->; simpl in Ec; lia). rewrite (grown_att G H), (grown_nrm G H).
  rewrite !app_nth1 by (rewrite map_length; lia). auto.
Qed.

Lemma find_seed_ok t x : tree3 t -> (3 <= length x)%nat ->
  exists c, find_seed t x = Ok c /\ (c <= count t)%nat
    /\ ((c < count t)%nat -> vdist 3 (vec x) (center t c) < 1 / 10 ^ 10)
    /\ (c = count t -> forall a, (a < count t)%nat -> 1 / 10 ^ 10 <= vdist 3 (vec x) (center t a)).
Proof.
  intros (l & G) Hx. pose proof (proj1 G) as End. unfold find_seed.
  destruct (Nat.eq_dec (count t) 0) as [E|E].
  - unfold closest, st_n. unfold count in E. rewrite E. cbn [Nat.eqb bind].
    assert (Rltb (@dbl_max R RNum) (1 / 10 ^ 10) = false).
    { apply Rltb_false. assert (1 <= @dbl_max R RNum) by (apply Rlt_le; cbn [dbl_max RNum]; apply IZR_lt; reflexivity).
      assert (1 / 10 ^ 10 <= 1) by (apply Rmult_le_reg_r with (10 ^ 10); [apply pow_lt; lra|]; unfold Rdiv; rewrite Rmult_assoc, Rinv_l by (apply pow_nonzero; lra); lra). lra. }
    rewrite tol_eq. change nltb with Rltb. rewrite H. exists 0%nat. unfold count. rewrite E. split; [reflexivity|]. split; [lia|]. split; intros; lia.
  - assert (Hl : l <> []) by (intros ->; apply E; unfold count; rewrite (grown_pts G); reflexivity).
    pose proof (grown_ready (nd := 3) (s := t) (l := l) ltac:(lia) G Hl) as Rd.
    destruct (@closest_ok t Rd any x dbl_max) as (b & -> & N); [rewrite End; auto|left; apply dbl_max_pos|]. cbn [bind]. destruct b as (c, h).
    rewrite tol_eq. change nltb with Rltb. unfold count.
    destruct N as [(Eb & N)|(i & Hi & _ & Eb & Hlt & N)].
    + assert (Ec : c = length (st_pts t) /\ h = dbl_max) by (split; [exact (f_equal fst Eb)|exact (f_equal snd Eb)]). destruct Ec as (-> & ->).
      exists (st_n t). split; [destruct (Rltb _ _); reflexivity|]. unfold st_n. split; auto. split; [lia|]. intros _ a Ha.
      specialize (N a). cbn [snd] in N. rewrite dist_to_vdist in N by auto.
      assert (Hb : dbl_max <= vdist 3 (vec x) (center t a)) by (apply N; [apply in_seq; lia|reflexivity]).
      eapply Rle_trans; [|exact Hb]. 
      assert (1 <= @dbl_max R RNum) by (apply Rlt_le; cbn [dbl_max RNum]; apply IZR_lt; reflexivity).
      assert (1 / 10 ^ 10 <= 1) by (apply Rmult_le_reg_r with (10 ^ 10); [apply pow_lt; lra|]; unfold Rdiv; rewrite Rmult_assoc, Rinv_l by (apply pow_nonzero; lra); lra). lra.
    + assert (Ec : c = i /\ h = dist_to t x i) by (split; [exact (f_equal fst Eb)|exact (f_equal snd Eb)]). destruct Ec as (-> & ->). clear Eb.
      apply in_seq in Hi. rewrite dist_to_vdist by auto.
      destruct (Rltb _ _) eqn:Eh; [apply Rltb_true in Eh|apply Rltb_false in Eh]; eexists; (split; [reflexivity|]).
      * split; [lia|]. split; auto. intros; lia.
      * unfold st_n. split; auto. split; [lia|]. intros _ a Ha. eapply Rle_trans; [exact Eh|].
        rewrite <- !dist_to_vdist by auto. apply N; [apply in_seq; lia|reflexivity].
Qed.

Definition extends (t t' : stree R) : Prop := exists l, st_pts t' = st_pts t ++ l.
Lemma extends_refl t : extends t t. Proof. exists []. now rewrite app_nil_r. Qed.
Lemma extends_trans a b c : extends a b -> extends b c -> extends a c.
Proof. intros (l & E) (l' & E'). exists (l ++ l'). now rewrite E', E, app_assoc. Qed.
Lemma extends_center t t' a : extends t t' -> (a < count t)%nat -> (a < count t')%nat /\ nth a (st_pts t') [] = nth a (st_pts t) [] /\ center t' a = center t a.
Proof.
  intros (l & E) Ha. unfold count in *. rewrite E, app_length. split; [lia|]. unfold center, coord. rewrite E, app_nth1; auto.
Qed.
Lemma extends_near t t' x a : extends t t' -> seed_near t x a -> seed_near t' x a.
Proof. intros E (Ha & D). destruct (extends_center E Ha) as (H1 & _ & H2). split; auto. now rewrite H2. Qed.
Lemma vdist_self0 x : vdist 3 x x < 1 / 10 ^ 10.
Proof. rewrite vdist_self. apply ten_pos. Qed.

(** The invariant of the two trees. *)
Definition seeds_inv (acc : nat -> nat -> nat -> pair R -> Prop) (ups los : stree R) : Prop :=
  tree3 ups /\ tree3 los /\ seeds_of acc p_up p_lo ups los /\ seeds_of acc p_lo p_up los ups
  /\ distinct_seeds ups /\ distinct_seeds los /\ (separate acc -> mutual acc ups los).

Lemma center_last t' t x : st_pts t' = st_pts t ++ [x] -> center t' (count t) = vec x /\ count t' = S (count t).
Proof. intros E. unfold center, count, coord. rewrite E, nth_last_app, app_length. simpl. split; [reflexivity|lia]. Qed.

Lemma distinct_add t t' x : st_pts t' = st_pts t ++ [x] -> distinct_seeds t ->
  (forall a, (a < count t)%nat -> 1 / 10 ^ 10 <= vdist 3 (vec x) (center t a)) -> distinct_seeds t'.
Proof.
  intros E D N a b Ha Hb Nab. destruct (@center_last _ _ _ E) as (Cl & Ec). rewrite Ec in Ha, Hb.
  assert (Ex : extends t t') by (eexists; eauto).
  destruct (Nat.eq_dec a (count t)) as [->|Na]; destruct (Nat.eq_dec b (count t)) as [->|Nb]; try lia.
  - rewrite Cl. destruct (@extends_center t t' b Ex) as (_ & _ & ->); [lia|]. apply N. lia.
  - rewrite Cl, vdist_sym. destruct (@extends_center t t' a Ex) as (_ & _ & ->); [lia|]. apply N. lia.
  - destruct (@extends_center t t' b Ex) as (_ & _ & ->); [lia|]. destruct (@extends_center t t' a Ex) as (_ & _ & ->); [lia|]. apply D; lia.
Qed.
Lemma seeds_keep acc this other t u u' : extends u u' -> seeds_of acc this other t u -> seeds_of acc this other t u'.
Proof.
  intros E H a Ha. destruct (H a Ha) as (i & j & k & p & b & x & y & H1 & H2 & H3 & H4 & H5 & H6).
  exists i, j, k, p, b, x, y. repeat split; auto; apply (extends_near E H6).
Qed.
Lemma seeds_add (acc : nat -> nat -> nat -> pair R -> Prop) this other t t' u i j k p b :
  st_pts t' = st_pts t ++ [this p] -> record t' (count t) = Some (record_of_pair p b) -> normal_of t' (count t) = p_nrm p ->
  (forall a, (a < count t)%nat -> record t' a = record t a /\ normal_of t' a = normal_of t a) ->
  seeds_of acc this other t u -> acc i j k p -> (exists x y, p_att p = (i, x, y)) -> seed_near u (vec (other p)) b ->
  seeds_of acc this other t' u.
Proof.
  intros E Er En Hold H Ha (x & y & Ep) Hn a Ha'. destruct (@center_last _ _ _ E) as (_ & Ec). rewrite Ec in Ha'.
  destruct (Nat.eq_dec a (count t)) as [->|Na].
  - exists i, j, k, p, b, x, y. split; auto. split; [unfold count; rewrite E; apply nth_last_app|]. split; auto. split; auto.
    split; auto. rewrite Er. unfold record_of_pair. rewrite Ep. reflexivity.
  - assert (Ha2 : (a < count t)%nat) by lia. destruct (H a Ha2) as (i' & j' & k' & p' & b' & x' & y' & H1 & H2 & H3 & H4 & H5 & H6).
    destruct (Hold a Ha2) as (O1 & O2). exists i', j', k', p', b', x', y'. rewrite O1, O2. repeat split; auto; try apply H6.
    rewrite E, app_nth1; auto.
Qed.

Lemma add_pair_ok (acc : nat -> nat -> nat -> pair R -> Prop) need ups los i j k p :
  (forall i j k p p', acc i j k p -> acc i j k p' -> p = p') ->
  seeds_inv acc ups los -> acc i j k p -> length (p_up p) = 4%nat -> length (p_lo p) = 4%nat -> length (p_nrm p) = 3%nat ->
  (exists x y, p_att p = (i, x, y)) ->
  exists ups' los', add_pair need ups los p = Ok (ups', los') /\ seeds_inv acc ups' los'
    /\ extends ups ups' /\ extends los los' /\ (exists a, seed_near ups' (vec (p_up p)) a) /\ (exists b, seed_near los' (vec (p_lo p)) b).
Proof.
  intros Hdet (Tu & Tl & Su & Sl & Du & Dl & Hmut) Ha Lu Ll Ln Ep. unfold add_pair.
  destruct (@find_seed_ok los (p_lo p) Tl) as (li & -> & Hli & Li1 & Li2); [lia|]. cbn [bind].
  destruct (@find_seed_ok ups (p_up p) Tu) as (ui & -> & Hui & Ui1 & Ui2); [lia|]. cbn [bind].
  assert (Rec : forall b, hd 0%nat (record_of_pair p b) = length (record_of_pair p b) /\ record_of_pair p b <> []).
  { intros b. unfold record_of_pair. destruct (p_att p) as ((a2, a3), a4). split; [reflexivity|discriminate]. }
  change (st_n los) with (count los). change (st_n ups) with (count ups).
  (* lower tree *)
  assert (HL : exists los', (if (li =? count los)%nat then add_point need los (p_lo p) (Some (p_nrm p)) (Some (record_of_pair p ui)) else Ok los) = Ok los'
    /\ tree3 los' /\ extends los los' /\ distinct_seeds los' /\ seed_near los' (vec (p_lo p)) li
    /\ (forall ups', extends ups ups' -> seed_near ups' (vec (p_up p)) ui -> seeds_of acc p_lo p_up los' ups')
    /\ (li <> count los -> los' = los)
    /\ (li = count los -> st_pts los' = st_pts los ++ [p_lo p] /\ record los' (count los) = Some (record_of_pair p ui)
          /\ forall a, (a < count los)%nat -> record los' a = record los a)).
  { destruct (Nat.eqb_spec li (count los)) as [E|N].
    - destruct (@add_seed need los (p_lo p) (p_nrm p) (record_of_pair p ui)) as (los' & Ea & T' & Ept & Er & En & Hold); auto; [lia|apply Rec|apply Rec|].
      exists los'. split; auto. split; auto. split; [eexists; eauto|]. split; [apply (@distinct_add _ _ _ Ept Dl (Li2 E))|].
      split; [destruct (@center_last _ _ _ Ept) as (C1 & C2); split; [lia|]; rewrite E, C1; apply vdist_self0|].
      split; [|split; [congruence|intros _; split; auto; split; auto; intros a Ha'; apply (Hold a Ha')]].
      intros ups' Ex Hn. eapply seeds_add; eauto. eapply seeds_keep; eauto.
    - exists los. split; [reflexivity|]. split; [exact Tl|]. split; [apply extends_refl|]. split; auto. split; [split; [lia|apply Li1; lia]|].
      split; [|split; [auto|congruence]]. intros ups' Ex _. eapply seeds_keep; eauto. }
  destruct HL as (los' & -> & Tl' & El & Dl' & Nl & Hsl & Kl1 & Kl2). cbn [bind].
  assert (HU : exists ups', (if (ui =? count ups)%nat then add_point need ups (p_up p) (Some (p_nrm p)) (Some (record_of_pair p li)) else Ok ups) = Ok ups'
    /\ tree3 ups' /\ extends ups ups' /\ distinct_seeds ups' /\ seed_near ups' (vec (p_up p)) ui
    /\ (forall los', extends los los' -> seed_near los' (vec (p_lo p)) li -> seeds_of acc p_up p_lo ups' los')
    /\ (ui <> count ups -> ups' = ups)
    /\ (ui = count ups -> st_pts ups' = st_pts ups ++ [p_up p] /\ record ups' (count ups) = Some (record_of_pair p li)
          /\ forall a, (a < count ups)%nat -> record ups' a = record ups a)).
  { destruct (Nat.eqb_spec ui (count ups)) as [E|N].
    - destruct (@add_seed need ups (p_up p) (p_nrm p) (record_of_pair p li)) as (ups' & Ea & T' & Ept & Er & En & Hold); auto; [lia|apply Rec|apply Rec|].
      exists ups'. split; auto. split; auto. split; [eexists; eauto|]. split; [apply (@distinct_add _ _ _ Ept Du (Ui2 E))|].
      split; [destruct (@center_last _ _ _ Ept) as (C1 & C2); split; [lia|]; rewrite E, C1; apply vdist_self0|].
      split; [|split; [congruence|intros _; split; auto; split; auto; intros a Ha'; apply (Hold a Ha')]].
      intros los2 Ex Hn. eapply seeds_add; eauto. eapply seeds_keep; eauto.
    - exists ups. split; [reflexivity|]. split; [exact Tu|]. split; [apply extends_refl|]. split; auto. split; [split; [lia|apply Ui1; lia]|].
      split; [|split; [auto|congruence]]. intros los2 Ex _. eapply seeds_keep; eauto. }
  destruct HU as (ups' & -> & Tu' & Eu & Du' & Nu & Hsu & Ku1 & Ku2). cbn [bind].
  exists ups', los'. split; auto. split; [|eauto 10].
  assert (Mut : separate acc -> mutual acc ups' los').
  { intros Hsep. destruct (Hmut Hsep) as (Ec & Hm).
    assert (Hsame : ui = count ups <-> li = count los).
    { split; intros E.
      - destruct (Nat.eq_dec li (count los)) as [E'|N]; auto. exfalso. assert (Hl' : (li < count ups)%nat) by lia.
        destruct (Hm li Hl') as (i' & j' & k' & p' & x & y & A & P1 & P2 & _).
        destruct (Hsep i j k p i' j' k' p' Ha A) as (-> & -> & ->).
        { right. specialize (Li1 ltac:(lia)). unfold center in Li1. unfold coord in Li1. rewrite P2 in Li1. exact Li1. }
        rewrite <- (Hdet _ _ _ _ _ Ha A) in P1. specialize (Ui2 E li Hl'). unfold center, coord in Ui2. rewrite P1 in Ui2.
        fold (vec (p_up p)) in Ui2. pose proof (vdist_self0 (vec (p_up p))) as Z. unfold vec in *. lra.
      - destruct (Nat.eq_dec ui (count ups)) as [E'|N]; auto. exfalso. assert (Hu' : (ui < count ups)%nat) by lia.
        destruct (Hm ui Hu') as (i' & j' & k' & p' & x & y & A & P1 & P2 & _).
        destruct (Hsep i j k p i' j' k' p' Ha A) as (-> & -> & ->).
        { left. specialize (Ui1 Hu'). unfold center in Ui1. unfold coord in Ui1. rewrite P1 in Ui1. exact Ui1. }
        rewrite <- (Hdet _ _ _ _ _ Ha A) in P2. specialize (Li2 E ui ltac:(lia)). unfold center, coord in Li2. rewrite P2 in Li2.
        pose proof (vdist_self0 (vec (p_lo p))) as Z. unfold vec in *. lra. }
    destruct (Nat.eq_dec ui (count ups)) as [E|N].
    - pose proof (proj1 Hsame E) as E'. destruct (Ku2 E) as (Pu & Ru & Ou). destruct (Kl2 E') as (Pl & Rl & Ol).
      destruct (@center_last _ _ _ Pu) as (_ & Cu). destruct (@center_last _ _ _ Pl) as (_ & Cl).
      split; [congruence|]. intros a Haa. rewrite Cu in Haa. destruct (Nat.eq_dec a (count ups)) as [->|Na].
      + destruct Ep as (x & y & Ep). exists i, j, k, p, x, y. split; auto.
        split; [unfold count; rewrite Pu; apply nth_last_app|]. split; [rewrite Ec; unfold count; rewrite Pl; apply nth_last_app|]. split; auto.
        split; [rewrite Ru|rewrite Ec, Rl]; unfold record_of_pair; rewrite Ep; congruence.
      + assert (Ha2 : (a < count ups)%nat) by lia. destruct (Hm a Ha2) as (i' & j' & k' & p' & x & y & A & P1 & P2 & P3 & P4 & P5).
        exists i', j', k', p', x, y. split; auto.
        split; [rewrite Pu, app_nth1; auto|]. split; [rewrite Pl, app_nth1; auto; unfold count in *; lia|]. split; auto.
        rewrite (Ou a Ha2), (Ol a) by lia. auto.
    - rewrite (Ku1 N), Kl1 by tauto. split; auto. }
  unfold seeds_inv. auto 15.
Qed.
