(** Proofs about the pairs of seeds: coverage by other spheres, slivers, adding a pair. *)
From Coq Require Import Reals Lra.
From Verif Require Import Base Num Vec KdTree SmartTree KdSpec SmartTreeSpec DenseQR Geometry GeometrySpec GeometryProofs
  Spheres SpheresSpec SpheresProofs SpheresOverlapProofs PropsGeometry SeedPairs SeedPairsSpec SeedPairsProofs.
Local Open Scope R_scope.


Lemma covering_among_ok s L p si sj sk : sphere_set L s -> forall l, (forall i, In i l -> (i < count s)%nat) ->
  exists l', covering_among s 1 p si sj sk l = Ok l'
    /\ forall i, In i l' <-> In i l /\ i <> si /\ i <> sj /\ i <> sk /\ vdist 3 (vec p) (center s i) < radius s i + 1 / 10 ^ 10.
Proof.
  intros Hs. induction l as [|i t IH]; intros Hl; cbn [covering_among].
  - exists []. split; auto. simpl. tauto.
  - destruct IH as (l' & El & Hl'); [intros; apply Hl; right; auto|].
    assert (Hi : (i < count s)%nat) by (apply Hl; left; auto).
    destruct ((i =? si)%nat || (i =? sj)%nat || (i =? sk)%nat) eqn:E; cbn [bind].
    + rewrite El. cbn [bind app]. exists l'. split; auto. intros j. rewrite Hl'. simpl.
      assert (i = si \/ i = sj \/ i = sk) by (rewrite !Bool.orb_true_iff, !Nat.eqb_eq in E; tauto).
      split; [tauto|]. intros ([<-|Hj] & R); [intuition congruence|auto].
    + rewrite (set_row Hs) by auto. cbn [bind]. rewrite El. cbn [bind].
      rewrite !Bool.orb_false_iff, !Nat.eqb_neq in E. destruct E as ((E1 & E2) & E3).
      rewrite distance_R, tol_eq. change nadd with Rplus. change nmul with Rmult. change nltb with Rltb.
      change (gv (nth i (st_pts s) [])) with (center s i). change (center s i 3%nat) with (radius s i). change (gv p) with (vec p).
      rewrite Rmult_1_l.
      destruct (Rltb _ _) eqn:Eb; [apply Rltb_true in Eb|apply Rltb_false in Eb]; eexists; (split; [reflexivity|]); intros j; simpl; rewrite Hl'.
      * split; [intros [<-|H]; [auto 10|tauto]|]. intros ([<-|Hj] & R); auto.
      * split; [tauto|]. intros ([<-|Hj] & R); [exfalso; destruct R as (_ & _ & _ & R); lra|auto].
Qed.

Definition reachable (s : stree R) (x : nat -> R) : Prop := st_pts s = [] \/ point_at_reach s x.
Lemma pm_covering_ok s L p si sj sk : sphere_set L s -> (3 <= length p)%nat -> reachable s (vec p) ->
  exists l, pm_covering s p L 0 si sj sk = Ok l
    /\ (forall i, In i l -> (i < count s)%nat /\ i <> si /\ i <> sj /\ i <> sk /\ vdist 3 (vec p) (center s i) < radius s i + 1 / 10 ^ 10)
    /\ (0 <= L < 1 -> forall i, (i < count s)%nat -> i <> si -> i <> sj -> i <> sk -> vdist 3 (vec p) (center s i) < radius s i -> In i l).
Proof.
  intros Hs Hp Hr. unfold pm_covering.
  destruct (Nat.eqb_spec (st_n s) 0) as [E|E].
  { exists []. split; auto. split; [intros i []|]. intros _ i Hi. unfold count in Hi. unfold st_n in E. lia. }
  pose proof Hs as (Hnd & [He|Hsp] & Hlip & H4); [unfold st_n in E; rewrite He in E; elim E; reflexivity|].
  destruct Hr as [Hr|Hr]; [unfold st_n in E; rewrite Hr in E; elim E; reflexivity|].
  destruct (@estimate_ok s p L Hsp Hp Hr) as (c & Hc & -> & Hmin). cbn [bind].
  change (@n1 R RNum) with 1. change ndiv with Rdiv. change nsub with Rminus. change nmul with Rmult. change nsqrt with sqrt.
  set (RR := (radius s c + L * vdist 3 (vec p) (center s c)) / (1 - L)).
  destruct (@query_ok s p RR Hsp Hp) as (l & -> & _ & Hl & Hall & _). cbn [bind].
  replace (1 - 0 * 0) with 1 by ring. rewrite sqrt_1.
  destruct (@covering_among_ok s L p si sj sk Hs l Hl) as (l' & -> & Hl'). exists l'. split; auto. split.
  - intros i Hi. apply Hl' in Hi. destruct Hi as (Hi & R). split; auto.
  - intros HL i Hi N1 N2 N3 Hd. apply Hl'. split; [|repeat split; auto; pose proof ten_pos; lra].
    apply Hall; auto. destruct (@found s L (vec p) c i HL Hlip Hc Hi (Hmin i Hi) Hd) as (F & _). fold RR in F. lra.
Qed.

Section Cover.
  Variables ss es cs : stree R.
  Variable L : R.
  Hypothesis Hss : sphere_set L ss.
  Hypothesis Hes : sphere_set L es.
  Hypothesis Hcs : sphere_set L cs.
  Let all := all_spheres ss es cs.
  Hypothesis Hmod : moderate all.
  Hypothesis HL : 0 <= L < 1.

  Lemma dbl_max_half : dbl_max / 4 + dbl_max / 4 < dbl_max.
  Proof. pose proof dbl_max_pos. lra. Qed.
  Lemma on_reach i x m : (i < length all)%nat -> vdist 3 x (centre all i) = rad all i -> (m < length all)%nat -> vdist 3 x (centre all m) < dbl_max.
  Proof.
    intros Hi Hx Hm. destruct (Hmod Hi Hm) as (H1 & H2). pose proof (vdist_triangle 3 x (centre all i) (centre all m)) as T.
    pose proof dbl_max_half. rewrite Hx in T. 
    eapply Rle_lt_trans; [exact T|]. eapply Rle_lt_trans; [|exact H]. apply Rplus_le_compat; [apply H1|exact H2].
  Qed.
  (** The three trees: tree, offset of its numbers, exclusion. *)
  Inductive layer : stree R -> nat -> (nat -> nat) -> Prop :=
  | layer_s : layer ss 0 (in_surface (st_n ss) (st_n es) (st_n cs))
  | layer_e : layer es (st_n ss) (in_edges (st_n ss) (st_n es) (st_n cs))
  | layer_c : layer cs (st_n ss + st_n es) (in_corners (st_n ss) (st_n es) (st_n cs)).
  Lemma layer_set s off f : layer s off f -> sphere_set L s.
  Proof. intros []; auto. Qed.
  Lemma layer_row s off f m : layer s off f -> (m < count s)%nat -> (off + m < length all)%nat /\ nth (off + m) all [] = nth m (st_pts s) [].
  Proof.
    unfold all. rewrite all_len. unfold count. intros [] Hm; unfold st_n in *; (split; [lia|]).
    - apply all_nth_s. auto.
    - apply all_nth_e. auto.
    - apply all_nth_c. auto.
  Qed.
  Lemma layer_f s off f m a : layer s off f -> (m < count s)%nat -> (a < length all)%nat -> m <> f a <-> (off + m)%nat <> a.
  Proof.
    intros Hl Hm Ha. unfold all in Ha. rewrite all_len in Ha. unfold count, st_n in *.
    destruct Hl; unfold in_surface, in_edges, in_corners, st_n in *;
      repeat match goal with |- context [Nat.ltb ?a ?b] => destruct (Nat.ltb_spec a b) | |- context [Nat.leb ?a ?b] => destruct (Nat.leb_spec a b) end; cbn [orb]; lia.
  Qed.
  Lemma layer_of m : (m < length all)%nat -> exists s off f q, layer s off f /\ (q < count s)%nat /\ m = (off + q)%nat.
  Proof.
    unfold all. rewrite all_len. intros Hm. unfold count.
    destruct (Nat.lt_ge_cases m (st_n ss)); [exists ss, 0%nat, (in_surface (st_n ss) (st_n es) (st_n cs)), m; repeat split; auto; constructor|].
    destruct (Nat.lt_ge_cases m (st_n ss + st_n es)).
    - eexists es, _, _, (m - st_n ss)%nat. split; [constructor|]. unfold st_n in *. split; lia.
    - eexists cs, _, _, (m - (st_n ss + st_n es))%nat. split; [constructor|]. unfold st_n in *. split; lia.
  Qed.
  Definition hits (i j k : nat) (p : list R) (m : nat) : Prop := others all i j k m /\ vdist 3 (vec p) (centre all m) < rad all m + 1 / 10 ^ 10.
  Lemma layer_ok s off f i j k p : layer s off f ->
    (i < length all)%nat -> (j < length all)%nat -> (k < length all)%nat -> (3 <= length p)%nat -> vdist 3 (vec p) (centre all i) = rad all i ->
    exists l, pm_covering s p L 0 (f i) (f j) (f k) = Ok l
      /\ (forall m, In m (map (Nat.add off) l) -> hits i j k p m)
      /\ (l = [] -> forall q, (q < count s)%nat -> others all i j k (off + q) -> ~ vdist 3 (vec p) (centre all (off + q)) < rad all (off + q)).
  Proof.
    intros Hl Hi Hj Hk Hp On.
    assert (Hc : forall q, (q < count s)%nat -> center s q = centre all (off + q) /\ radius s q = rad all (off + q)).
    { intros q Hq. destruct (layer_row Hl Hq) as (_ & E). unfold center, radius, centre, rad, coord. rewrite E. auto. }
    destruct (@pm_covering_ok s L p (f i) (f j) (f k) (layer_set Hl) Hp) as (l & E & H1 & H2).
    { destruct (st_pts s) eqn:Es; [left; auto|right]. exists 0%nat. unfold count. rewrite Es. split; [simpl; lia|].
      assert (H0 : (0 < count s)%nat) by (unfold count; rewrite Es; simpl; lia).
      destruct (Hc _ H0) as (-> & _). apply (@on_reach i); auto. apply (layer_row Hl H0). }
    exists l. split; auto. split.
    - intros m Hm. apply in_map_iff in Hm as (q & <- & Hq). destruct (H1 q Hq) as (Hq' & N1 & N2 & N3 & D).
      destruct (Hc _ Hq') as (C1 & C2). rewrite C1, C2 in D. split; auto. unfold others.
      rewrite <- (@layer_f s off f q i), <- (@layer_f s off f q j), <- (@layer_f s off f q k) by auto. split; auto. apply (layer_row Hl Hq').
    - intros -> q Hq (_ & N1 & N2 & N3) D. destruct (Hc _ Hq) as (C1 & C2). rewrite <- C1, <- C2 in D.
      apply (H2 HL q Hq); auto; apply (@layer_f s off f q _ Hl Hq); auto.
  Qed.

  Lemma coverage_ok i j k up lo :
    (i < length all)%nat -> (j < length all)%nat -> (k < length all)%nat -> (3 <= length up)%nat -> (3 <= length lo)%nat ->
    vdist 3 (vec up) (centre all i) = rad all i -> vdist 3 (vec lo) (centre all i) = rad all i ->
    exists cu cl cover, coverage ss es cs L i j k up lo = Ok (cu, cl, cover)
      /\ (forall m, In m cover -> hits i j k up m \/ hits i j k lo m)
      /\ (cu = true -> exists m, In m cover /\ hits i j k up m) /\ (cl = true -> exists m, In m cover /\ hits i j k lo m)
      /\ (cu = false -> ~ buried all i j k (vec up) 0) /\ (cl = false -> ~ buried all i j k (vec lo) 0).
  Proof.
    intros Hi Hj Hk Hup Hlo Ou Ol. unfold coverage. change (@n0 R RNum) with 0.
    destruct (@layer_ok _ _ _ i j k up layer_s) as (u1 & -> & U1 & V1); auto. cbn [bind].
    destruct (@layer_ok _ _ _ i j k lo layer_s) as (l1 & -> & L1 & M1); auto. cbn [bind].
    assert (X2 : exists u2, (if nonempty u1 then Ok [] else pm_covering es up L 0 (in_edges (st_n ss) (st_n es) (st_n cs) i) (in_edges (st_n ss) (st_n es) (st_n cs) j) (in_edges (st_n ss) (st_n es) (st_n cs) k)) = Ok u2
      /\ (forall m, In m (map (Nat.add (st_n ss)) u2) -> hits i j k up m)
      /\ (u1 = [] -> u2 = [] -> forall q, (q < count es)%nat -> others all i j k (st_n ss + q) -> ~ vdist 3 (vec up) (centre all (st_n ss + q)) < rad all (st_n ss + q))).
    { destruct u1; cbn [nonempty]; [|exists []; split; [auto|]; split; [intros m []|discriminate]].
      destruct (@layer_ok _ _ _ i j k up layer_e) as (u2 & -> & A & B); auto. eauto. }
    destruct X2 as (u2 & -> & U2 & V2). cbn [bind].
    assert (X2 : exists l2, (if nonempty l1 then Ok [] else pm_covering es lo L 0 (in_edges (st_n ss) (st_n es) (st_n cs) i) (in_edges (st_n ss) (st_n es) (st_n cs) j) (in_edges (st_n ss) (st_n es) (st_n cs) k)) = Ok l2
      /\ (forall m, In m (map (Nat.add (st_n ss)) l2) -> hits i j k lo m)
      /\ (l1 = [] -> l2 = [] -> forall q, (q < count es)%nat -> others all i j k (st_n ss + q) -> ~ vdist 3 (vec lo) (centre all (st_n ss + q)) < rad all (st_n ss + q))).
    { destruct l1; cbn [nonempty]; [|exists []; split; [auto|]; split; [intros m []|discriminate]].
      destruct (@layer_ok _ _ _ i j k lo layer_e) as (l2 & -> & A & B); auto. eauto. }
    destruct X2 as (l2 & -> & L2 & M2). cbn [bind].
    assert (X3 : exists u3, (if nonempty u1 || nonempty u2 then Ok [] else pm_covering cs up L 0 (in_corners (st_n ss) (st_n es) (st_n cs) i) (in_corners (st_n ss) (st_n es) (st_n cs) j) (in_corners (st_n ss) (st_n es) (st_n cs) k)) = Ok u3
      /\ (forall m, In m (map (Nat.add (st_n ss + st_n es)) u3) -> hits i j k up m)
      /\ (u1 = [] -> u2 = [] -> u3 = [] -> forall q, (q < count cs)%nat -> others all i j k (st_n ss + st_n es + q) -> ~ vdist 3 (vec up) (centre all (st_n ss + st_n es + q)) < rad all (st_n ss + st_n es + q))).
    { destruct u1, u2; cbn [nonempty orb]; try (exists []; split; [auto|]; split; [intros m []|discriminate]).
      destruct (@layer_ok _ _ _ i j k up layer_c) as (u3 & -> & A & B); auto. eauto. }
    destruct X3 as (u3 & -> & U3 & V3). cbn [bind].
    assert (X3 : exists l3, (if nonempty l1 || nonempty l2 then Ok [] else pm_covering cs lo L 0 (in_corners (st_n ss) (st_n es) (st_n cs) i) (in_corners (st_n ss) (st_n es) (st_n cs) j) (in_corners (st_n ss) (st_n es) (st_n cs) k)) = Ok l3
      /\ (forall m, In m (map (Nat.add (st_n ss + st_n es)) l3) -> hits i j k lo m)
      /\ (l1 = [] -> l2 = [] -> l3 = [] -> forall q, (q < count cs)%nat -> others all i j k (st_n ss + st_n es + q) -> ~ vdist 3 (vec lo) (centre all (st_n ss + st_n es + q)) < rad all (st_n ss + st_n es + q))).
    { destruct l1, l2; cbn [nonempty orb]; try (exists []; split; [auto|]; split; [intros m []|discriminate]).
      destruct (@layer_ok _ _ _ i j k lo layer_c) as (l3 & -> & A & B); auto. eauto. }
    destruct X3 as (l3 & -> & L3 & M3). cbn [bind].
    set (cover := u1 ++ l1 ++ map (Nat.add (st_n ss)) (u2 ++ l2) ++ map (Nat.add (st_n ss + st_n es)) (u3 ++ l3)).
    assert (M0 : forall l : list nat, map (Nat.add 0) l = l) by (induction l; simpl; f_equal; auto).
    rewrite M0 in U1. rewrite M0 in L1.
    assert (IC : forall m, In m cover <-> In m u1 \/ In m l1 \/ (In m (map (Nat.add (st_n ss)) u2) \/ In m (map (Nat.add (st_n ss)) l2))
                      \/ In m (map (Nat.add (st_n ss + st_n es)) u3) \/ In m (map (Nat.add (st_n ss + st_n es)) l3)).
    { intros m. unfold cover. rewrite !map_app, !in_app_iff. tauto. }
    eexists _, _, cover. split; [reflexivity|]. split; [|split; [|split; [|split]]].
    - intros m Hm. apply IC in Hm. intuition.
    - intros E. destruct u1 as [|m u1]; [|exists m; split; [apply IC; left; left; auto|apply U1; left; auto]].
      destruct u2 as [|m u2]; [|exists (st_n ss + m)%nat; split; [apply IC; right; right; left; left; left; auto|apply U2; left; auto]].
      destruct u3 as [|m u3]; [discriminate|exists (st_n ss + st_n es + m)%nat; split; [apply IC; right; right; right; left; left; auto|apply U3; left; auto]].
    - intros E. destruct l1 as [|m l1]; [|exists m; split; [apply IC; right; left; left; auto|apply L1; left; auto]].
      destruct l2 as [|m l2]; [|exists (st_n ss + m)%nat; split; [apply IC; right; right; left; right; left; auto|apply L2; left; auto]].
      destruct l3 as [|m l3]; [discriminate|exists (st_n ss + st_n es + m)%nat; split; [apply IC; right; right; right; right; left; auto|apply L3; left; auto]].
    - intros E (m & Ho & D). rewrite Rplus_0_r in D. destruct u1; [|discriminate]. destruct u2; [|discriminate]. destruct u3; [|discriminate].
      destruct (layer_of (proj1 Ho)) as (s & off & f & q & Hl & Hq & ->). destruct Hl; [exact (V1 eq_refl q Hq Ho D)|exact (V2 eq_refl eq_refl q Hq Ho D)|exact (V3 eq_refl eq_refl eq_refl q Hq Ho D)].
    - intros E (m & Ho & D). rewrite Rplus_0_r in D. destruct l1; [|discriminate]. destruct l2; [|discriminate]. destruct l3; [|discriminate].
      destruct (layer_of (proj1 Ho)) as (s & off & f & q & Hl & Hq & ->). destruct Hl; [exact (M1 eq_refl q Hq Ho D)|exact (M2 eq_refl eq_refl q Hq Ho D)|exact (M3 eq_refl eq_refl eq_refl q Hq Ho D)].
  Qed.
End Cover.
