(** Proofs about Spheres.v: Lipschitz radii. *)
From Verif Require Import Base Num MemoryHandler SortSpec MemoryHandlerProofs DenseQR KdTree SamplingSpec SamplingProofs Vec KdSpec
  KdTreeProofs KdBuildProofs KdQueryProofs SmartTree SmartTreeSpec SmartTreeProofs SmartQueryProofs
  Geometry GeometryProofs Spheres SpheresSpec SpheresProofs.
From Coq Require Import Reals Lra.
Local Open Scope R_scope.

Lemma gap_nonneg s i j : 0 <= gap s i j.
Proof. apply vdist_nonneg. Qed.
Lemma gap_sym s i j : gap s i j = gap s j i.
Proof. apply vdist_sym. Qed.
Lemma gap_self s i : gap s i i = 0.
Proof. apply vdist_self. Qed.
Lemma gap_triangle s i j k : gap s i k <= gap s i j + gap s j k.
Proof. apply vdist_triangle. Qed.
Lemma Lgap L s i j : 0 <= L -> 0 <= L * gap s i j.
Proof. intros. apply Rmult_le_pos; auto. apply gap_nonneg. Qed.

(** ** The largest radii with slope L *)
Lemma min_exists (f : nat -> R) n : (0 < n)%nat ->
  exists j, (j < n)%nat /\ forall k, (k < n)%nat -> f j <= f k.
Proof.
  induction n as [|n IH]; intros Hn; [lia|]. destruct n as [|n].
  - exists 0%nat. split; auto. intros k Hk. replace k with 0%nat by lia. lra.
  - destruct IH as (j & Hj & Hm); [lia|]. destruct (Rle_lt_dec (f j) (f (S n))).
    + exists j. split; [lia|]. intros k Hk. destruct (Nat.eq_dec k (S n)) as [->|N]; auto. apply Hm; lia.
    + exists (S n). split; [lia|]. intros k Hk. destruct (Nat.eq_dec k (S n)) as [->|N]; [lra|].
      assert (f j <= f k) by (apply Hm; lia). lra.
Qed.
Lemma hull_exists L s i : (0 < count s)%nat -> exists v, hull L s i v.
Proof.
  intros Hn. destruct (min_exists (fun j => radius s j + L * gap s i j) Hn) as (j & Hj & Hm).
  exists (radius s j + L * gap s i j). split; [eauto|auto].
Qed.
Lemma hull_lip L s i j u v : 0 <= L -> hull L s i u -> hull L s j v -> u <= v + L * gap s i j.
Proof.
  intros HL (_ & Hu) ((k & Hk & ->) & _). specialize (Hu k Hk).
  pose proof (gap_triangle s i j k). assert (L * gap s i k <= L * (gap s i j + gap s j k)) by (apply Rmult_le_compat_l; auto).
  lra.
Qed.
Lemma hull_le L s i v : hull L s i v -> (i < count s)%nat -> v <= radius s i.
Proof. intros (_ & H) Hi. specialize (H i Hi). rewrite gap_self in H. lra. Qed.
Lemma lipschitz_hull L s i : lipschitz L s -> (i < count s)%nat -> hull L s i (radius s i).
Proof.
  intros H Hi. split; [|intros; apply H; auto]. exists i. split; auto. rewrite gap_self. lra.
Qed.

(** ** Brute force *)
Lemma sphere_gap s si sj i j :
  (forall d, (d < 4)%nat -> gv si d = coord (st_pts s) i d) -> (forall d, (d < 4)%nat -> gv sj d = coord (st_pts s) j d) ->
  distance 3 (gv si) (gv sj) = gap s i j.
Proof. intros A B. rewrite distance_R. apply vdist_ext; intros; [apply A|apply B]; lia. Qed.

Lemma relax_ok L s ch i j : spheres s -> 0 <= L -> (i < count s)%nat -> (j < count s)%nat -> i <> j ->
  exists s' ch', relax L i j (s, ch) = Ok (s', ch') /\ only_radii s s'
    /\ radius s' i = Rmin (radius s i) (radius s j + L * gap s i j)
    /\ radius s' j = Rmin (radius s j) (radius s i + L * gap s i j)
    /\ (forall k, k <> i -> k <> j -> radius s' k = radius s k)
    /\ ((ch' = ch /\ s' = s) \/ (ch' = true /\ exists k, (k < count s)%nat /\ radius s' k < radius s k)).
Proof.
  intros Hs HL Hi Hj Nij. unfold relax.
  destruct (get_sphere_ok Hs Hi) as (si & -> & _ & Gi). destruct (get_sphere_ok Hs Hj) as (sj & -> & _ & Gj).
  cbn [bind]. rewrite (@sphere_gap s si sj i j Gi Gj). rewrite (Gi 3%nat), (Gj 3%nat) by lia. rewrite nmin_R.
  change (coord (st_pts s) i 3) with (radius s i). change (coord (st_pts s) j 3) with (radius s j).
  change nadd with Rplus. change nmul with Rmult. cbn [nltb RNum].
  pose proof (Lgap s i j HL) as Hg. set (g := L * gap s i j) in *.
  destruct (Rltb (Rmin (radius s i) (radius s j) + g) (radius s i)) eqn:Ei.
  - apply Rltb_true in Ei. assert (Hlt : radius s j < radius s i).
    { revert Ei. unfold Rmin. destruct (Rle_dec _ _); lra. }
    rewrite Rmin_right in * by lra.
    destruct (@set_radius_ok s Hs i (radius s j + g) Hi) as (s' & -> & O & R1 & R2). cbn [bind].
    destruct (Rltb (radius s j + g) (radius s j)) eqn:Ej; [apply Rltb_true in Ej; lra|].
    exists s', true. split; auto. split; auto. rewrite R1, (R2 j) by auto.
    rewrite Rmin_right, Rmin_left by lra. split; auto. split; auto. split; [intros; apply R2; auto|].
    right. split; auto. exists i. rewrite R1. split; auto; lra.
  - apply Rltb_false in Ei. cbn [bind].
    destruct (Rltb (Rmin (radius s i) (radius s j) + g) (radius s j)) eqn:Ej.
    + apply Rltb_true in Ej. assert (Hlt : radius s i < radius s j).
      { revert Ej. unfold Rmin. destruct (Rle_dec _ _); lra. }
      rewrite Rmin_left in * by lra.
      destruct (@set_radius_ok s Hs j (radius s i + g) Hj) as (s' & -> & O & R1 & R2). cbn [bind].
      exists s', true. split; auto. split; auto. rewrite R1, (R2 i) by auto.
      rewrite Rmin_left, Rmin_right by lra. split; auto. split; auto. split; [intros; apply R2; auto|].
      right. split; auto. exists j. rewrite R1. split; auto; lra.
    + apply Rltb_false in Ej. exists s, ch. split; auto. split; [apply only_radii_refl|].
      assert (radius s i <= radius s j + g) by (revert Ei; unfold Rmin; destruct (Rle_dec _ _); lra).
      assert (radius s j <= radius s i + g) by (revert Ej; unfold Rmin; destruct (Rle_dec _ _); lra).
      rewrite !Rmin_left by lra. auto 10.
Qed.

Section Sweep.
  Variables (L : R) (s0 : stree R).
  Hypothesis HL : 0 <= L.
  Hypothesis H0 : spheres s0.
  Let n := count s0.

  (** What every step of a pass keeps. *)
  Definition base (st : stree R * bool) : Prop :=
    only_radii s0 (fst st)
    /\ (forall k, (k < n)%nat -> radius (fst st) k <= radius s0 k)
    /\ (forall k v, (k < n)%nat -> hull L s0 k v -> v <= radius (fst st) k)
    /\ (if snd st then exists k, (k < n)%nat /\ radius (fst st) k < radius s0 k else fst st = s0).
  Definition paired (st : stree R * bool) (a b : nat) : Prop :=
    radius (fst st) a <= radius s0 b + L * gap s0 a b /\ radius (fst st) b <= radius s0 a + L * gap s0 a b.

  Lemma relax_base st i j : base st -> (i < n)%nat -> (j < n)%nat -> i <> j ->
    exists st', relax L i j st = Ok st' /\ base st' /\ paired st' i j
      /\ forall a b, (a < n)%nat -> (b < n)%nat -> paired st a b -> paired st' a b.
  Proof.
    destruct st as [s ch]. intros (O & Hle & Hh & Hch) Hi Hj Nij. cbn [fst snd] in *.
    pose proof (only_radii_spheres O H0) as Hs. pose proof (only_radii_count O) as Hc. fold n in Hc.
    destruct (@relax_ok L s ch i j) as (s' & ch' & E & O' & Ri & Rj & Rk & Hc'); auto; try lia.
    rewrite !(only_radii_gap i j O) in Ri, Rj.
    assert (Hdec : forall k, (k < n)%nat -> radius s' k <= radius s k).
    { intros k Hk. destruct (Nat.eq_dec k i) as [->|Ni]; [rewrite Ri; apply Rmin_l|].
      destruct (Nat.eq_dec k j) as [->|Nj]; [rewrite Rj; apply Rmin_l|]. rewrite Rk; auto. lra. }
    exists (s', ch'). split; auto. unfold base, paired. cbn [fst snd].
    split; [split; [eapply only_radii_trans; eauto|split; [|split]]|split].
    - intros k Hk. specialize (Hdec k Hk). specialize (Hle k Hk). lra.
    - intros k v Hk Hv. destruct (Nat.eq_dec k i) as [->|Ni].
      + rewrite Ri. apply Rmin_glb; [apply Hh; auto|].
        destruct (@hull_exists L s0 j) as (w & Hw); [lia|]. pose proof (hull_lip HL Hv Hw). pose proof (Hh j w Hj Hw). lra.
      + destruct (Nat.eq_dec k j) as [->|Nj].
        * rewrite Rj. apply Rmin_glb; [apply Hh; auto|].
          destruct (@hull_exists L s0 i) as (w & Hw); [lia|]. pose proof (hull_lip HL Hv Hw). pose proof (Hh i w Hi Hw).
          rewrite (gap_sym s0 i j). lra.
        * rewrite Rk; auto.
    - destruct Hc' as [(-> & ->)|(-> & k & Hk & Hlt)]; auto.
      exists k. split; [lia|]. assert (radius s k <= radius s0 k) by (apply Hle; lia). lra.
    - rewrite Ri, Rj. pose proof (Hle i Hi). pose proof (Hle j Hj).
      pose proof (Rmin_r (radius s i) (radius s j + L * gap s0 i j)).
      pose proof (Rmin_r (radius s j) (radius s i + L * gap s0 i j)). lra.
    - intros a b Ha Hb (P1 & P2). pose proof (Hdec a Ha). pose proof (Hdec b Hb). lra.
  Qed.

  Lemma sweep_ok : exists s' ch, sweep L s0 = Ok (s', ch) /\ base (s', ch)
    /\ forall i, (i < n)%nat -> hull L s0 i (radius s' i).
  Proof.
    unfold sweep. change (st_n s0) with n.
    destruct (@for_res_inv (stree R * bool)
      (fun i st => base st /\ forall a b, (a < b)%nat -> (a < i)%nat -> (b < n)%nat -> paired st a b)
      n 0 (fun i => for_res (n - S i) (S i) (relax L i)) (s0, false)) as ((s' & ch) & E & B & P).
    - split; [|intros; lia]. split; [apply only_radii_refl|]. cbn [fst snd]. split; [intros; lra|].
      split; auto. intros k v Hk Hv. apply (hull_le Hv Hk).
    - intros i st Hi (B & P).
      destruct (@for_res_inv (stree R * bool)
        (fun k st => base st /\ (forall a b, (a < b)%nat -> (a < i)%nat -> (b < n)%nat -> paired st a b)
           /\ forall b, (i < b)%nat -> (b < k)%nat -> paired st i b)
        (n - S i) (S i) (relax L i) st) as (st' & E & B' & P' & Q').
      + split; auto. split; auto. intros; lia.
      + intros k st1 Hk (B1 & P1 & Q1).
        destruct (@relax_base st1 i k B1) as (st2 & E2 & B2 & Pk & Keep); try lia.
        exists st2. split; auto. split; auto. split.
        * intros a b Hab Ha Hb. apply Keep; auto. lia.
        * intros b Hb Hb'. destruct (Nat.eq_dec b k) as [->|Nb]; auto. apply Keep; try lia. apply Q1; lia.
      + exists st'. split; auto. split; auto. intros a b Hab Ha Hb.
        destruct (Nat.eq_dec a i) as [->|Na]; [apply Q'; lia|apply P'; lia].
    - exists s', ch. split; auto. split; auto. intros i Hi.
      destruct B as (O & Hle & Hh & _). cbn [fst] in *.
      assert (A : forall j, (j < n)%nat -> radius s' i <= radius s0 j + L * gap s0 i j).
      { intros j Hj. destruct (lt_eq_lt_dec i j) as [[Hl| ->]|Hl].
        - apply (P i j); lia.
        - rewrite gap_self. specialize (Hle j Hj). lra.
        - rewrite gap_sym. apply (P j i); lia. }
      destruct (@hull_exists L s0 i) as (v & Hv); [fold n; lia|].
      assert (radius s' i = v) as ->; auto.
      apply Rle_antisym; [|apply Hh; auto]. destruct Hv as ((j & Hj & ->) & _). apply A; auto.
  Qed.
End Sweep.

Lemma hull_lipschitz L s s' : 0 <= L -> only_radii s s' -> (forall i, (i < count s)%nat -> hull L s i (radius s' i)) ->
  lipschitz L s'.
Proof.
  intros HL O Hh i j Hi Hj. rewrite (only_radii_count O) in *. rewrite (only_radii_gap i j O).
  apply (hull_lip HL (Hh i Hi) (Hh j Hj)).
Qed.

Lemma sweep_lipschitz L s : 0 <= L -> spheres s -> lipschitz L s -> sweep L s = Ok (s, false).
Proof.
  intros HL Hs HLip. destruct (@sweep_ok L s HL Hs) as (s' & ch & E & (O & Hle & Hh & Hch) & _).
  cbn [fst snd] in *. destruct ch; [|now subst].
  destruct Hch as (k & Hk & Hlt). specialize (Hh k (radius s k) Hk (lipschitz_hull HLip Hk)). lra.
Qed.

Lemma brute_ok L s fuel : 0 <= L -> spheres s -> (2 <= fuel)%nat ->
  exists s' b, impose_lipschitz_brute fuel L s = Ok (s', b) /\ only_radii s s'
    /\ (forall i, (i < count s)%nat -> hull L s i (radius s' i))
    /\ (if b then exists k, (k < count s)%nat /\ radius s' k < radius s k else s' = s).
Proof.
  intros HL Hs Hf. destruct fuel as [|[|f]]; [lia|lia|]. unfold impose_lipschitz_brute. cbn [brute].
  destruct (@sweep_ok L s HL Hs) as (s' & ch & -> & (O & Hle & Hh & Hch) & Hull). cbn [bind fst snd] in *.
  destruct ch.
  - rewrite (@sweep_lipschitz L s' HL); [|eapply only_radii_spheres; eauto|eapply hull_lipschitz; eauto].
    cbn [bind]. exists s', true. auto.
  - exists s', false. auto.
Qed.

(** ** The version with range queries *)
Lemma get_x_ext (x x' : list R) d nd : (d < nd)%nat -> (nd <= length x)%nat -> (nd <= length x')%nat ->
  vec x d = vec x' d -> get x d = get x' d.
Proof.
  intros Hd Hx Hx' E. destruct (nth_error_lt x (i := d)) as [a Ea]; [lia|]. destruct (nth_error_lt x' (i := d)) as [b Eb]; [lia|].
  rewrite (get_some Ea), (get_some Eb). f_equal. unfold vec in E.
  rewrite (nth_error_nth x d 0 Ea), (nth_error_nth x' d 0 Eb) in E. auto.
Qed.

Section Mono.
  Variables (crd crd' : nat -> nat -> res R) (nd : nat) (lk : links) (elig : nat -> res bool).
  Hypothesis nd_pos : (0 < nd)%nat.
  Hypothesis crd_eq : forall i d, (d < nd)%nat -> crd i d = crd' i d.
  Variables (x x' : list R).
  Hypothesis x_eq : forall d, (d < nd)%nat -> get x d = get x' d.

  Lemma dst_sq_from_eq node : forall m k, (k + m <= nd)%nat -> forall a, dst_sq_from crd x node k m a = dst_sq_from crd' x' node k m a.
  Proof.
    induction m as [|m IH]; intros k Hk a; cbn [dst_sq_from]; auto.
    rewrite x_eq by lia. destruct (get x' k); cbn [bind]; auto. rewrite crd_eq by lia.
    destruct (crd' node k); cbn [bind]; auto. apply IH. lia.
  Qed.
  Lemma wrap_lt d : (d <= nd)%nat -> (wrap nd d < nd)%nat.
  Proof. unfold wrap. destruct (d =? nd)%nat eqn:E; intros; [lia|]. apply Nat.eqb_neq in E. lia. Qed.

  Lemma in_sphere_acc (crd0 : nat -> nat -> res R) fuel acpt y r : forall d node acc out,
    in_sphere crd0 nd lk fuel elig acpt y r d node acc = Ok out -> incl acc out.
  Proof.
    induction fuel as [|f IH]; intros d node acc out E; [discriminate|]. cbn [in_sphere] in E. cbn zeta in E.
    apply bind_Ok_inv in E as (e & _ & E). apply bind_Ok_inv in E as (a1 & E1 & E).
    assert (I1 : incl acc a1).
    { destruct e; [|injection E1 as <-; apply incl_refl]. apply bind_Ok_inv in E1 as (q & _ & E1). injection E1 as <-.
      cbn [nltb RNum]. destruct (Rltb q acpt); [apply incl_appl|]; apply incl_refl. }
    apply bind_Ok_inv in E as (rt & _ & E). apply bind_Ok_inv in E as (lf & _ & E).
    apply bind_Ok_inv in E as (xd & _ & E). apply bind_Ok_inv in E as (p & _ & E). apply bind_Ok_inv in E as (a2 & E2 & E).
    assert (I2 : incl a1 a2) by (destruct (_ && _)%bool in E2; [eapply IH; eauto|injection E2 as <-; apply incl_refl]).
    assert (I3 : incl a2 out) by (destruct (_ && _)%bool in E; [eapply IH; eauto|injection E as <-; apply incl_refl]).
    eauto using incl_tran.
  Qed.

  Lemma in_sphere_mono acpt acpt' r r' : acpt <= acpt' -> r <= r' -> forall fuel d node acc acc' out out',
    (d <= nd)%nat -> incl acc acc' ->
    in_sphere crd nd lk fuel elig acpt x r d node acc = Ok out ->
    in_sphere crd' nd lk fuel elig acpt' x' r' d node acc' = Ok out' -> incl out out'.
  Proof.
    intros Ha Hr. induction fuel as [|f IH]; intros d node acc acc' out out' Hd I E E'; [discriminate|].
    cbn [in_sphere] in E, E'. cbn zeta in E, E'. pose proof (wrap_lt Hd) as Hw. set (w := wrap nd d) in *.
    apply bind_Ok_inv in E as (e & Ee & E). rewrite Ee in E'. cbn [bind] in E'.
    apply bind_Ok_inv in E as (a1 & E1 & E). apply bind_Ok_inv in E' as (a1' & E1' & E').
    assert (I1 : incl a1 a1').
    { destruct e; [|injection E1 as <-; injection E1' as <-; auto].
      unfold dst_sq in E1, E1'. rewrite dst_sq_from_eq in E1 by lia.
      apply bind_Ok_inv in E1 as (q & Eq & E1). rewrite Eq in E1'. cbn [bind] in E1'.
      injection E1 as <-. injection E1' as <-. cbn [nltb RNum].
      destruct (Rltb q acpt) eqn:Q1.
      - apply Rltb_true in Q1. assert (Q2 : Rltb q acpt' = true) by (apply Rltb_true; lra). rewrite Q2.
        apply incl_app; [apply incl_appl; auto|apply incl_appr, incl_refl].
      - destruct (Rltb q acpt'); [apply incl_appl|]; auto. }
    apply bind_Ok_inv in E as (rt & Ert & E). rewrite Ert in E'. cbn [bind] in E'.
    apply bind_Ok_inv in E as (lf & Elf & E). rewrite Elf in E'. cbn [bind] in E'.
    apply bind_Ok_inv in E as (xd & Exd & E). rewrite <- x_eq, Exd in E' by auto. cbn [bind] in E'.
    apply bind_Ok_inv in E as (p & Ep & E). rewrite <- crd_eq, Ep in E' by auto. cbn [bind] in E'.
    apply bind_Ok_inv in E as (a2 & E2 & E). apply bind_Ok_inv in E' as (a2' & E2' & E').
    cbn [nltb nadd nsub RNum] in *.
    assert (I2 : incl a2 a2').
    { destruct (rt =? node)%nat; cbn [negb andb] in *; [injection E2 as <-; injection E2' as <-; auto|].
      destruct (Rltb p (xd + r)) eqn:Q1.
      - apply Rltb_true in Q1. assert (Q2 : Rltb p (xd + r') = true) by (apply Rltb_true; lra). rewrite Q2 in E2'.
        eapply IH; [| |exact E2|exact E2']; auto.
      - injection E2 as <-. destruct (Rltb p (xd + r')); [|injection E2' as <-; auto].
        eapply incl_tran; [exact I1|]. eapply in_sphere_acc; eauto. }
    destruct (lf =? node)%nat; cbn [negb andb] in *; [injection E as <-; injection E' as <-; auto|].
    destruct (Rltb (xd - r) p) eqn:Q1.
    - apply Rltb_true in Q1. assert (Q2 : Rltb (xd - r') p = true) by (apply Rltb_true; lra). rewrite Q2 in E'.
      eapply IH; [| |exact E|exact E']; auto.
    - injection E as <-. destruct (Rltb (xd - r') p); [|injection E' as <-; auto].
      eapply incl_tran; [exact I2|]. eapply in_sphere_acc; eauto.
  Qed.
End Mono.

Lemma query_mono s s' x x' r r' l l' : spheres s -> only_radii s s' ->
  (3 <= length x)%nat -> (3 <= length x')%nat -> (forall d, (d < 3)%nat -> vec x d = vec x' d) -> 0 <= r' <= r ->
  points_in_sphere s any x r = Ok l -> points_in_sphere s' any x' r' = Ok l' -> incl l' l.
Proof.
  intros Hs O Hx Hx' Ex Hr E E'. pose proof Hs as (_ & Nd & _).
  pose proof O as (A1 & A2 & A3 & A4 & A5 & A6 & A7 & A8 & A9 & A10 & A11 & A12).
  unfold points_in_sphere in *. rewrite A1, A5, A6, Nd in E'. rewrite Nd in E.
  unfold st_n, count in *. rewrite A10 in E'.
  eapply (@in_sphere_mono (row_crd (st_pts s')) (row_crd (st_pts s)) 3 (st_lk s) (fun i => Ok (any i)) ltac:(lia))
    with (x := x') (x' := x) (r := r') (r' := r); [| | | | | |exact E'|exact E].
  - intros i d Hd. unfold row_crd.
    assert (Hlen : length (st_pts s') = length (st_pts s)) by auto.
    destruct (nth_error (st_pts s) i) as [row|] eqn:Er.
    + destruct (nth_error_lt (st_pts s') (i := i)) as [row' Er']; [rewrite Hlen; apply nth_error_Some_lt in Er; auto|].
      rewrite (get_some Er), (get_some Er'). cbn [bind].
      specialize (A12 i d ltac:(lia)). specialize (A11 i). unfold coord in A12.
      rewrite (nth_error_nth _ _ [] Er), (nth_error_nth _ _ [] Er') in *.
      destruct Hs as (_ & _ & H4). pose proof (H4 row (nth_error_In _ _ Er)).
      apply (@get_x_ext row' row d 3); auto; lia.
    + assert (nth_error (st_pts s') i = None) by (apply nth_error_None; rewrite Hlen; apply nth_error_None; auto).
      unfold get. rewrite Er, H. reflexivity.
  - intros d Hd. apply get_x_ext with 3%nat; auto. symmetry. auto.
  - rewrite !sphere_bound_R. assert (r' * r' <= r * r) by (apply Rmult_le_compat; lra).
    assert (0 < 2 / 10 ^ 6) by (apply Rdiv_lt_0_compat; [lra|apply pow_lt; lra]). nra.
  - lra.
  - lia.
  - apply incl_refl.
Qed.
