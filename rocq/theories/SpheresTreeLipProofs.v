(** Proofs about Spheres.v: the Lipschitz pass that uses range queries. *)
From Verif Require Import Base Num MemoryHandler SortSpec MemoryHandlerProofs DenseQR KdTree SamplingSpec SamplingProofs Vec KdSpec
  KdTreeProofs KdBuildProofs KdQueryProofs SmartTree SmartTreeSpec SmartTreeProofs SmartQueryProofs
  Geometry GeometryProofs Spheres SpheresSpec SpheresProofs SpheresLipProofs.
From Coq Require Import Reals Lra.
Local Open Scope R_scope.

(** The neighbours looked up for sphere i. *)
Definition neighbours (s : stree R) (i : nat) (l : list nat) : Prop :=
  exists si, get_sphere s i = Ok si /\ points_in_sphere s any si (2 * radius s i) = Ok l.
(** [r'] is at most the bound of every neighbour in [l], and is [r] or the bound of one. *)
Definition bounded (L : R) (s : stree R) (i : nat) (l : list nat) (r : R) : Prop :=
  forall j, In j l -> j <> i -> r <= radius s j + L * gap s i j.
Definition attained (L : R) (s : stree R) (i : nat) (l : list nat) (r : R) : Prop :=
  exists j, In j l /\ j <> i /\ r = radius s j + L * gap s i j.

Lemma shrink_ok L s i si : spheres s -> (forall d, (d < 4)%nat -> gv si d = coord (st_pts s) i d) ->
  forall l r ch, (forall j, In j l -> (j < count s)%nat) ->
  exists r' ch', shrink L s i si l (r, ch) = Ok (r', ch') /\ bounded L s i l r'
    /\ ((r' = r /\ ch' = ch) \/ (r' < r /\ ch' = true /\ attained L s i l r')).
Proof.
  intros Hs Hsi. induction l as [|j l IH]; intros r ch Hl; cbn [shrink].
  - exists r, ch. split; auto. split; [intros j []|]. auto.
  - destruct (j =? i)%nat eqn:Eji.
    + apply Nat.eqb_eq in Eji. destruct (IH r ch) as (r' & ch' & E & B & A); [intros; apply Hl; right; auto|].
      exists r', ch'. split; auto. split.
      * intros k [<-|Hk] Nk; [congruence|apply B; auto].
      * destruct A as [A|(A1 & A2 & k & Hk & Nk & Ek)]; auto. right. repeat split; auto. exists k. split; [right|]; auto.
    + apply Nat.eqb_neq in Eji. assert (Hj : (j < count s)%nat) by (apply Hl; left; auto).
      destruct (get_sphere_ok Hs Hj) as (sj & -> & _ & Gj). cbn [bind]. rewrite (@sphere_gap s si sj i j Hsi Gj), (Gj 3%nat) by lia.
      change (coord (st_pts s) j 3) with (radius s j). change nadd with Rplus. change nmul with Rmult. cbn [nltb RNum fst].
      set (lr := radius s j + L * gap s i j).
      destruct (Rltb lr r) eqn:Q.
      * apply Rltb_true in Q. destruct (IH lr true) as (r' & ch' & E & B & A); [intros; apply Hl; right; auto|].
        exists r', ch'. split; auto.
        assert (r' <= lr) by (destruct A as [(-> & _)|(A & _)]; lra).
        split; [intros k [<-|Hk] Nk; [auto|apply B; auto]|]. right.
        destruct A as [(-> & ->)|(A1 & A2 & k & Hk & Nk & Ek)].
        -- split; auto. split; auto. exists j. split; [left|]; auto.
        -- split; [lra|]. split; auto. exists k. split; [right|]; auto.
      * apply Rltb_false in Q. destruct (IH r ch) as (r' & ch' & E & B & A); [intros; apply Hl; right; auto|].
        exists r', ch'. split; auto.
        assert (r' <= r) by (destruct A as [(-> & _)|(A & _)]; lra).
        split; [intros k [<-|Hk] Nk; [fold lr; lra|apply B; auto]|].
        destruct A as [A|(A1 & A2 & k & Hk & Nk & Ek)]; auto. right. repeat split; auto. exists k. split; [right|]; auto.
Qed.

(** What one iteration does to sphere i. *)
Definition updated (L : R) (s : stree R) (i : nat) (r' : R) : Prop :=
  exists l, neighbours s i l /\ (forall j, In j l -> (j < count s)%nat)
    /\ (forall j, (j < count s)%nat -> gap s i j < 2 * radius s i -> In j l)
    /\ (forall j, In j l -> gap s i j * gap s i j < (1 + 2 / 10 ^ 6) * (2 * radius s i) * (2 * radius s i))
    /\ bounded L s i l r'
    /\ (r' = radius s i \/ (r' < radius s i /\ attained L s i l r')).

Lemma nth_upd (l : list R) i k v : (i < length l)%nat -> nth k (upd l i v) 0 = if Nat.eq_dec k i then v else nth k l 0.
Proof.
  intros Hi. destruct (Nat.eq_dec k i) as [->|N].
  - apply nth_error_nth. rewrite upd_nth_same; auto.
  - destruct (nth_error l k) as [y|] eqn:Ek.
    + rewrite (nth_error_nth l k 0 Ek). apply nth_error_nth. rewrite upd_nth_other; auto.
    + rewrite !nth_overflow; auto; [apply nth_error_None; auto|]. rewrite upd_length. apply nth_error_None; auto.
Qed.

Lemma shrink_all_ok L s : spheres s -> forall ord new ch, NoDup ord -> (forall i, In i ord -> (i < count s)%nat) ->
  length new = count s -> (forall i, In i ord -> nth i new 0 = radius s i) ->
  exists new' ch', shrink_all L s ord (new, ch) = Ok (new', ch') /\ length new' = count s
    /\ (forall i, ~ In i ord -> nth i new' 0 = nth i new 0)
    /\ (forall i, In i ord -> updated L s i (nth i new' 0))
    /\ ((ch' = ch /\ forall i, In i ord -> nth i new' 0 = radius s i)
        \/ (ch' = true /\ exists i, In i ord /\ nth i new' 0 < radius s i)).
Proof.
  intros Hs. induction ord as [|i ord IH]; intros new ch ND Hin Hlen Hval; cbn [shrink_all].
  - exists new, ch. split; auto. split; auto. split; auto. split; [intros i []|]. left. split; auto.
  - assert (Hi : (i < count s)%nat) by (apply Hin; left; auto). inversion ND as [|? ? Ni ND']; subst.
    destruct (get_sphere_ok Hs Hi) as (si & Esi & Lsi & Gi). rewrite Esi. cbn [bind].
    rewrite (Gi 3%nat) by lia. change (coord (st_pts s) i 3) with (radius s i).
    change (nmul n2 (radius s i)) with (2 * radius s i).
    destruct (@query_ok s si (2 * radius s i) Hs) as (l & El & _ & Hl & Hall & Hins); [lia|]. rewrite El. cbn [bind fst snd].
    destruct (nth_error_lt new (i := i)) as [r Er]; [lia|]. rewrite (get_some Er). cbn [bind].
    assert (Hr : r = radius s i) by (rewrite <- (nth_error_nth new i 0 Er); apply Hval; left; auto). subst r.
    destruct (@shrink_ok L s i si Hs Gi l (radius s i) ch Hl) as (r' & ch1 & E1 & B & A). rewrite E1. cbn [bind].
    rewrite set_Ok by lia. cbn [bind].
    destruct (IH (upd new i r') ch1 ND') as (new' & ch' & E & Ln & Out & Up & Fl).
    { intros; apply Hin; right; auto. }
    { rewrite upd_length; auto. }
    { intros k Hk. rewrite nth_upd by lia. destruct (Nat.eq_dec k i); [congruence|]. apply Hval; right; auto. }
    exists new', ch'. split; auto. split; auto.
    assert (Ei : nth i new' 0 = r') by (rewrite Out by auto; rewrite nth_upd by lia; destruct (Nat.eq_dec i i); congruence).
    split; [|split].
    + intros k Hk. rewrite Out by (intros C; apply Hk; right; auto). rewrite nth_upd by lia.
      destruct (Nat.eq_dec k i) as [->|]; auto. exfalso. apply Hk. left; auto.
    + intros k [<-|Hk]; auto. rewrite Ei. exists l. split; [exists si; auto|]. split; auto. split.
      * intros j Hj Hg. apply Hall; auto. unfold gap in Hg.
        rewrite (@vdist_ext 3 (vec si) (center s i) (center s j) (center s j)); auto.
        intros d Hd. apply (Gi d). lia.
      * split; [|split; auto].
        { intros j Hj. specialize (Hins j Hj).
          rewrite (@vdist_ext 3 (vec si) (center s i) (center s j) (center s j)) in Hins; auto.
          intros d Hd. apply (Gi d). lia. } destruct A as [(-> & _)|(A1 & _ & A2)]; auto.
    + destruct Fl as [(-> & Fl)|(-> & k & Hk & Fk)].
      * destruct A as [(-> & ->)|(A1 & -> & A2)].
        -- left. split; auto. intros k [<-|Hk]; auto.
        -- right. split; auto. exists i. split; [left; auto|]. rewrite Ei. auto.
      * right. split; auto. exists k. split; [right|]; auto.
Qed.

Lemma write_radii_ok s new : spheres s -> length new = count s ->
  exists s', write_radii s new = Ok s' /\ only_radii s s' /\ forall i, (i < count s)%nat -> radius s' i = nth i new 0.
Proof.
  intros Hs Hlen. unfold write_radii. change (st_n s) with (count s).
  destruct (@for_res_inv (stree R)
    (fun k s' => only_radii s s' /\ forall i, (i < k)%nat -> (i < count s)%nat -> radius s' i = nth i new 0)
    (count s) 0 (fun i s' => ' r <- get new i;; set_radius s' i r) s) as (s' & E & O & H).
  - split; [apply only_radii_refl|]. intros; lia.
  - intros k s1 Hk (O & H). destruct (nth_error_lt new (i := k)) as [r Er]; [lia|]. rewrite (get_some Er). cbn [bind].
    destruct (@set_radius_ok s1 (only_radii_spheres O Hs) k r) as (s2 & E2 & O2 & R1 & R2).
    { rewrite (only_radii_count O). lia. }
    exists s2. split; auto. split; [eapply only_radii_trans; eauto|]. intros i Hi Hi'.
    destruct (Nat.eq_dec i k) as [->|N]; [rewrite R1; symmetry; apply nth_error_nth; auto|]. rewrite R2 by auto. apply H; lia.
  - exists s'. split; auto.
Qed.

Lemma NoDup_bound (c : list nat) n : NoDup c -> (forall i, In i c -> (i < n)%nat) -> (length c <= n)%nat.
Proof.
  intros ND H. rewrite <- (seq_length n 0). apply NoDup_incl_length; auto. intros i Hi. apply in_seq. specialize (H i Hi). lia.
Qed.

Section Iter.
  Variables (L : R) (s0 : stree R) (ord : list nat).
  Hypothesis HL : 0 <= L.
  Hypothesis H0 : spheres s0.
  Let n := count s0.
  Hypothesis Hpos : positive_radii s0.
  Hypothesis ND : NoDup ord.
  Hypothesis Hord : forall i, In i ord <-> (i < n)%nat.

  (** After k iterations that changed something: [ch] are the spheres the last one
      changed (all, before the first). *)
  Record inv (k : nat) (ch : nat -> Prop) (s : stree R) : Prop := {
    inv_only : only_radii s0 s;
    inv_pos : forall i, (i < n)%nat -> 0 < radius s i;
    inv_le : forall i, (i < n)%nat -> radius s i <= radius s0 i;
    inv_hull : forall i v, (i < n)%nat -> hull L s0 i v -> v <= radius s i;
    inv_dec : forall i, ch i \/ ~ ch i;
    inv_chain : forall i, (i < n)%nat -> ch i -> exists c, length c = S k /\ NoDup c
      /\ (forall m, In m c -> (m < n)%nat /\ radius s m <= radius s i);
    inv_quiet : forall i j l, (i < n)%nat -> (j < n)%nat -> ~ ch j -> neighbours s i l -> In j l -> j <> i ->
      radius s i <= radius s j + L * gap s0 i j
  }.

  Lemma inv_start : inv 0 (fun _ => True) s0.
  Proof.
    split; auto.
    - apply only_radii_refl.
    - intros; lra.
    - intros i v Hi Hv. apply (hull_le Hv Hi).
    - intros i Hi _. exists [i]. split; auto. split; [constructor; [intros []|constructor]|].
      intros m [<-|[]]. split; auto. lra.
    - intros i j l Hi Hj C. tauto.
  Qed.

  Lemma neighbours_incl s s' i l l' : spheres s -> only_radii s s' -> (i < count s)%nat ->
    0 <= radius s' i <= radius s i -> neighbours s i l -> neighbours s' i l' -> incl l' l.
  Proof.
    intros Hs O Hi Hr (si & E1 & E2) (si' & E1' & E2').
    pose proof (only_radii_spheres O Hs) as Hs'. pose proof (only_radii_count O) as Hc.
    destruct (@get_sphere_ok s Hs i) as (a & Ea & La & Ga); auto. rewrite Ea in E1. injection E1 as ->.
    destruct (@get_sphere_ok s' Hs' i) as (b & Eb & Lb & Gb); [lia|]. rewrite Eb in E1'. injection E1' as ->.
    eapply (@query_mono s s' si si' (2 * radius s i) (2 * radius s' i)); eauto; try lia; [|lra].
    intros d Hd. change (gv si d = gv si' d). rewrite Ga, Gb by lia. symmetry. apply O. lia.
  Qed.

  Lemma neighbours_fun s i l l' : neighbours s i l -> neighbours s i l' -> l = l'.
  Proof. intros (a & A1 & A2) (b & B1 & B2). rewrite A1 in B1. injection B1 as <-. congruence. Qed.

  Lemma lip_iter_ok fuel : forall k ch s new shrunk, inv k ch s -> length new = n ->
    (forall i, (i < n)%nat -> nth i new 0 = radius s i) -> (n <= k + fuel)%nat -> (k < n)%nat ->
    exists s' b, lip_iter fuel L ord s new shrunk = Ok (s', b)
      /\ only_radii s0 s' /\ (forall i, (i < n)%nat -> 0 < radius s' i <= radius s0 i)
      /\ (forall i v, (i < n)%nat -> hull L s0 i v -> v <= radius s' i)
      /\ locally_lipschitz L s'
      /\ ((b = shrunk /\ forall i, (i < n)%nat -> radius s' i = radius s i)
          \/ (b = true /\ exists i, (i < n)%nat /\ radius s' i < radius s i))
      /\ (apart s -> b = shrunk /\ forall i, (i < n)%nat -> radius s' i = radius s i).
  Proof.
    induction fuel as [|f IH]; intros k ch s new shrunk Hinv Hlen Hnew Hf Hk; [lia|]. cbn [lip_iter].
    pose proof (inv_only Hinv) as O. pose proof (only_radii_spheres O H0) as Hs.
    pose proof (only_radii_count O) as Hc. fold n in Hc.
    destruct (@shrink_all_ok L s Hs ord new false ND) as (new1 & ch1 & -> & Ln1 & _ & Up & Fl).
    { intros i Hi. apply Hord in Hi. lia. } { lia. } { intros i Hi. apply Hnew, Hord, Hi. }
    cbn [bind].
    destruct (@write_radii_ok s new1 Hs Ln1) as (s1 & -> & O1 & R1). cbn [bind].
    assert (Up' : forall i, (i < n)%nat -> updated L s i (radius s1 i)).
    { intros i Hi. rewrite R1 by lia. apply Up, Hord, Hi. }
    assert (O01 : only_radii s0 s1) by (eapply only_radii_trans; eauto).
    pose proof (only_radii_spheres O01 H0) as Hs1. pose proof (only_radii_count O01) as Hc1. fold n in Hc1.
    assert (Dec : forall i, (i < n)%nat -> radius s1 i <= radius s i).
    { intros i Hi. destruct (Up' i Hi) as (l & _ & _ & _ & _ & _ & [->|(A & _)]); lra. }
    assert (Gap : forall i j, gap s i j = gap s0 i j) by (intros; apply only_radii_gap; auto).
    assert (Gap1 : forall i j, gap s1 i j = gap s0 i j) by (intros; apply only_radii_gap; auto).
    assert (Hh : forall i v, (i < n)%nat -> hull L s0 i v -> v <= radius s1 i).
    { intros i v Hi Hv. destruct (Up' i Hi) as (l & _ & Hl & _ & _ & _ & [->|(_ & j & Hj & _ & ->)]); [apply (inv_hull Hinv); auto|].
      apply Hl in Hj. destruct (@hull_exists L s0 j) as (w & Hw); [fold n; lia|].
      pose proof (hull_lip HL Hv Hw). assert (w <= radius s j) by (apply (inv_hull Hinv); auto; lia). rewrite Gap. lra. }
    assert (Pos : forall i, (i < n)%nat -> 0 < radius s1 i).
    { intros i Hi. destruct (Up' i Hi) as (l & _ & Hl & _ & _ & _ & [->|(_ & j & Hj & _ & ->)]); [apply (inv_pos Hinv); auto|].
      apply Hl in Hj. pose proof (Lgap s i j HL). assert (0 < radius s j) by (apply (inv_pos Hinv); lia). lra. }
    destruct Fl as [(-> & Fl)|(-> & i0 & Hi0 & Fi0)].
    - exists s1, shrunk. split; auto. split; auto. split.
      { intros i Hi. split; auto. pose proof (inv_le Hinv Hi). pose proof (Dec i Hi). lra. }
      split; auto. 
      assert (Eq : forall i, (i < n)%nat -> radius s1 i = radius s i).
      { intros i Hi. rewrite R1 by lia. apply Fl, Hord, Hi. }
      split; [|split; auto].
      intros i j Hi Hj Hg. rewrite Hc1 in *. rewrite Gap1 in *.
      destruct (Nat.eq_dec j i) as [->|Nji]; [rewrite gap_self; lra|].
      destruct (Up' i Hi) as (l & _ & _ & Hall & _ & B & _). rewrite (Eq j Hj), <- Gap. apply B; auto.
      apply Hall; [lia|]. rewrite Gap, <- (Eq i Hi). auto.
    - (* another iteration *)
      assert (Hinv1 : inv (S k) (fun i => (i < n)%nat /\ radius s1 i < radius s i) s1).
      { split; auto.
        - intros i Hi. pose proof (inv_le Hinv Hi). pose proof (Dec i Hi). lra.
        - intros i. destruct (lt_dec i n); [|right; tauto]. destruct (Rlt_dec (radius s1 i) (radius s i)); tauto.
        - intros i Hi (_ & Hlt). destruct (Up' i Hi) as (l & Nl & Hl & _ & _ & _ & [E|(_ & j & Hj & Nj & Ej)]); [lra|].
          pose proof (Hl j Hj) as Hjn. rewrite Hc in Hjn.
          assert (Cj : ch j).
          { destruct (inv_dec Hinv j) as [|C]; auto. exfalso.
            pose proof (@inv_quiet _ _ _ Hinv i j l Hi Hjn C Nl Hj Nj). rewrite <- Gap in H. lra. }
          destruct (inv_chain Hinv Hjn Cj) as (c & Lc & NDc & Hc').
          assert (radius s j <= radius s1 i) by (pose proof (Lgap s i j HL); lra).
          exists (i :: c). split; [simpl; lia|]. split.
          + constructor; auto. intros Hi'. destruct (Hc' i Hi') as (_ & C). lra.
          + intros m [<-|Hm]; [split; auto; lra|]. destruct (Hc' m Hm) as (Hmn & C). split; auto.
            pose proof (Dec m Hmn). lra.
        - intros i j l' Hi Hj Nc Nl' Hjl Nj. 
          destruct (Up' i Hi) as (l & Nl & _ & _ & _ & B & _).
          assert (Hin : In j l).
          { apply (@neighbours_incl s s1 i l l' Hs O1); auto; [lia|]. split; [left; apply Pos; auto|apply Dec; auto]. }
          assert (radius s1 j = radius s j) as ->.
          { pose proof (Dec j Hj). destruct (Rlt_dec (radius s1 j) (radius s j)); [tauto|lra]. }
          rewrite <- Gap. apply B; auto. }
      assert (Hi0n : (i0 < n)%nat) by (apply Hord; auto).
      destruct (inv_chain Hinv1 Hi0n) as (c & Lc & NDc & Hc'); [split; auto; rewrite R1 by lia; auto|].
      assert (length c <= n)%nat by (apply NoDup_bound; auto; intros i Hi; apply Hc'; auto).
      destruct (IH (S k) _ s1 new1 true Hinv1) as (s' & b & E & Oo & Hb & Hhl & Hlip & Hfl & _); auto; try lia.
      { intros i Hi. symmetry. apply R1. lia. }
      assert (Hi0' : radius s1 i0 < radius s i0) by (rewrite R1 by lia; auto).
      exists s', b. split; auto. split; auto. split; auto. split; auto. split; auto. split.
      2:{ intros Hap. exfalso. destruct (Up' i0 Hi0n) as (l & _ & Hl & _ & Hins & _ & [E0|(_ & j & Hj & Nj & _)]); [lra|].
          specialize (Hins j Hj). specialize (Hl j Hj). specialize (Hap i0 j). 
          assert ((1 + 2 / 10 ^ 6) * (2 * radius s i0) * (2 * radius s i0) <= gap s i0 j * gap s i0 j) by (apply Hap; auto; lia). lra. }
      right.
      destruct Hfl as [(-> & Hfl)|(-> & i & Hi & Hlt)]; split; auto.
      + exists i0. split; auto. rewrite Hfl; auto.
      + exists i. split; auto. pose proof (Dec i Hi). lra.
  Qed.
End Iter.

Lemma radii_from_ok s : spheres s -> forall m i, (i + m <= count s)%nat ->
  exists l, radii_from s i m = Ok l /\ length l = m /\ forall k, (k < m)%nat -> nth k l 0 = radius s (i + k).
Proof.
  intros Hs. induction m as [|m IH]; intros i Hi; cbn [radii_from].
  - exists []. split; auto. split; auto. intros; lia.
  - rewrite get_radius_ok by (auto; lia). cbn [bind]. destruct (IH (S i)) as (l & -> & Ll & Hl); [lia|]. cbn [bind].
    exists (radius s i :: l). split; auto. split; [simpl; auto|]. intros [|k] Hk; simpl.
    + now rewrite Nat.add_0_r.
    + rewrite Hl by lia. f_equal. lia.
Qed.

Lemma real_order : strict_weak Rltb.
Proof.
  split; intros *; rewrite ?Rltb_true, ?Rltb_false; try lra.
Qed.

Lemma combine_perm_snd {A B} (x x' : list A) (y y' : list B) : length y = length x -> length y' = length x' ->
  Permutation (combine x y) (combine x' y') -> Permutation y y'.
Proof.
  intros H1 H2 HP. apply (Permutation_map snd) in HP.
  assert (G : forall (a : list A) (b : list B), length b = length a -> map snd (combine a b) = b).
  { clear. induction a as [|x a IH]; intros [|y b] E; simpl in *; auto; try discriminate. f_equal. apply IH. lia. }
  rewrite !G in HP; auto.
Qed.

Lemma impose_lipschitz_ok L s fuel shrunk : 0 <= L -> spheres s -> positive_radii s -> (count s <= fuel)%nat ->
  exists s' b, impose_lipschitz fuel L s shrunk = Ok (s', b)
    /\ only_radii s s' /\ (forall i, (i < count s)%nat -> 0 < radius s' i <= radius s i)
    /\ (forall i v, (i < count s)%nat -> hull L s i v -> v <= radius s' i)
    /\ locally_lipschitz L s'
    /\ ((b = shrunk /\ forall i, (i < count s)%nat -> radius s' i = radius s i)
        \/ (b = true /\ exists i, (i < count s)%nat /\ radius s' i < radius s i))
    /\ (apart s -> b = shrunk /\ forall i, (i < count s)%nat -> radius s' i = radius s i).
Proof.
  intros HL Hs Hpos Hf. destruct (spheres_n Hs) as (N0 & Np). unfold impose_lipschitz. rewrite N0.
  change (st_n s) with (count s).
  destruct (@radii_from_ok s Hs (count s) 0) as (new & -> & Ln & Hn); [lia|]. cbn [bind].
  destruct (@quicksort2_correct _ _ _ real_order (map nopp new) (seq 0 (count s)) 0 (count s - 1))
    as (x' & ord & E & Lx & Lo & HP & _).
  { lia. } { rewrite map_length, Ln. lia. } { rewrite seq_length, map_length. auto. }
  rewrite map_length in *. change (@nltb R RNum) with Rltb. rewrite E. cbn [bind].
  apply combine_perm_snd in HP; [|rewrite seq_length, map_length; auto|congruence].
  destruct (@lip_iter_ok L s ord HL Hs) with (k := 0%nat) (ch := fun _ : nat => True) (s := s) (new := new) (shrunk := shrunk) (fuel := fuel)
    as (s' & b & E' & H); auto; try lia.
  - eapply Permutation_NoDup; [exact HP|apply seq_NoDup].
  - intros i. split; intros Hi.
    + apply (Permutation_in i (Permutation_sym HP)), in_seq in Hi. lia.
    + apply (Permutation_in i HP), in_seq. lia.
  - apply inv_start; auto.
  - exists s', b. auto.
Qed.
