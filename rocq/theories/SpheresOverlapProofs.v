(** Proofs about Spheres.v: overlapping spheres and slivers. *)
From Verif Require Import Base Num MemoryHandler DenseQR KdTree SamplingSpec SamplingProofs Vec KdSpec
  KdTreeProofs SmartTree SmartTreeSpec SmartTreeProofs SmartQueryProofs
  Geometry GeometrySpec GeometryProofs Spheres SpheresSpec SpheresProofs SpheresLipProofs.
From Coq Require Import Reals Lra.
Local Open Scope R_scope.

Definition nearly_overlap (s : stree R) (sp : nat -> R) (j : nat) : Prop :=
  vdist 3 sp (center s j) < sp 3%nat + radius s j + 1 / 10 ^ 10.

Lemma overlapping_among_ok s sp : spheres s -> forall l, (forall j, In j l -> (j < count s)%nat) -> NoDup l ->
  exists out, overlapping_among s sp l = Ok out /\ NoDup out
    /\ forall j, In j out <-> In j l /\ nearly_overlap s sp j.
Proof.
  intros Hs. induction l as [|i l IH]; intros Hl ND; cbn [overlapping_among].
  - exists []. split; auto. split; auto. intros j. simpl. tauto.
  - inversion ND as [|? ? Ni ND']; subst.
    destruct (@get_sphere_ok s Hs i) as (si & -> & _ & Gi); [apply Hl; left; auto|]. cbn [bind].
    destruct IH as (out & -> & NDo & Ho); auto; [intros; apply Hl; right; auto|]. cbn [bind].
    assert (T : overlapping_spheres 3 sp (gv si) = true <-> nearly_overlap s sp i).
    { unfold overlapping_spheres, nearly_overlap. cbn [nltb nadd RNum]. rewrite Rltb_true, distance_R, tol_eq, (Gi 3%nat) by lia.
      rewrite (@vdist_ext 3 sp sp (gv si) (center s i)); auto; [reflexivity|]. intros. apply Gi. lia. }
    eexists. split; [reflexivity|]. destruct (overlapping_spheres 3 sp (gv si)).
    + split.
      * constructor; auto. intros C. apply Ho in C. tauto.
      * intros j. simpl. rewrite Ho. split; [intros [<-|(H1 & H2)]; auto; split; auto; apply T; auto|]. tauto.
    + split; auto. intros j. simpl. rewrite Ho. split; [tauto|]. intros [[<-|H1] H2]; auto.
      apply T in H2. discriminate.
Qed.

Lemma overlap_found L r h : 0 <= L < 1 -> h < 2 * r + L * h -> h < r * (1 + L) / (1 - L) + r.
Proof.
  intros HL Hh. replace (r * (1 + L) / (1 - L) + r) with (2 * r / (1 - L)) by (field; lra).
  apply Rmult_lt_reg_r with (1 - L); [lra|]. unfold Rdiv. rewrite Rmult_assoc, Rinv_l, Rmult_1_r by lra. lra.
Qed.

Lemma get_overlapping_ok s sp L : spheres s -> (4 <= length sp)%nat -> point_at_reach s (vec sp) ->
  exists out, get_overlapping_spheres sp s L = Ok out /\ NoDup out
    /\ (forall j, In j out -> (j < count s)%nat /\ nearly_overlap s (vec sp) j)
    /\ (0 <= L < 1 -> lipschitz L s -> forall j, (j < count s)%nat -> overlap s (vec sp) j -> In j out)
    /\ (0 <= L < 1 -> locally_lipschitz L s ->
        (exists q, (q < count s)%nat /\ forall d, (d < 4)%nat -> vec sp d = coord (st_pts s) q d) ->
        forall j, (j < count s)%nat -> overlap s (vec sp) j -> In j out).
Proof.
  intros Hs Hx Hr. destruct (spheres_n Hs) as (N0 & _). unfold get_overlapping_spheres. rewrite N0.
  destruct (@estimate_ok s sp L Hs) as (c & Hc & -> & Hmin); [lia|auto|]. cbn [bind].
  change (@n1 R RNum) with 1. change ndiv with Rdiv. change nsub with Rminus. change nadd with Rplus. change nmul with Rmult.
  cbn [nltb RNum].
  set (est := radius s c + L * vdist 3 (vec sp) (center s c)).
  set (r := if Rltb est (gv sp 3%nat) then gv sp 3%nat else est).
  assert (Hr1 : est <= r /\ vec sp 3%nat <= r).
  { unfold r. change (gv sp 3%nat) with (vec sp 3%nat). destruct (Rltb est (vec sp 3%nat)) eqn:E; [apply Rltb_true in E|apply Rltb_false in E]; lra. }
  destruct (@query_ok s sp (r * (1 + L) / (1 - L) + r) Hs) as (l & -> & ND & Hl & Hall & _); [lia|]. cbn [bind].
  destruct (@overlapping_among_ok s (gv sp) Hs l Hl ND) as (out & -> & NDo & Ho).
  assert (Ten : 0 < 1 / 10 ^ 10) by (apply Rdiv_lt_0_compat; [lra|apply pow_lt; lra]).
  exists out. split; auto. split; auto. split; [|split].
  - intros j Hj. apply Ho in Hj. destruct Hj. split; auto.
  - intros HL HLip j Hj Hov. apply Ho. unfold overlap in Hov. split; [|unfold nearly_overlap; change (gv sp) with (vec sp); lra].
    apply Hall; auto. set (h := vdist 3 (vec sp) (center s j)) in *. apply overlap_found; auto.
    pose proof (HLip j c Hj Hc) as G.
    assert (gap s j c <= h + vdist 3 (vec sp) (center s c)).
    { unfold gap, h. rewrite (vdist_sym 3 (vec sp) (center s j)). apply vdist_triangle. }
    assert (L * gap s j c <= L * (h + vdist 3 (vec sp) (center s c))) by (apply Rmult_le_compat_l; lra).
    unfold est in Hr1. lra.
  - intros HL HLip (q & Hq & Eq) j Hj Hov. apply Ho. unfold overlap in Hov. split; [|unfold nearly_overlap; change (gv sp) with (vec sp); lra].
    apply Hall; auto.
    assert (Eg : forall k, vdist 3 (vec sp) (center s k) = gap s k q).
    { intros k. rewrite gap_sym. unfold gap. apply vdist_ext; auto. intros d Hd. apply Eq. lia. }
    rewrite Eg in Hov |- *. rewrite (Eq 3%nat) in Hov, Hr1 by lia. change (coord (st_pts s) q 3) with (radius s q) in *.
    apply overlap_found; auto. pose proof (Lgap s j q (proj1 HL)).
    destruct (Rle_lt_dec (radius s j) (radius s q)); [lra|].
    assert (radius s j <= radius s q + L * gap s j q) by (apply HLip; auto; lra). lra.
Qed.

(** ** The points where three spheres meet *)
Lemma meeting_on_sphere up (pv normal : nat -> R) (si sm : nat -> R) :
  unit 3 normal -> orthogonal 3 normal (sub pv sm) -> orthogonal 3 normal (sub pv si) ->
  power 3 pv sm (sm 3%nat) = power 3 pv si (si 3%nat) -> vdist 3 pv si <= si 3%nat -> 0 <= sm 3%nat ->
  vdist 3 (meeting si pv normal up) sm = sm 3%nat.
Proof.
  intros Hu Ho _ Hp Hin Hr. unfold meeting. rewrite distance_R.
  change nsqrt with sqrt. change nmul with Rmult. change nsub with Rminus. change nadd with Rplus.
  pose proof (vdist_nonneg 3 pv si). set (h := vdist 3 pv si) in *.
  assert (Hv : 0 <= si 3%nat * si 3%nat - h * h) by nra.
  set (v := sqrt (si 3%nat * si 3%nat - h * h)).
  assert (Hvv : v * v = si 3%nat * si 3%nat - h * h) by (apply sqrt_sqrt; auto).
  set (e := if up then v else - v).
  rewrite (@vdist_ext 3 _ (fun d => pv d + e * normal d) sm sm).
  2:{ intros d _. unfold e. destruct up; ring. } 2: auto.
  assert (Sq : vdist 3 (fun d => pv d + e * normal d) sm * vdist 3 (fun d => pv d + e * normal d) sm = sm 3%nat * sm 3%nat).
  { rewrite vdist_sq.
    rewrite (@dot_ext 3 _ (fun k => sub pv sm k + e * normal k) _ (fun k => sub pv sm k + e * normal k)) by (intros; unfold sub; ring).
    rewrite dot_plus_l, !dot_plus_r, !dot_scal_l, !dot_scal_r. rewrite (dot_comm 3 (sub pv sm) normal).
    unfold orthogonal in Ho. unfold unit in Hu. rewrite Ho, Hu. 
    change (dot 3 (sub pv sm) (sub pv sm)) with (dot 3 (fun k => pv k - sm k) (fun k => pv k - sm k)). rewrite <- vdist_sq.
    unfold power in Hp. fold h in Hp. assert (e * e = v * v) by (unfold e; destruct up; ring). nra. }
  pose proof (vdist_nonneg 3 (fun d => pv d + e * normal d) sm). nra.
Qed.

(** ** Slivers *)
Lemma nlit95 : @nlit R RNum 95 2 = 95 / 100.
Proof. unfold nlit. cbn [ndiv nofZ RNum]. simpl. lra. Qed.

Section Sliver.
  Variables (n : nat) (sp : nat -> nat -> R) (fixed : nat -> bool).
  Variables (pv normal : nat -> nat -> nat -> nat -> R).
  Definition up_pt (i j k : nat) : nat -> R := meeting (sp i) (pv i j k) (normal i j k) true.
  Definition lo_pt (i j k : nat) : nat -> R := meeting (sp i) (pv i j k) (normal i j k) false.
  Definition shrinkage (i j k l : nat) : R := sp l 3%nat - 95 / 100 * nearer sp (up_pt i j k) (lo_pt i j k) l.
  Definition cand (i j k l : nat) : Prop :=
    (l < n)%nat /\ fixed l = false /\ l <> i /\ l <> j /\ l <> k
    /\ nearer sp (up_pt i j k) (lo_pt i j k) l <= sp l 3%nat - 1 / 10 ^ 10.

  (** [best] is the least shrinkage over the candidates in [S] (below dbl_max). *)
  Definition best_of (S : nat -> nat -> nat -> nat -> Prop) (best : nat * R * R) : Prop :=
    let '(l0, r0, d0) := best in
    ((l0 = n /\ d0 = dbl_max) \/ exists i j k, S i j k l0 /\ cand i j k l0 /\ d0 = shrinkage i j k l0
        /\ r0 = 95 / 100 * nearer sp (up_pt i j k) (lo_pt i j k) l0 /\ d0 < dbl_max)
    /\ (forall i j k l, S i j k l -> cand i j k l -> d0 <= shrinkage i j k l \/ dbl_max <= shrinkage i j k l).

  Lemma best_of_iff (S S' : nat -> nat -> nat -> nat -> Prop) b : (forall i j k l, (l < n)%nat -> S i j k l <-> S' i j k l) -> best_of S b -> best_of S' b.
  Proof.
    destruct b as [[l0 r0] d0]. intros E (H1 & H2). split.
    - destruct H1 as [H1|(i & j & k & H)]; auto. right. exists i, j, k. destruct H as (Hs & Hc & H).
      split; auto. apply E; auto. apply Hc.
    - intros i j k l Hs Hc. apply H2; auto. apply E; auto. apply Hc.
  Qed.

  Lemma sliver_check_ok S i j k l b : (l < n)%nat -> best_of S b ->
    best_of (fun i' j' k' l' => S i' j' k' l' \/ (i' = i /\ j' = j /\ k' = k /\ l' = l))
      (sliver_check sp fixed i j k l (up_pt i j k) (lo_pt i j k) b).
  Proof.
    intros Hln Hb. unfold sliver_check.
    destruct (fixed l || Nat.eqb l i || Nat.eqb l j || Nat.eqb l k) eqn:Ef.
    - destruct b as [[l0 r0] d0]. destruct Hb as (H1 & H2). split.
      + destruct H1 as [H1|(i' & j' & k' & H)]; auto. right. exists i', j', k'. intuition.
      + intros i' j' k' l' [Hs|(-> & -> & -> & ->)] Hc; auto. exfalso. destruct Hc as (_ & F & N1 & N2 & N3 & _).
        apply Nat.eqb_neq in N1, N2, N3. rewrite F, N1, N2, N3 in Ef. discriminate.
    - apply orb_false_elim in Ef as (Ef & N3). apply orb_false_elim in Ef as (Ef & N2). apply orb_false_elim in Ef as (F & N1).
      apply Nat.eqb_neq in N1, N2, N3.
      rewrite !distance_R, nmin_R. change (Rmin (vdist 3 (sp l) (up_pt i j k)) (vdist 3 (sp l) (lo_pt i j k)))
        with (nearer sp (up_pt i j k) (lo_pt i j k) l). rewrite tol_eq, nlit95.
      change nmul with Rmult. change nsub with Rminus. cbn [nltb RNum].
      set (d := nearer sp (up_pt i j k) (lo_pt i j k) l).
      destruct (Rltb (sp l 3%nat - 1 / 10 ^ 10) d) eqn:Q.
      + apply Rltb_true in Q. destruct b as [[l0 r0] d0]. destruct Hb as (H1 & H2). split.
        * destruct H1 as [H1|(i' & j' & k' & H)]; auto. right. exists i', j', k'. intuition.
        * intros i' j' k' l' [Hs|(-> & -> & -> & ->)] Hc; auto. exfalso. destruct Hc as (_ & _ & _ & _ & _ & Hd). fold d in Hd. lra.
      + apply Rltb_false in Q. destruct b as [[l0 r0] d0]. destruct Hb as (H1 & H2).
        assert (Es : shrinkage i j k l = sp l 3%nat - d * (95 / 100)) by (unfold shrinkage; fold d; ring).
        assert (Hcd : cand i j k l) by (repeat split; auto).
        assert (Hd0 : d0 <= dbl_max) by (destruct H1 as [(_ & ->)|(? & ? & ? & _ & _ & _ & _ & H1)]; [apply Rle_refl|left; auto]).
        destruct (Rltb (sp l 3%nat - d * (95 / 100)) d0) eqn:Q2.
        * apply Rltb_true in Q2. split.
          -- right. exists i, j, k. split; [right; auto|]. split; auto. split; [lra|]. split; [fold d; lra|].
             eapply Rlt_le_trans; eauto.
          -- intros i' j' k' l' [Hs|(-> & -> & -> & ->)] Hc; [|left; lra].
             destruct (H2 i' j' k' l' Hs Hc); auto. left. lra.
        * apply Rltb_false in Q2. split.
          -- destruct H1 as [H1|(i' & j' & k' & H)]; auto. right. exists i', j', k'. intuition.
          -- intros i' j' k' l' [Hs|(-> & -> & -> & ->)] Hc; auto. left. lra.
  Qed.

  Lemma sliver_spheres_ok i j k : forall m l S b, (l + m <= n)%nat -> best_of S b ->
    best_of (fun i' j' k' l' => S i' j' k' l' \/ (i' = i /\ j' = j /\ k' = k /\ (l <= l' < l + m)%nat))
      (sliver_spheres m l sp fixed i j k (up_pt i j k) (lo_pt i j k) b).
  Proof.
    induction m as [|m IH]; intros l S b Hl Hb; cbn [sliver_spheres].
    - eapply best_of_iff; [|exact Hb]. intros. split; auto. intros [H'|H']; auto. lia.
    - eapply best_of_iff; [|apply IH; [lia|apply sliver_check_ok; [lia|exact Hb]]].
      intros i' j' k' l' _. cbv beta. split; [intros [[H'|H']|H']; auto; right; intuition lia|].
      intros [H'|(-> & -> & -> & H')]; auto. destruct (Nat.eq_dec l' l) as [->|N]; [left; right; auto|]. right. repeat split; auto; lia.
  Qed.

  Lemma triplets_in i j k : In (i, j, k) (triplets n) <-> (i < j < k)%nat /\ (k < n)%nat.
  Proof.
    unfold triplets. rewrite in_flat_map. split.
    - intros (i' & Hi & H). apply in_flat_map in H as (j' & Hj & H). apply in_map_iff in H as (k' & E & Hk).
      injection E as -> -> ->. apply in_seq in Hi, Hj, Hk. lia.
    - intros H. exists i. split; [apply in_seq; lia|]. apply in_flat_map. exists j. split; [apply in_seq; lia|].
      apply in_map_iff. exists k. split; auto. apply in_seq. lia.
  Qed.

  Lemma resolve_sliver_ok :
    best_of (fun i j k l => (i < j < k)%nat /\ (k < n)%nat /\ (l < n)%nat) (resolve_sliver n sp fixed pv normal).
  Proof.
    unfold resolve_sliver.
    assert (G : forall ts S b, best_of S b ->
      best_of (fun i j k l => S i j k l \/ (In (i, j, k) ts /\ (l < n)%nat))
        (fold_left (fun best t => let '(i, j, k) := t in
           sliver_spheres n 0 sp fixed i j k (meeting (sp i) (pv i j k) (normal i j k) true)
             (meeting (sp i) (pv i j k) (normal i j k) false) best) ts b)).
    { induction ts as [|[[i j] k] ts IH]; intros S b Hb; cbn [fold_left].
      - eapply best_of_iff; [|exact Hb]. intros. simpl. tauto.
      - eapply best_of_iff; [|apply IH; apply (@sliver_spheres_ok i j k n 0 S b (le_n n) Hb)].
        intros i' j' k' l' Hl. cbv beta. simpl. split.
        + intros [[H'|(-> & -> & -> & _)]|(H1 & H2)]; auto.
        + intros [H'|[[E|H'] Hl']]; auto. injection E as -> -> ->. left. right. repeat split; auto; lia. }
    eapply best_of_iff; [|apply (G (triplets n) (fun _ _ _ _ => False))].
    - intros i j k l Hl. cbv beta. rewrite triplets_in. tauto.
    - split; [left; auto|]. intros i j k l [].
  Qed.
End Sliver.
