(** Proofs about Spheres.v: reading and writing spheres, coverage tests. *)
From Verif Require Import Base Num MemoryHandler DenseQR KdTree SamplingSpec SamplingProofs Vec KdSpec
  KdTreeProofs KdBuildProofs KdQueryProofs SmartTree SmartTreeSpec SmartTreeProofs SmartQueryProofs
  Geometry GeometryProofs Spheres SpheresSpec.
From Coq Require Import Reals Lra.
Local Open Scope R_scope.

Lemma gv_vec (x : list R) d : gv x d = vec x d.
Proof. reflexivity. Qed.

Lemma dist_to_vdist s x j : st_nd s = 3%nat -> dist_to s x j = vdist 3 (vec x) (center s j).
Proof. intros E. unfold dist_to. rewrite E. reflexivity. Qed.

Lemma nlit8 : @nlit R RNum 1 8 = 1 / 10 ^ 8.
Proof. unfold nlit. cbn [ndiv nofZ RNum]. f_equal. simpl. lra. Qed.
Lemma nlit5 : @nlit R RNum 5 1 = 1 / 2.
Proof. unfold nlit. cbn [ndiv nofZ RNum]. simpl. lra. Qed.
Lemma eight_pos : 0 < 1 / 10 ^ 8.
Proof. apply Rdiv_lt_0_compat; [lra|apply pow_lt; lra]. Qed.
Lemma dbl_max_pos : 0 < @dbl_max R RNum.
Proof. unfold dbl_max. cbn [nofZ RNum]. apply IZR_lt. reflexivity. Qed.

Section Obj.
  Variable s : stree R.
  Hypothesis Hs : spheres s.
  Let pts := st_pts s.

  Lemma sph_row i : (i < count s)%nat -> exists row, nth_error pts i = Some row /\ nth i pts [] = row /\ (4 <= length row)%nat.
  Proof.
    intros Hi. destruct (nth_error_lt pts Hi) as [row E]. exists row. split; auto.
    split; [apply nth_error_nth; auto|]. destruct Hs as (_ & _ & H). apply H. eapply nth_error_In; eauto.
  Qed.
  Lemma get_sphere_ok i : (i < count s)%nat ->
    exists sp, get_sphere s i = Ok sp /\ length sp = 4%nat /\ forall d, (d < 4)%nat -> gv sp d = coord pts i d.
  Proof.
    intros Hi. destruct (sph_row Hi) as (row & E & En & Hl). unfold get_sphere. fold pts.
    rewrite (get_some E). cbn [bind]. apply Nat.leb_le in Hl as Hl'. rewrite Hl'. eexists. split; [reflexivity|].
    split; [apply firstn_length_le; auto|]. intros d Hd. unfold gv, coord. rewrite En.
    change (@n0 R RNum) with 0.
    rewrite <- (firstn_skipn 4 row) at 2. rewrite app_nth1; auto. rewrite firstn_length_le; auto.
  Qed.
  Lemma get_radius_ok i : (i < count s)%nat -> get_radius s i = Ok (radius s i).
  Proof.
    intros Hi. destruct (sph_row Hi) as (row & E & En & Hl). unfold get_radius. fold pts.
    rewrite (get_some E). cbn [bind]. destruct Hs as (_ & -> & _).
    destruct (nth_error_lt row (i := 3)) as [v Ev]; [lia|]. rewrite (get_some Ev). f_equal.
    unfold radius, coord. fold pts. rewrite En. symmetry. apply nth_error_nth; auto.
  Qed.
  Lemma set_radius_ok i r : (i < count s)%nat ->
    exists s', set_radius s i r = Ok s' /\ only_radii s s' /\ radius s' i = r
      /\ forall k, k <> i -> radius s' k = radius s k.
  Proof.
    intros Hi. destruct (sph_row Hi) as (row & E & En & Hl). unfold set_radius. fold pts.
    rewrite (get_some E). cbn [bind]. destruct Hs as (_ & End & _). rewrite End.
    rewrite set_Ok by lia. cbn [bind]. rewrite set_Ok by auto. cbn [bind].
    eexists. split; [reflexivity|].
    assert (G : forall k, nth k (upd pts i (upd row 3 r)) [] = if Nat.eq_dec k i then upd row 3 r else nth k pts []).
    { intros k. destruct (Nat.eq_dec k i) as [->|N].
      - apply nth_error_nth. rewrite upd_nth_same; auto.
      - destruct (nth_error pts k) as [y|] eqn:Ek.
        + rewrite (nth_error_nth pts k [] Ek). apply nth_error_nth. rewrite upd_nth_other; auto.
        + rewrite !nth_overflow; auto; [apply nth_error_None; auto|]. rewrite upd_length. apply nth_error_None; auto. }
    assert (C : forall d, d <> 3%nat -> nth d (upd row 3 r) 0 = nth d row 0).
    { intros d Nd. destruct (nth_error row d) as [y|] eqn:Ek.
      - rewrite (nth_error_nth row d 0 Ek). apply nth_error_nth. rewrite upd_nth_other; auto.
      - rewrite !nth_overflow; auto; [apply nth_error_None; auto|]. rewrite upd_length. apply nth_error_None; auto. }
    unfold only_radii, count, radius, coord. cbn [st_nd st_cap st_pts st_nrm st_att st_lk st_org st_h st_min st_max].
    fold pts. repeat split; auto.
    - apply upd_length.
    - intros k. rewrite G. destruct (Nat.eq_dec k i) as [->|N]; auto. rewrite upd_length. now rewrite En.
    - intros k d Nd. rewrite G. destruct (Nat.eq_dec k i) as [->|N]; auto. rewrite C; auto. now rewrite En.
    - rewrite G. destruct (Nat.eq_dec i i); [|congruence]. apply nth_error_nth. rewrite upd_nth_same; auto. 
    - intros k Nk. rewrite G. destruct (Nat.eq_dec k i); congruence.
  Qed.
End Obj.

Lemma only_radii_refl s : only_radii s s.
Proof. repeat split. Qed.
Lemma only_radii_trans a b c : only_radii a b -> only_radii b c -> only_radii a c.
Proof.
  intros (A1 & A2 & A3 & A4 & A5 & A6 & A7 & A8 & A9 & A10 & A11 & A12)
         (B1 & B2 & B3 & B4 & B5 & B6 & B7 & B8 & B9 & B10 & B11 & B12).
  repeat split; try congruence.
  intros i d Hd. rewrite B12; auto.
Qed.

Lemma ordered_ext (P Q : nat -> nat -> R) nd d t : (0 < nd)%nat ->
  (forall i k, (k < nd)%nat -> P i k = Q i k) -> ordered Rltb P nd d t -> ordered Rltb Q nd d t.
Proof.
  intros Hn HPQ. revert d. induction t as [|i l IHl r IHr]; intros d; cbn [ordered]; auto.
  assert (M : (d mod nd < nd)%nat) by (apply Nat.mod_upper_bound; lia).
  intros (H1 & H2 & H3 & H4). split; [|split; [|split]]; auto.
  - intros j Hj. rewrite <- !HPQ by auto. auto.
  - intros j Hj. rewrite <- !HPQ by auto. auto.
Qed.

Lemma only_radii_spheres s s' : only_radii s s' -> spheres s -> spheres s'.
Proof.
  intros (A1 & A2 & A3 & A4 & A5 & A6 & A7 & A8 & A9 & A10 & A11 & A12) ((R1 & R2 & R3 & t & K & Hh) & E & Hr).
  assert (HL : forall p, In p (st_pts s') -> exists q, In q (st_pts s) /\ length p = length q).
  { intros p Hp. destruct (In_nth _ _ [] Hp) as (i & Hi & <-). exists (nth i (st_pts s) []).
    split; [apply nth_In; unfold count in A10; lia|apply A11]. }
  split; [|split].
  - split; [congruence|]. split.
    + intros C. unfold count in A10. rewrite C in A10. destruct (st_pts s); simpl in *; [congruence|lia].
    + split.
      * intros p Hp. destruct (HL p Hp) as (q & Hq & ->). rewrite A1. auto.
      * exists t. rewrite A1, A5, A6, A7. unfold count in A10. rewrite A10. split; auto.
        destruct K as (K1 & K2 & K3 & K4 & K5 & K6). repeat (split; auto).
        eapply ordered_ext; [exact R1| |exact K6]. intros i k Hk. rewrite A12; auto. lia.
  - congruence.
  - intros p Hp. destruct (HL p Hp) as (q & Hq & ->). auto.
Qed.
Lemma only_radii_count s s' : only_radii s s' -> count s' = count s.
Proof. intros H. apply H. Qed.
Lemma only_radii_gap s s' i j : only_radii s s' -> gap s' i j = gap s i j.
Proof.
  intros (_ & _ & _ & _ & _ & _ & _ & _ & _ & _ & _ & H). unfold gap, center. apply vdist_ext; intros; apply H; lia.
Qed.

Lemma within_iff s beta (p sp : nat -> R) j : (forall d, (d < 4)%nat -> sp d = coord (st_pts s) j d) ->
  within beta p sp = true <-> covers s beta j p.
Proof.
  intros Hsp. unfold within, covers, reach. cbn [nltb nadd nmul RNum]. rewrite Rltb_true, distance_R, nlit8.
  rewrite (Hsp 3%nat) by lia. unfold radius.
  rewrite (@vdist_ext 3 p p sp (center s j)); auto; [reflexivity|]. intros. apply Hsp. lia.
Qed.

Lemma forallb_within s beta ps sp j : (forall d, (d < 4)%nat -> gv sp d = coord (st_pts s) j d) ->
  forallb (fun p => within beta p (gv sp)) ps = true <-> forall p, In p ps -> covers s beta j p.
Proof.
  intros Hsp. rewrite forallb_forall. split; intros G p Hp.
  - eapply within_iff; eauto.
  - eapply within_iff; eauto. 
Qed.

Lemma some_covers_ok s beta ps l : spheres s -> (forall i, In i l -> (i < count s)%nat) ->
  exists b, some_covers s beta ps l = Ok b
    /\ (b = true <-> exists j, In j l /\ forall p, In p ps -> covers s beta j p).
Proof.
  intros Hs. induction l as [|i l IH]; intros Hl; cbn [some_covers].
  - exists false. split; auto. split; [discriminate|]. intros (j & [] & _).
  - destruct (@get_sphere_ok s Hs i) as (sp & -> & _ & Hsp); [apply Hl; left; auto|]. cbn [bind].
    destruct (forallb _ ps) eqn:Ef.
    + exists true. split; auto. split; auto. intros _. exists i. split; [left; auto|].
      eapply forallb_within; eauto.
    + destruct IH as (b & -> & Hb); [intros; apply Hl; right; auto|]. exists b. split; auto.
      rewrite Hb. split; [intros (j & Hj & H); exists j; split; [right|]; auto|].
      intros (j & [<-|Hj] & H).
      * eapply forallb_within in H; eauto. congruence.
      * exists j; auto.
Qed.

(** The nearest sphere to [x] and the estimate it gives. *)
Lemma estimate_ok s x L : spheres s -> (3 <= length x)%nat ->
  (exists j, (j < count s)%nat /\ vdist 3 (vec x) (center s j) < dbl_max) ->
  exists c, (c < count s)%nat
    /\ estimate s x L = Ok (radius s c + L * vdist 3 (vec x) (center s c))
    /\ forall j, (j < count s)%nat -> vdist 3 (vec x) (center s c) <= vdist 3 (vec x) (center s j).
Proof.
  intros Hs Hx (j & Hj & Hd). pose proof Hs as (Rd & End & _). unfold estimate.
  destruct (@closest_ok s Rd any x dbl_max) as (b & -> & N); [rewrite End; auto|left; apply dbl_max_pos|]. cbn [bind].
  destruct N as [(-> & N)|(i & Hi & _ & -> & _ & N)].
  - exfalso. specialize (N j). cbn [snd] in N. rewrite dist_to_vdist in N by auto.
    assert (dbl_max <= vdist 3 (vec x) (center s j)) by (apply N; auto; apply in_seq; unfold count in Hj; lia). 
    apply Rlt_not_le in Hd. auto.
  - apply in_seq in Hi. exists i. split; [unfold count; lia|]. rewrite dist_to_vdist by auto.
    rewrite get_radius_ok by (auto; unfold count; lia). cbn [bind nadd nmul RNum]. split; auto.
    intros k Hk. rewrite <- !dist_to_vdist by auto. apply N; auto. apply in_seq. unfold count in Hk. lia.
Qed.

Lemma query_ok s x r : spheres s -> (3 <= length x)%nat ->
  exists l, points_in_sphere s any x r = Ok l
    /\ NoDup l /\ (forall j, In j l -> (j < count s)%nat)
    /\ (forall j, (j < count s)%nat -> vdist 3 (vec x) (center s j) < r -> In j l)
    /\ (forall j, In j l -> vdist 3 (vec x) (center s j) * vdist 3 (vec x) (center s j) < (1 + 2 / 10 ^ 6) * r * r).
Proof.
  intros Hs Hx. pose proof Hs as (Rd & End & _).
  destruct (@points_in_sphere_ok s Rd any x r) as (out & E & l & -> & N & I & H1 & H2); [rewrite End; auto|].
  exists l. split; [exact E|]. split; auto. split; [|split].
  - intros j Hj. apply I, in_seq in Hj. unfold count. lia.
  - intros j Hj Hd. apply H2; auto; [apply in_seq; unfold count in Hj; lia|]. rewrite dist_to_vdist; auto.
  - intros j Hj. rewrite <- !dist_to_vdist by auto. unfold dist_to. rewrite dist_sq. apply (H1 j Hj).
Qed.

Lemma spheres_n s : spheres s -> (st_n s =? 0)%nat = false /\ (0 < count s)%nat.
Proof.
  intros ((_ & N & _) & _). unfold count, st_n. destruct (st_pts s); [congruence|]. split; auto. simpl. lia.
Qed.

(** A sphere around [x] is found from the estimate at [x]. *)
Lemma found s L x c j : 0 <= L < 1 -> locally_lipschitz L s -> (c < count s)%nat -> (j < count s)%nat ->
  vdist 3 x (center s c) <= vdist 3 x (center s j) -> vdist 3 x (center s j) < radius s j ->
  radius s j <= (radius s c + L * vdist 3 x (center s c)) / (1 - L)
  /\ 0 <= radius s c + L * vdist 3 x (center s c).
Proof.
  intros HL HLip Hc Hj Hmin Hin.
  set (dc := vdist 3 x (center s c)) in *. set (dj := vdist 3 x (center s j)) in *.
  pose proof (vdist_nonneg 3 x (center s c)) as Pc. fold dc in Pc.
  pose proof (vdist_nonneg 3 x (center s j)) as Pj. fold dj in Pj.
  assert (Hg : gap s j c <= dj + dc).
  { unfold gap, dj, dc. rewrite (vdist_sym 3 x (center s j)). apply vdist_triangle. }
  assert (Hr : radius s j <= radius s c + L * gap s j c) by (apply HLip; auto; lra).
  assert (L * gap s j c <= L * (dj + dc)) by (apply Rmult_le_compat_l; lra).
  assert (L * dj <= L * radius s j) by (apply Rmult_le_compat_l; lra).
  assert (radius s j * (1 - L) <= radius s c + L * dc) by nra.
  split.
  - apply Rmult_le_reg_r with (1 - L); [lra|]. unfold Rdiv. rewrite Rmult_assoc, Rinv_l, Rmult_1_r by lra. auto.
  - assert (0 <= radius s j * (1 - L)) by (apply Rmult_le_pos; lra). lra.
Qed.

Lemma beta_of_R alpha : @beta_of R RNum alpha = fraction alpha.
Proof.
  unfold beta_of, fraction. rewrite tol_eq. cbn [nltb RNum]. unfold Rltb.
  destruct (Rlt_dec _ _); reflexivity.
Qed.

Lemma vdist_convex n a b c (x : nat -> R) t : 0 <= t <= 1 ->
  (forall k, (k < n)%nat -> x k = (1 - t) * a k + t * b k) ->
  vdist n x c <= (1 - t) * vdist n a c + t * vdist n b c.
Proof.
  intros Ht Hx.
  rewrite (@vdist_ext n x (fun k => (1 - t) * a k + t * b k) c c); auto.
  unfold vdist.
  rewrite (@norm_ext n _ (fun k => (1 - t) * (a k - c k) + t * (b k - c k))) by (intros; lra).
  eapply Rle_trans; [apply norm_triangle|].
  rewrite !norm_scal, !Rabs_pos_eq by lra. lra.
Qed.

Definition point_at_reach (s : stree R) (x : nat -> R) : Prop :=
  exists j, (j < count s)%nat /\ vdist 3 x (center s j) < dbl_max.

Lemma point_covered_ok s x L alpha : spheres s -> (3 <= length x)%nat -> point_at_reach s (vec x) ->
  exists b, point_covered s x L alpha = Ok b
    /\ (b = true -> exists j, (j < count s)%nat /\ covers s (fraction alpha) j (vec x))
    /\ (0 <= L < 1 -> locally_lipschitz L s -> forall j, (j < count s)%nat ->
        covers s (fraction alpha) j (vec x) -> vdist 3 (vec x) (center s j) < radius s j -> b = true).
Proof.
  intros Hs Hx Hr. destruct (spheres_n Hs) as (N0 & _). unfold point_covered. rewrite N0.
  destruct (@estimate_ok s x L Hs Hx Hr) as (c & Hc & -> & Hmin). cbn [bind].
  change (@n1 R RNum) with 1. change ndiv with Rdiv. change nsub with Rminus.
  set (RR := (radius s c + L * vdist 3 (vec x) (center s c)) / (1 - L)).
  destruct (@query_ok s x RR Hs Hx) as (l & -> & _ & Hl & Hall & _). cbn [bind].
  rewrite beta_of_R.
  destruct (@some_covers_ok s (fraction alpha) [gv x] l Hs Hl) as (b & -> & Hb).
  exists b. split; auto. split.
  - intros Eb. apply Hb in Eb. destruct Eb as (j & Hj & H). exists j. split; auto. apply H. left; auto.
  - intros HL HLip j Hj Hcov Hin. apply Hb. exists j. split; [|intros p [<-|[]]; exact Hcov].
    apply Hall; auto. unfold RR.
    destruct (@found s L (vec x) c j HL HLip Hc Hj) as (G & _); auto. lra.
Qed.

Lemma corners_covered_ok s m ps L alpha : spheres s -> (3 <= length m)%nat -> point_at_reach s (vec m) ->
  exists b, corners_covered s m ps L alpha = Ok b
    /\ (b = true -> exists j, (j < count s)%nat /\ forall p, In p ps -> covers s (sqrt (1 - alpha * alpha)) j p)
    /\ (0 <= L < 1 -> locally_lipschitz L s -> forall j, (j < count s)%nat ->
        (forall p, In p ps -> covers s (sqrt (1 - alpha * alpha)) j p) ->
        vdist 3 (vec m) (center s j) < radius s j -> b = true).
Proof.
  intros Hs Hx Hr. destruct (spheres_n Hs) as (N0 & _). unfold corners_covered. rewrite N0.
  destruct (@estimate_ok s m L Hs Hx Hr) as (c & Hc & -> & Hmin). cbn [bind].
  change (@n1 R RNum) with 1. change ndiv with Rdiv. change nsub with Rminus. change nadd with Rplus. change nmul with Rmult.
  set (est := radius s c + L * vdist 3 (vec m) (center s c)).
  destruct (@query_ok s m (est * (1 + L) / (1 - L) + est) Hs Hx) as (l & -> & _ & Hl & Hall & _). cbn [bind].
  change (nsqrt (1 - alpha * alpha)) with (sqrt (1 - alpha * alpha)).
  destruct (@some_covers_ok s (sqrt (1 - alpha * alpha)) ps l Hs Hl) as (b & -> & Hb).
  exists b. split; auto. split.
  - intros Eb. apply Hb in Eb. destruct Eb as (j & Hj & H). exists j. split; auto.
  - intros HL HLip j Hj Hcov Hin. apply Hb. exists j. split; [|exact Hcov].
    apply Hall; auto.
    destruct (@found s L (vec m) c j HL HLip Hc Hj) as (G & G0); auto. fold est in G, G0.
    assert (est / (1 - L) <= est * (1 + L) / (1 - L)).
    { unfold Rdiv. apply Rmult_le_compat_r; [left; apply Rinv_0_lt_compat; lra|].
      assert (0 <= est * L) by (apply Rmult_le_pos; lra). lra. }
    lra.
Qed.

Lemma vdist_bary n (c : nat -> nat -> R) (m : nat -> R) (x o : nat -> R) : 
  m 0%nat + m 1%nat + m 2%nat = 1 -> (forall k, (k < 3)%nat -> 0 <= m k) ->
  (forall d, (d < n)%nat -> x d = m 0%nat * c 0%nat d + m 1%nat * c 1%nat d + m 2%nat * c 2%nat d) ->
  vdist n x o <= m 0%nat * vdist n (c 0%nat) o + m 1%nat * vdist n (c 1%nat) o + m 2%nat * vdist n (c 2%nat) o.
Proof.
  intros Hsum Hpos Hx. unfold vdist.
  pose proof (Hpos 0%nat ltac:(lia)). pose proof (Hpos 1%nat ltac:(lia)). pose proof (Hpos 2%nat ltac:(lia)).
  rewrite (@norm_ext n _ (fun k => (m 0%nat * (c 0%nat k - o k) + m 1%nat * (c 1%nat k - o k)) + m 2%nat * (c 2%nat k - o k))).
  2:{ intros d Hd. rewrite Hx by auto. replace (o d) with ((m 0%nat + m 1%nat + m 2%nat) * o d) at 1 by (rewrite Hsum; lra). ring. }
  eapply Rle_trans; [apply norm_triangle|]. rewrite norm_scal, Rabs_pos_eq by auto.
  apply Rplus_le_compat_r.
  eapply Rle_trans; [apply norm_triangle|]. rewrite !norm_scal, !Rabs_pos_eq by auto. lra.
Qed.

Lemma center2_vec (a b : list R) d : (d < 3)%nat -> vec (center2 a b) d = (1 - 1 / 2) * vec a d + 1 / 2 * vec b d.
Proof.
  intros Hd. unfold center2. rewrite nlit5. destruct d as [|[|[|d]]]; [| | |lia]; cbn; unfold gv, vec; change (@n0 R RNum) with 0; lra.
Qed.
Lemma center3_vec (a b c : list R) d : (d < 3)%nat -> vec (center3 a b c) d = 1 / 3 * vec a d + 1 / 3 * vec b d + 1 / 3 * vec c d.
Proof.
  intros Hd. unfold center3. destruct d as [|[|[|d]]]; [| | |lia]; cbn; unfold gv, vec; change (@n0 R RNum) with 0; lra.
Qed.
