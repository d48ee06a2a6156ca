From Coq Require Import Reals Lra.
From Verif Require Import Base Num Vec SamplingSpec DenseQR DenseQRProofs Geometry GeometrySpec GeometryProofs.
Local Open Scope R_scope.

Lemma lt3 d : (d < 3)%nat -> d = 0%nat \/ d = 1%nat \/ d = 2%nat. Proof. lia. Qed.
Ltac cases3 d H := destruct (lt3 H) as [-> | [-> | ->]].

(** Plane coordinates. *)
Lemma plane_coords a b w d : (d < 3)%nat ->
  let N := vprod a b in
  dot 3 N N * w d - dot 3 N w * N d = dot 3 N (vprod w b) * a d + dot 3 N (vprod a w) * b d.
Proof. intros H. cases3 d H; cbn zeta; rewrite !dot3; simpl; ring. Qed.

Lemma exit1 l m : 0 <= l -> exists t, 0 <= t <= 1 /\ (m < 0 -> l + t * (m - l) = 0) /\ (0 <= m -> t = 1) /\
  forall s, 0 <= s <= t -> 0 <= l + s * (m - l).
Proof.
  intros L. destruct (Rlt_le_dec m 0) as [M|M].
  - exists (l / (l - m)). assert (P : 0 < l - m) by lra.
    assert (E : l / (l - m) * (l - m) = l) by (field; lra).
    assert (0 <= l / (l - m)) by (apply Rmult_le_pos; [lra|apply Rlt_le, Rinv_0_lt_compat; lra]).
    assert (l / (l - m) <= 1).
    { apply Rmult_le_reg_r with (l - m); [lra|]. rewrite E. lra. }
    split; [lra|]. split; [intros _; nra|]. split; [lra|]. intros s Hs. nra.
  - exists 1. split; [lra|]. split; [lra|]. split; [auto|]. intros s Hs. nra.
Qed.
Lemma exit_point (l m : nat -> R) : (forall k, (k < 3)%nat -> 0 <= l k) -> (exists k, (k < 3)%nat /\ m k < 0) ->
  exists t, 0 <= t <= 1 /\ (forall k, (k < 3)%nat -> 0 <= l k + t * (m k - l k)) /\
    exists k, (k < 3)%nat /\ l k + t * (m k - l k) = 0.
Proof.
  intros L (k0 & K0 & M0).
  destruct (@exit1 (l 0%nat) (m 0%nat) (L 0%nat ltac:(lia))) as (t0 & T0 & Z0 & O0 & A0).
  destruct (@exit1 (l 1%nat) (m 1%nat) (L 1%nat ltac:(lia))) as (t1 & T1 & Z1 & O1 & A1).
  destruct (@exit1 (l 2%nat) (m 2%nat) (L 2%nat ltac:(lia))) as (t2 & T2 & Z2 & O2 & A2).
  assert (C : forall t, (t = t0 \/ t = t1 \/ t = t2) -> t <= t0 -> t <= t1 -> t <= t2 ->
    exists k, (k < 3)%nat /\ l k + t * (m k - l k) = 0).
  { intros t E B0 B1 B2.
    destruct (Rlt_le_dec (m 0%nat) 0) as [N0|P0].
    - destruct (Req_dec t t0) as [->|Ne]; [exists 0%nat; auto|].
      destruct (Rlt_le_dec (m 1%nat) 0) as [N1|P1].
      + destruct (Req_dec t t1) as [->|Ne1]; [exists 1%nat; auto|].
        destruct E as [|[|]]; try contradiction. subst t.
        destruct (Rlt_le_dec (m 2%nat) 0) as [N2|P2]; [exists 2%nat; auto|]. rewrite (O2 P2) in *. lra.
      + rewrite (O1 P1) in *. destruct E as [|[|]]; try contradiction; subst t; try lra.
        destruct (Rlt_le_dec (m 2%nat) 0) as [N2|P2]; [exists 2%nat; auto|]. rewrite (O2 P2) in *. lra.
    - rewrite (O0 P0) in *.
      destruct (Rlt_le_dec (m 1%nat) 0) as [N1|P1].
      + destruct (Req_dec t t1) as [->|Ne1]; [exists 1%nat; auto|].
        destruct (Rlt_le_dec (m 2%nat) 0) as [N2|P2].
        * destruct E as [|[|]]; try contradiction; subst t; try lra. exists 2%nat; auto.
        * rewrite (O2 P2) in *. destruct E as [|[|]]; try contradiction; lra.
      + rewrite (O1 P1) in *. assert (N2 : m 2%nat < 0) by (cases3 k0 K0; lra).
        exists 2%nat. split; [lia|]. replace t with t2 by lra. auto. }
  assert (exists t, (t = t0 \/ t = t1 \/ t = t2) /\ t <= t0 /\ t <= t1 /\ t <= t2) as (t & E & B0 & B1 & B2).
  { destruct (Rle_dec t0 t1), (Rle_dec t0 t2), (Rle_dec t1 t2);
      solve [exists t0; split; [auto|lra] | exists t1; split; [auto|lra] | exists t2; split; [auto|lra]]. }
  assert (0 <= t <= 1) by (destruct E as [|[|]]; subst; lra).
  exists t. split; auto. split; [|apply C; auto].
  intros k Hk. cases3 k Hk; [apply A0|apply A1|apply A2]; lra.
Qed.

Section Tri.
  Variables (p : nat -> R) (c : nat -> nat -> R).
  Hypothesis G : ~ sliver c.
  Let a := sub (c 1%nat) (c 0%nat).
  Let b := sub (c 2%nat) (c 0%nat).
  Let N := vprod a b.

  Lemma tri_normal : exists m, triangle_normal c = (true, m) /\ 0 < norm 3 N /\ forall d, m d = N d / norm 3 N.
  Proof. destruct (triangle_normal_R c) as [[_ H]|[H _]]; [exact H|contradiction]. Qed.

  Section Foot.
    Variable n : nat -> R.
    Hypothesis NP : 0 < norm 3 N.
    Hypothesis nE : forall d, n d = N d / norm 3 N.
    Let NN : 0 < dot 3 N N. Proof. rewrite <- norm_sq. nra. Qed.
    Let q : nat -> R := fun d => p d + dot 3 (fun d => c 0%nat d - p d) n * n d.
    Let w := sub q (c 0%nat).

    Lemma n_unit : dot 3 n n = 1.
    Proof. rewrite (@dot_ext 3 n (fun d => N d / norm 3 N) n (fun d => N d / norm 3 N)) by auto. now apply normalized_unit. Qed.
    Lemma foot_plane : dot 3 N w = 0.
    Proof.
      assert (E : dot 3 n w = 0).
      { unfold w, q, sub. pose proof n_unit as U.
        replace (dot 3 n _) with (dot 3 (fun d => c 0%nat d - p d) n * (dot 3 n n - 1)); [rewrite U; ring|].
        rewrite !dot3. ring. }
      rewrite (@dot_ext 3 N (fun d => norm 3 N * n d) w w).
      - rewrite dot_scal_l, E. ring.
      - intros d _. rewrite nE. field. lra.
      - auto.
    Qed.
    Definition mu : nat -> R := fun k => match k with
      | 0%nat => 1 - dot 3 N (vprod w b) / dot 3 N N - dot 3 N (vprod a w) / dot 3 N N
      | 1%nat => dot 3 N (vprod w b) / dot 3 N N
      | _ => dot 3 N (vprod a w) / dot 3 N N end.
    Lemma w_coords d : (d < 3)%nat -> w d = mu 1 * a d + mu 2 * b d.
    Proof.
      intros Hd. pose proof (plane_coords a b w Hd) as E. cbn zeta in E. fold N in E. rewrite foot_plane in E.
      unfold mu. apply Rmult_eq_reg_l with (dot 3 N N); [|lra].
      replace (dot 3 N N * w d) with (dot 3 N N * w d - 0 * N d) by ring. rewrite E. field. lra.
    Qed.
    Lemma mu_bary : barycentric c mu q.
    Proof.
      split; [unfold mu; ring|]. intros d Hd. pose proof (w_coords Hd) as E.
      unfold w, a, b, sub in E.
      assert (M : mu 0 = 1 - mu 1 - mu 2) by reflexivity. rewrite M. lra.
    Qed.
    (** The moved triangle's vector area is mu_k times N. *)
    Lemma moved_area k d : (k < 3)%nat -> (d < 3)%nat ->
      vprod (sub (moved c k q 1%nat) (moved c k q 0%nat)) (sub (moved c k q 2%nat) (moved c k q 0%nat)) d = mu k * N d.
    Proof.
      intros Hk Hd.
      pose proof (@w_coords 0%nat ltac:(lia)) as E0. pose proof (@w_coords 1%nat ltac:(lia)) as E1. pose proof (@w_coords 2%nat ltac:(lia)) as E2.
      assert (M : mu 0 = 1 - mu 1 - mu 2) by reflexivity.
      assert (Q : forall e, q e = c 0%nat e + w e) by (intros; unfold w, sub; ring).
      assert (C1 : forall e, c 1%nat e = c 0%nat e + a e) by (intros; unfold a, sub; ring).
      assert (C2 : forall e, c 2%nat e = c 0%nat e + b e) by (intros; unfold b, sub; ring).
      unfold moved. cases3 k Hk; cbn [Nat.eqb]; cases3 d Hd; unfold vprod at 1, N, vprod, sub at 1 2 3 4;
        rewrite ?Q, ?C1, ?C2, ?M, ?E0, ?E1, ?E2; ring.
    Qed.
    Lemma side_cases i : (i < 3)%nat ->
      (side_ok c n q i = true /\ (0 <= mu (before i) \/ sliver (moved c (before i) q))) \/
      (side_ok c n q i = false /\ mu (before i) < 0).
    Proof.
      intros Hi. assert (Hk : (before i < 3)%nat) by (unfold before; destruct (Nat.ltb 0 i); lia).
      set (k := before i) in *. unfold side_ok. fold k. change (@replaced R c k q) with (moved c k q).
      destruct (triangle_normal_R (moved c k q)) as [(NS & m & -> & P & E)|(S & m & ->)]; [|left; auto].
      set (V := vprod (sub (moved c k q 1%nat) (moved c k q 0%nat)) (sub (moved c k q 2%nat) (moved c k q 0%nat))) in *.
      assert (VE : forall d, (d < 3)%nat -> V d = mu k * N d) by (intros; now apply moved_area).
      assert (VN : norm 3 V = Rabs (mu k) * norm 3 N).
      { rewrite (@norm_ext 3 V (fun d => mu k * N d)) by auto. apply norm_scal. }
      assert (MP : 0 < Rabs (mu k)).
      { apply Rnot_le_lt. intros Hc. pose proof (Rabs_pos (mu k)). assert (Rabs (mu k) = 0) by lra. rewrite H0, Rmult_0_l in VN. lra. }
      rewrite dot_product_R.
      assert (D : dot 3 m n = mu k / Rabs (mu k)).
      { rewrite (@dot_ext 3 m (fun d => (mu k / Rabs (mu k)) * n d) n n); auto.
        - rewrite dot_scal_l, n_unit. ring.
        - intros d Hd. rewrite E, VE, VN, nE by auto. field. split; lra. }
      rewrite D. change nltb with Rltb. change nopp with Ropp. rewrite tol_eq. pose proof tol_pos.
      destruct (Rlt_le_dec (mu k) 0) as [M|M].
      - right. split; auto. rewrite Rabs_left by lra. replace (mu k / - mu k) with (-1) by (field; lra).
        assert (T1 : 1 / 10 ^ 10 < 1). { apply Rmult_lt_reg_r with (10 ^ 10); [apply pow_lt; lra|]. unfold Rdiv. rewrite Rmult_assoc, Rinv_l by (apply pow_nonzero; lra). lra. }
        replace (Rltb (-1) (- (1 / 10 ^ 10))) with true by (symmetry; apply Rltb_true; lra). reflexivity.
      - left. split; auto. assert (mu k <> 0) by (intros Z; rewrite Z, Rabs_R0 in MP; lra).
        rewrite Rabs_pos_eq by lra. replace (mu k / mu k) with 1 by (field; lra).
        replace (Rltb 1 (- (1 / 10 ^ 10))) with false by (symmetry; apply Rltb_false; lra). reflexivity.
    Qed.
    (** Pythagoras: points of the plane are farther than the foot. *)
    Lemma foot_dist x m : barycentric c m x ->
      dot 3 (fun d => p d - x d) (fun d => p d - x d) =
      dot 3 (fun d => p d - q d) (fun d => p d - q d) + dot 3 (fun d => q d - x d) (fun d => q d - x d).
    Proof.
      intros (S1 & X).
      assert (O : dot 3 n (fun d => q d - x d) = 0).
      { rewrite (@dot_ext 3 n (fun d => / norm 3 N * N d) (fun d => q d - x d) (fun d => w d - (m 1%nat * a d + m 2%nat * b d))).
        - rewrite dot_scal_l, dot_minus_r, dot_plus_r, !dot_scal_r, foot_plane. unfold N. rewrite vprod_orth_l, vprod_orth_r. ring.
        - intros d _. rewrite nE. unfold Rdiv. ring.
        - intros d Hd. rewrite (X d Hd). unfold w, a, b, sub. replace (m 0%nat) with (1 - m 1%nat - m 2%nat) by lra. ring. }
      set (t := dot 3 (fun d => c 0%nat d - p d) n).
      assert (PQ : forall d, p d - q d = - t * n d) by (intros; unfold q, t; ring).
      replace (dot 3 (fun d => p d - x d) (fun d => p d - x d)) with
        (dot 3 (fun d => p d - q d) (fun d => p d - q d) + dot 3 (fun d => q d - x d) (fun d => q d - x d) + 2 * dot 3 (fun d => p d - q d) (fun d => q d - x d)).
      - rewrite (@dot_ext 3 (fun d => p d - q d) (fun d => - t * n d) (fun d => q d - x d) (fun d => q d - x d)) by auto.
        rewrite dot_scal_l, O. ring.
      - rewrite !dot3. ring.
    Qed.
    Lemma foot_le x m : barycentric c m x -> vdist 3 p q <= vdist 3 p x.
    Proof.
      intros B. unfold vdist, norm. apply sqrt_le_1_alt. rewrite (foot_dist B).
      pose proof (dot_self_nonneg 3 (fun d => q d - x d)). lra.
    Qed.
    (** If the foot is outside, some boundary point is at least as close as any point. *)
    Lemma boundary_closer x : in_triangle c x -> (exists k, (k < 3)%nat /\ mu k < 0) ->
      exists i s, (i < 3)%nat /\ on_segment (c i) (c (after i)) s /\ vdist 3 p s <= vdist 3 p x.
    Proof.
      intros (l & B & L) M.
      destruct (@exit_point l mu L M) as (t & T & POS & k & Hk & Z).
      set (v := fun j => l j + t * (mu j - l j)) in *.
      set (s := fun d => x d + t * (q d - x d)).
      destruct B as (SL & XL). destruct mu_bary as (SM & QM).
      assert (SB : barycentric c v s).
      { split; [unfold v; nra|]. intros d Hd. unfold s, v. rewrite (XL d Hd), (QM d Hd). ring. }
      assert (DS : vdist 3 p s <= vdist 3 p x).
      { unfold vdist, norm. apply sqrt_le_1_alt. rewrite (foot_dist SB), (@foot_dist x l (conj SL XL)).
        apply Rplus_le_compat_l.
        rewrite (@dot_ext 3 (fun d => q d - s d) (fun d => (1 - t) * (q d - x d)) (fun d => q d - s d) (fun d => (1 - t) * (q d - x d))) by (intros; unfold s; ring).
        rewrite dot_scal_l, dot_scal_r. pose proof (dot_self_nonneg 3 (fun d => q d - x d)).
        assert (0 <= (1 - t) * (1 - t) <= 1) by nra. nra. }
      destruct SB as (SV & SX). pose proof (POS 0%nat ltac:(lia)) as V0. pose proof (POS 1%nat ltac:(lia)) as V1. pose proof (POS 2%nat ltac:(lia)) as V2.
      fold (v 0%nat) in V0. fold (v 1%nat) in V1. fold (v 2%nat) in V2. fold (v k) in Z.
      cases3 k Hk.
      - exists 1%nat, s. split; [lia|]. split; [|exact DS]. exists (v 2%nat). split; [lra|]. intros d Hd. rewrite (SX d Hd). unfold after. cbn [Nat.eqb Nat.add].
        replace (v 1%nat) with (1 - v 2%nat) by lra. rewrite Z. ring.
      - exists 2%nat, s. split; [lia|]. split; [|exact DS]. exists (v 0%nat). split; [lra|]. intros d Hd. rewrite (SX d Hd). unfold after. cbn [Nat.eqb Nat.add].
        replace (v 2%nat) with (1 - v 0%nat) by lra. rewrite Z. ring.
      - exists 0%nat, s. split; [lia|]. split; [|exact DS]. exists (v 1%nat). split; [lra|]. intros d Hd. rewrite (SX d Hd). unfold after. cbn [Nat.eqb Nat.add].
        replace (v 0%nat) with (1 - v 1%nat) by lra. rewrite Z. ring.
    Qed.
  End Foot.

  Lemma edges_proper i : (i < 3)%nat -> exists d, (d < 3)%nat /\ c i d <> c (after i) d.
  Proof.
    intros Hi. destruct tri_normal as (m & _ & NP & _).
    destruct (Req_dec (c i 0%nat) (c (after i) 0%nat)) as [E0|]; [|exists 0%nat; auto].
    destruct (Req_dec (c i 1%nat) (c (after i) 1%nat)) as [E1|]; [|exists 1%nat; auto].
    destruct (Req_dec (c i 2%nat) (c (after i) 2%nat)) as [E2|]; [|exists 2%nat; auto].
    exfalso. assert (Z : dot 3 N N = 0).
    { unfold N, a, b. rewrite dot3. unfold vprod, sub.
      cases3 i Hi; cbn in E0, E1, E2; rewrite ?E0, ?E1, ?E2; ring. }
    unfold norm in NP. rewrite Z, sqrt_0 in NP. lra.
  Qed.
  Lemma segment_triangle i s : (i < 3)%nat -> on_segment (c i) (c (after i)) s -> in_triangle c s.
  Proof.
    intros Hi (u & U & E). cases3 i Hi; unfold after in E; cbn [Nat.eqb Nat.add] in E.
    - exists (fun k => match k with 0%nat => 1 - u | 1%nat => u | _ => 0 end). split; [split; [ring|]|].
      + intros d Hd. rewrite (E d Hd). ring.
      + intros k Hk. cases3 k Hk; lra.
    - exists (fun k => match k with 0%nat => 0 | 1%nat => 1 - u | _ => u end). split; [split; [ring|]|].
      + intros d Hd. rewrite (E d Hd). ring.
      + intros k Hk. cases3 k Hk; lra.
    - exists (fun k => match k with 0%nat => u | 1%nat => 0 | _ => 1 - u end). split; [split; [ring|]|].
      + intros d Hd. rewrite (E d Hd). ring.
      + intros k Hk. cases3 k Hk; lra.
  Qed.
  Lemma closer_edge_R i best : (i < 3)%nat ->
    let '(q, h) := closer_edge p c i best in
    h <= snd best /\ (forall s, on_segment (c i) (c (after i)) s -> h <= vdist 3 p s) /\
    ((q, h) = best \/ (in_triangle c q /\ h = vdist 3 p q)).
  Proof.
    intros Hi. unfold closer_edge. pose proof (@segment_R p (c i) (c (after i)) (edges_proper Hi)) as S.
    destruct (project_segment p (c i) (c (after i))) as [q h]. destruct S as (OS & HE & MIN).
    rewrite distance_R, vdist_sym, <- HE. change nltb with Rltb.
    destruct (Rltb h (snd best)) eqn:L.
    - apply Rltb_true in L. split; [lra|]. split; [exact MIN|]. right. split; [|exact HE]. eapply segment_triangle; eauto.
    - apply Rltb_false in L. destruct best as [q0 h0]. cbn [snd] in *. split; [lra|]. split; [|left; reflexivity].
      intros s Hs. specialize (MIN s Hs). lra.
  Qed.

  Hypothesis Far : forall i, (i < 3)%nat -> vdist 3 p (c i) < @dbl_max R _.
  Lemma project_triangle_R :
    let '(q, h) := project_triangle p c in
    h = vdist 3 p q /\ (forall x, in_triangle c x -> h <= vdist 3 p x) /\
    exists m, barycentric c m q /\ forall k, (k < 3)%nat -> 0 <= m k \/ sliver (moved c k q).
  Proof.
    destruct tri_normal as (n & E & NP & nE). unfold project_triangle. rewrite E. cbn [snd].
    rewrite dot_product_R. set (q0 := fun d => _).
    assert (Q0 : q0 = fun d => p d + dot 3 (fun d => c 0%nat d - p d) n * n d) by reflexivity.
    pose proof (@mu_bary n NP nE) as MB. pose proof (@foot_le n NP nE) as FL. pose proof (@boundary_closer n NP nE) as BC.
    rewrite <- Q0 in MB, FL. set (m := mu n) in *.
    assert (SC : forall i, (i < 3)%nat -> (side_ok c n q0 i = true /\ (0 <= m (before i) \/ sliver (moved c (before i) q0))) \/
      (side_ok c n q0 i = false /\ m (before i) < 0)) by exact (@side_cases n NP nE).
    destruct (side_ok c n q0 0 && side_ok c n q0 1 && side_ok c n q0 2) eqn:IN.
    - apply andb_true_iff in IN. destruct IN as [IN I2]. apply andb_true_iff in IN. destruct IN as [I0 I1].
      rewrite distance_R. split; [reflexivity|]. split.
      + intros x (l & B & _). apply (FL x l B).
      + exists m. split; [exact MB|]. intros k Hk. cases3 k Hk.
        * destruct (SC 1%nat ltac:(lia)) as [[_ H]|[H _]]; [exact H|congruence].
        * destruct (SC 2%nat ltac:(lia)) as [[_ H]|[H _]]; [exact H|congruence].
        * destruct (SC 0%nat ltac:(lia)) as [[_ H]|[H _]]; [exact H|congruence].
    - assert (OUT : exists k, (k < 3)%nat /\ m k < 0).
      { destruct (SC 0%nat ltac:(lia)) as [[H0 _]|[_ H]]; [|exists 2%nat; auto].
        destruct (SC 1%nat ltac:(lia)) as [[H1 _]|[_ H]]; [|exists 0%nat; auto].
        destruct (SC 2%nat ltac:(lia)) as [[H2 _]|[_ H]]; [|exists 1%nat; auto].
        rewrite H0, H1, H2 in IN. discriminate. }
      pose proof (@closer_edge_R 0%nat (q0, dbl_max) ltac:(lia)) as C0.
      destruct (closer_edge p c 0 (q0, dbl_max)) as [q1 h1]. destruct C0 as (L0 & M0 & D0).
      pose proof (@closer_edge_R 1%nat (q1, h1) ltac:(lia)) as C1.
      destruct (closer_edge p c 1 (q1, h1)) as [q2 h2]. destruct C1 as (L1 & M1 & D1).
      pose proof (@closer_edge_R 2%nat (q2, h2) ltac:(lia)) as C2.
      destruct (closer_edge p c 2 (q2, h2)) as [q3 h3]. destruct C2 as (L2 & M2 & D2).
      cbn [snd] in *.
      assert (H1 : in_triangle c q1 /\ h1 = vdist 3 p q1).
      { destruct D0 as [D0|D0]; [|exact D0]. injection D0 as -> ->. exfalso.
        assert (on_segment (c 0%nat) (c (after 0)) (c 0%nat)) as OS by (exists 0; split; [lra|]; intros; ring).
        pose proof (M0 _ OS). assert (L3 : (0 < 3)%nat) by lia. pose proof (Far L3). exact (Rlt_not_le _ _ (Far L3) (M0 _ OS)). }
      assert (H2 : in_triangle c q2 /\ h2 = vdist 3 p q2).
      { destruct D1 as [D1|D1]; [|exact D1]. now injection D1 as -> ->. }
      assert (H3 : in_triangle c q3 /\ h3 = vdist 3 p q3).
      { destruct D2 as [D2|D2]; [|exact D2]. now injection D2 as -> ->. }
      rewrite distance_R. destruct H3 as [T3 E3]. split; [reflexivity|]. rewrite <- E3. split.
      + intros x X. destruct (BC x X OUT) as (i & s & Hi & OS & DS). cases3 i Hi.
        * pose proof (M0 s OS). lra.
        * pose proof (M1 s OS). lra.
        * pose proof (M2 s OS). lra.
      + destruct T3 as (l & B & L). exists l. split; [exact B|]. auto.
  Qed.
End Tri.
