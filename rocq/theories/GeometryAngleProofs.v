From Coq Require Import Reals Lra.
From Verif Require Import Base Num GeometryAngle GeometryProofs.
Local Open Scope R_scope.

Lemma atan_ratio u v : 0 < u -> 0 <= v -> let r := sqrt (u * u + v * v) in
  cos (atan (v / u)) = u / r /\ sin (atan (v / u)) = v / r /\ 0 <= atan (v / u) < PI / 2.
Proof.
  intros U V r.
  assert (RP : 0 < r) by (apply sqrt_lt_R0; nra).
  assert (RR : r * r = u * u + v * v) by (apply sqrt_sqrt; nra).
  assert (E : sqrt (1 + (v / u)²) = r / u).
  { replace (1 + (v / u)²) with ((r / u) * (r / u)).
    - apply sqrt_square. apply Rlt_le, Rdiv_lt_0_compat; auto.
    - unfold Rsqr. replace (r / u * (r / u)) with (r * r / (u * u)) by (field; lra). rewrite RR. field. lra. }
  rewrite cos_atan, sin_atan, E. repeat split; try (field; lra).
  - rewrite <- atan_0. destruct (Req_dec v 0) as [->|N].
    + unfold Rdiv. rewrite Rmult_0_l. lra.
    + apply Rlt_le, atan_increasing, Rdiv_lt_0_compat; lra.
  - apply atan_bound.
Qed.
Lemma point_angle_R x y :
  1 / 10 ^ 10 <= Rabs x \/ 1 / 10 ^ 10 <= Rabs y ->
  x <= - (1 / 10 ^ 10) \/ 0 <= x -> y <= - (1 / 10 ^ 10) \/ 0 <= y ->
  let t := point_angle x y in let r := sqrt (x * x + y * y) in
  0 <= t < 2 * PI /\ x = r * cos t /\ y = r * sin t.
Proof.
  intros NS DX DY. cbn zeta. unfold point_angle. rewrite tol_eq. pose proof tol_pos as TP.
  replace (Rltb (Rabs x) (1 / 10 ^ 10) && Rltb (Rabs y) (1 / 10 ^ 10)) with false.
  2:{ symmetry. apply andb_false_iff. rewrite !Rltb_false. exact NS. }
  set (r := sqrt (x * x + y * y)).
  assert (AX : Rabs x * Rabs x = x * x) by (rewrite <- Rabs_mult; apply Rabs_pos_eq, Rle_0_sqr).
  assert (AY : Rabs y * Rabs y = y * y) by (rewrite <- Rabs_mult; apply Rabs_pos_eq, Rle_0_sqr).
  pose proof (Rabs_pos x) as PX. pose proof (Rabs_pos y) as PY.
  assert (RP : 0 < r).
  { apply sqrt_lt_R0. rewrite <- AX, <- AY. destruct NS; nra. }
  set (angle := if Rltb (Rabs y) (Rabs x) then _ else _).
  assert (A : cos angle = Rabs x / r /\ sin angle = Rabs y / r /\ 0 <= angle <= PI / 2 /\ (0 < Rabs y -> 0 < angle)).
  { unfold angle. pose proof PI_RGT_0. destruct (Rltb (Rabs y) (Rabs x)) eqn:L.
    - apply Rltb_true in L. destruct (@atan_ratio (Rabs x) (Rabs y) ltac:(lra) PY) as (C & S & B).
      rewrite AX, AY in C, S. fold r in C, S. repeat split; auto; try lra.
      intros Q. rewrite <- atan_0. apply atan_increasing, Rdiv_lt_0_compat; lra.
    - apply Rltb_false in L. assert (0 < Rabs y) by (destruct NS; lra).
      destruct (@atan_ratio (Rabs y) (Rabs x) ltac:(lra) PX) as (C & S & B).
      rewrite AX, AY, Rplus_comm in C, S. fold r in C, S.
      replace (/ 2 * PI - atan (Rabs x / Rabs y)) with (PI / 2 - atan (Rabs x / Rabs y)) by lra.
      rewrite cos_shift, sin_shift. repeat split; auto; lra. }
  clearbody angle. destruct A as (C & S & B & Q). pose proof PI_RGT_0.
  assert (CX : r * (Rabs x / r) = Rabs x) by (field; lra).
  assert (CY : r * (Rabs y / r) = Rabs y) by (field; lra).
  destruct DX as [DX|DX]; destruct DY as [DY|DY].
  - replace (Rltb (- (1 / 10 ^ 10)) x) with false by (symmetry; apply Rltb_false; lra).
    replace (Rltb (- (1 / 10 ^ 10)) y) with false by (symmetry; apply Rltb_false; lra). cbn [andb].
    split; [lra|]. rewrite Rplus_comm, neg_cos, neg_sin, C, S. rewrite (Rabs_left x), (Rabs_left y) in * by lra. lra.
  - replace (Rltb (- (1 / 10 ^ 10)) x) with false by (symmetry; apply Rltb_false; lra).
    replace (Rltb (- (1 / 10 ^ 10)) y) with true by (symmetry; apply Rltb_true; lra). cbn [andb].
    split; [lra|]. rewrite Rtrigo_facts.cos_pi_minus, Rtrigo_facts.sin_pi_minus, C, S. rewrite (Rabs_left x), (Rabs_pos_eq y) in * by lra. lra.
  - replace (Rltb (- (1 / 10 ^ 10)) x) with true by (symmetry; apply Rltb_true; lra).
    replace (Rltb (- (1 / 10 ^ 10)) y) with false by (symmetry; apply Rltb_false; lra). cbn [andb].
    assert (0 < angle) by (apply Q; rewrite Rabs_left; lra).
    split; [lra|]. replace (2 * PI - angle) with (- angle + 2 * INR 1 * PI) by (simpl; lra).
    rewrite cos_period, sin_period, cos_neg, sin_neg, C, S. rewrite (Rabs_pos_eq x), (Rabs_left y) in * by lra. lra.
  - replace (Rltb (- (1 / 10 ^ 10)) x) with true by (symmetry; apply Rltb_true; lra).
    replace (Rltb (- (1 / 10 ^ 10)) y) with true by (symmetry; apply Rltb_true; lra). cbn [andb].
    split; [lra|]. rewrite C, S. rewrite (Rabs_pos_eq x), (Rabs_pos_eq y) in * by lra. lra.
Qed.
