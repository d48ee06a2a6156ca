(** Finite sums and Euclidean geometry over R: specification vocabulary and
    standard facts.  Nothing here depends on the model. *)
From Verif Require Import Base SamplingSpec.
From Coq Require Import Reals Lra.
Local Open Scope R_scope.

(** f 0 + ... + f (n-1). *)
Definition sumn (n : nat) (f : nat -> R) : R := rsum (map f (seq 0 n)).
Definition dot (n : nat) (u v : nat -> R) : R := sumn n (fun k => u k * v k).
Definition norm (n : nat) (u : nat -> R) : R := sqrt (dot n u u).
Definition vdist (n : nat) (u v : nat -> R) : R := norm n (fun k => u k - v k).

Lemma rsum_app l1 l2 : rsum (l1 ++ l2) = rsum l1 + rsum l2.
Proof. induction l1 as [|a l IH]; unfold rsum in *; simpl; [lra|]. rewrite IH. lra. Qed.

Lemma sumn_0 f : sumn 0 f = 0. Proof. reflexivity. Qed.
Lemma sumn_S n f : sumn (S n) f = sumn n f + f n.
Proof.
  unfold sumn. rewrite seq_S, map_app, rsum_app. unfold rsum at 2. simpl. lra.
Qed.
Lemma sumn_ext n f g : (forall k, (k < n)%nat -> f k = g k) -> sumn n f = sumn n g.
Proof.
  intros H. unfold sumn. f_equal. apply map_ext_in. intros k Hk. apply in_seq in Hk. apply H. lia.
Qed.
Lemma sumn_plus n f g : sumn n (fun k => f k + g k) = sumn n f + sumn n g.
Proof. induction n; rewrite ?sumn_0, ?sumn_S; [lra|]. rewrite IHn. lra. Qed.
Lemma sumn_minus n f g : sumn n (fun k => f k - g k) = sumn n f - sumn n g.
Proof. induction n; rewrite ?sumn_0, ?sumn_S; [lra|]. rewrite IHn. lra. Qed.
Lemma sumn_scal n c f : sumn n (fun k => c * f k) = c * sumn n f.
Proof. induction n; rewrite ?sumn_0, ?sumn_S; [lra|]. rewrite IHn. lra. Qed.
Lemma sumn_le n f g : (forall k, (k < n)%nat -> f k <= g k) -> sumn n f <= sumn n g.
Proof.
  induction n; intros H; rewrite ?sumn_0, ?sumn_S; [lra|].
  assert (sumn n f <= sumn n g) by (apply IHn; intros; apply H; lia).
  pose proof (H n ltac:(lia)). lra.
Qed.
Lemma sumn_zero n : sumn n (fun _ => 0) = 0.
Proof. induction n; rewrite ?sumn_0, ?sumn_S; lra. Qed.
Lemma sumn_nonneg n f : (forall k, (k < n)%nat -> 0 <= f k) -> 0 <= sumn n f.
Proof. intros H. rewrite <- (sumn_zero n). apply sumn_le. exact H. Qed.
Lemma sumn_ge n f k : (forall k, (k < n)%nat -> 0 <= f k) -> (k < n)%nat -> f k <= sumn n f.
Proof.
  intros H Hk. induction n as [|n IH]; [lia|]. rewrite sumn_S.
  destruct (Nat.eq_dec k n) as [->|Hne].
  - assert (0 <= sumn n f) by (apply sumn_nonneg; intros; apply H; lia). lra.
  - assert (f k <= sumn n f) by (apply IH; [intros; apply H; lia|lia]).
    pose proof (H n ltac:(lia)). lra.
Qed.

Lemma dot_comm n u v : dot n u v = dot n v u.
Proof. apply sumn_ext. intros; lra. Qed.
Lemma dot_ext n u u' v v' : (forall k, (k < n)%nat -> u k = u' k) -> (forall k, (k < n)%nat -> v k = v' k) ->
  dot n u v = dot n u' v'.
Proof. intros H1 H2. apply sumn_ext. intros k Hk. now rewrite H1, H2. Qed.
Lemma dot_plus_l n u v w : dot n (fun k => u k + v k) w = dot n u w + dot n v w.
Proof. unfold dot. rewrite <- sumn_plus. apply sumn_ext. intros; lra. Qed.
Lemma dot_minus_l n u v w : dot n (fun k => u k - v k) w = dot n u w - dot n v w.
Proof. unfold dot. rewrite <- sumn_minus. apply sumn_ext. intros; lra. Qed.
Lemma dot_scal_l n c u w : dot n (fun k => c * u k) w = c * dot n u w.
Proof. unfold dot. rewrite <- sumn_scal. apply sumn_ext. intros; lra. Qed.
Lemma dot_plus_r n u v w : dot n w (fun k => u k + v k) = dot n w u + dot n w v.
Proof. rewrite !(dot_comm n w). apply dot_plus_l. Qed.
Lemma dot_minus_r n u v w : dot n w (fun k => u k - v k) = dot n w u - dot n w v.
Proof. rewrite !(dot_comm n w). apply dot_minus_l. Qed.
Lemma dot_scal_r n c u w : dot n w (fun k => c * u k) = c * dot n w u.
Proof. rewrite !(dot_comm n w). apply dot_scal_l. Qed.
Lemma dot_self_nonneg n u : 0 <= dot n u u.
Proof. apply sumn_nonneg. intros. apply Rle_0_sqr. Qed.
Lemma norm_nonneg n u : 0 <= norm n u.
Proof. apply sqrt_pos. Qed.
Lemma norm_sq n u : norm n u * norm n u = dot n u u.
Proof. apply sqrt_sqrt, dot_self_nonneg. Qed.

Lemma cauchy_schwarz n u v : dot n u v * dot n u v <= dot n u u * dot n v v.
Proof.
  set (a := dot n v v). set (b := dot n u v).
  pose proof (dot_self_nonneg n (fun k => a * u k - b * v k)) as H.
  rewrite dot_minus_l, !dot_minus_r in H.
  rewrite !dot_scal_l, !dot_scal_r in H.
  fold a b in H. rewrite (dot_comm n v u) in H. fold b in H.
  assert (H2 : 0 <= a * (a * dot n u u - b * b)) by nra.
  assert (Ha : 0 <= a) by apply dot_self_nonneg.
  destruct (Req_dec a 0) as [Ha0|Ha0].
  2:{ assert (0 <= a * dot n u u - b * b) by (apply Rmult_le_reg_l with a; lra). lra. }
  (* v = 0: then u.v = 0 by considering u + t v *)
  destruct (Req_dec b 0) as [Hb0|Hb0]; [rewrite Hb0; rewrite Ha0; lra|]. exfalso.
  pose proof (dot_self_nonneg n (fun k => u k - ((dot n u u + 1) / b) * v k)) as G.
  rewrite dot_minus_l, !dot_minus_r in G. rewrite !dot_scal_l, !dot_scal_r in G.
  fold a in G. fold b in G. rewrite (dot_comm n v u) in G. fold b in G. rewrite Ha0 in G.
  pose proof (dot_self_nonneg n u).
  assert (E : (dot n u u + 1) / b * b = dot n u u + 1) by (field; auto).
  rewrite E in G. lra.
Qed.

Lemma dot_le_norm n u v : dot n u v <= norm n u * norm n v.
Proof.
  pose proof (cauchy_schwarz n u v) as H. pose proof (norm_nonneg n u). pose proof (norm_nonneg n v).
  rewrite <- (norm_sq n u), <- (norm_sq n v) in H.
  apply Rnot_lt_le. intros Hc.
  assert (0 <= norm n u * norm n v) by (apply Rmult_le_pos; auto).
  set (p := norm n u * norm n v) in *.
  replace (norm n u * norm n u * (norm n v * norm n v)) with (p * p) in H by (unfold p; ring). nra.
Qed.

Lemma norm_triangle n u v : norm n (fun k => u k + v k) <= norm n u + norm n v.
Proof.
  pose proof (norm_nonneg n u). pose proof (norm_nonneg n v).
  pose proof (norm_nonneg n (fun k => u k + v k)).
  pose proof (norm_sq n (fun k => u k + v k)) as E.
  rewrite dot_plus_l, !dot_plus_r in E. rewrite (dot_comm n v u) in E.
  pose proof (dot_le_norm n u v). rewrite <- (norm_sq n u), <- (norm_sq n v) in E. nra.
Qed.

Lemma vdist_nonneg n u v : 0 <= vdist n u v.
Proof. apply norm_nonneg. Qed.
Lemma vdist_sym n u v : vdist n u v = vdist n v u.
Proof. unfold vdist, norm. f_equal. apply sumn_ext. intros; lra. Qed.
Lemma vdist_triangle n u v w : vdist n u w <= vdist n u v + vdist n v w.
Proof.
  unfold vdist. eapply Rle_trans; [|apply norm_triangle]. right.
  unfold norm. f_equal. apply dot_ext; intros; lra.
Qed.
Lemma coord_le_norm n u k : (k < n)%nat -> Rabs (u k) <= norm n u.
Proof.
  intros Hk. unfold norm. rewrite <- sqrt_Rsqr_abs. apply sqrt_le_1_alt.
  apply (@sumn_ge n (fun k => u k * u k) k); auto. intros. apply Rle_0_sqr.
Qed.
Lemma coord_le_vdist n u v k : (k < n)%nat -> Rabs (u k - v k) <= vdist n u v.
Proof. intros Hk. apply (@coord_le_norm n (fun k => u k - v k) k); auto. Qed.
Lemma vdist_ext n u u' v v' : (forall k, (k < n)%nat -> u k = u' k) -> (forall k, (k < n)%nat -> v k = v' k) ->
  vdist n u v = vdist n u' v'.
Proof.
  intros H1 H2. unfold vdist, norm. f_equal. apply dot_ext; intros k Hk; now rewrite H1, H2.
Qed.
Lemma vdist_self n u : vdist n u u = 0.
Proof.
  unfold vdist, norm. rewrite (@dot_ext n _ (fun _ => 0) _ (fun _ => 0)) by (intros; lra).
  unfold dot. rewrite (@sumn_ext n _ (fun _ => 0)) by (intros; lra). rewrite sumn_zero. apply sqrt_0.
Qed.
Lemma vdist_sq n u v : vdist n u v * vdist n u v = dot n (fun k => u k - v k) (fun k => u k - v k).
Proof. apply norm_sq. Qed.
