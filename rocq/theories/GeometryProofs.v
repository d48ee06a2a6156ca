From Coq Require Import Reals Lra.
From Verif Require Import Base Num Vec SamplingSpec SparseDotProofs DenseQR DenseQRProofs Geometry GeometrySpec.
Local Open Scope R_scope.

Lemma range0_R n f : @range_sum R _ 0 n f = sumn n f.
Proof. rewrite range_sum_R by lia. apply sumn_ext. intros k _. reflexivity. Qed.
Lemma sumn3 f : sumn 3 f = f 0%nat + f 1%nat + f 2%nat.
Proof. rewrite !sumn_S, sumn_0. lra. Qed.
Lemma dot3 u v : dot 3 u v = u 0%nat * v 0%nat + u 1%nat * v 1%nat + u 2%nat * v 2%nat.
Proof. apply sumn3. Qed.
Lemma tol_eq : @nlit R _ 1 10 = 1 / 10 ^ 10.
Proof. exact nlit10. Qed.
Lemma distance_R n (x y : nat -> R) : distance n x y = vdist n x y.
Proof.
  unfold distance. rewrite range0_R. rewrite vdist_sym. reflexivity.
Qed.
Lemma dot_product_R n (x y : nat -> R) : dot_product n x y = dot n x y.
Proof. apply range0_R. Qed.
Lemma norm_ext n u v : (forall d, (d < n)%nat -> u d = v d) -> norm n u = norm n v.
Proof. intros E. unfold norm. f_equal. apply dot_ext; auto. Qed.
Lemma norm_scal n c u : norm n (fun d => c * u d) = Rabs c * norm n u.
Proof.
  unfold norm. rewrite dot_scal_l, dot_scal_r. rewrite <- Rmult_assoc.
  rewrite sqrt_mult_alt by (apply Rle_0_sqr). f_equal. apply sqrt_Rsqr_abs.
Qed.
Lemma norm_zero_dot n u : norm n u = 0 -> forall d, (d < n)%nat -> u d = 0.
Proof.
  intros E d Hd. pose proof (@coord_le_norm n u d Hd). pose proof (Rabs_pos (u d)).
  assert (Rabs (u d) = 0) by lra. destruct (Req_dec (u d) 0) as [|N]; auto. now apply Rabs_no_R0 in N.
Qed.
Lemma tol_pos : 0 < 1 / 10 ^ 10. Proof. apply Rdiv_lt_0_compat; [lra|apply pow_lt; lra]. Qed.

(** normalize_vector *)
Lemma normalize_R n (u : nat -> R) : normalize_vector n u =
  if Rltb (norm n u) (1 / 10 ^ 10) then (false, u) else (true, fun d => u d / norm n u).
Proof. unfold normalize_vector. rewrite range0_R, tol_eq. reflexivity. Qed.
Lemma normalized_unit n u : 0 < norm n u -> dot n (fun d => u d / norm n u) (fun d => u d / norm n u) = 1.
Proof.
  intros P. rewrite (@dot_ext n _ (fun d => / norm n u * u d) _ (fun d => / norm n u * u d)) by (intros; unfold Rdiv; lra).
  rewrite dot_scal_l, dot_scal_r, <- norm_sq. field. lra.
Qed.

(** cross product facts *)
Lemma cross_vprod (a b : nat -> R) d : cross a b d = vprod a b d.
Proof. destruct d as [|[|]]; reflexivity. Qed.
Lemma vprod_orth_l a b : dot 3 (vprod a b) a = 0.
Proof. rewrite dot3. simpl. ring. Qed.
Lemma vprod_orth_r a b : dot 3 (vprod a b) b = 0.
Proof. rewrite dot3. simpl. ring. Qed.
Lemma vprod_norm a b : dot 3 (vprod a b) (vprod a b) = dot 3 a a * dot 3 b b - dot 3 a b * dot 3 a b.
Proof. rewrite !dot3. simpl. ring. Qed.
Lemma vprod_scal s t a b d : vprod (fun k => s * a k) (fun k => t * b k) d = (s * t) * vprod a b d.
Proof. destruct d as [|[|]]; simpl; ring. Qed.

(** get_3d_triangle_normal: what it computes. *)
Lemma triangle_normal_R (c : nat -> nat -> R) :
  let a := sub (c 1%nat) (c 0%nat) in let b := sub (c 2%nat) (c 0%nat) in
  (~ sliver c /\ exists m, triangle_normal c = (true, m) /\ 0 < norm 3 (vprod a b) /\
     forall d, m d = vprod a b d / norm 3 (vprod a b)) \/
  (sliver c /\ exists m, triangle_normal c = (false, m)).
Proof.
  intros a b. unfold triangle_normal. rewrite !normalize_R.
  change (@edge R _ c 0%nat 1%nat) with a. change (@edge R _ c 0%nat 2%nat) with b.
  destruct (Rltb (norm 3 a) (1 / 10 ^ 10)) eqn:Ea.
  { right. apply Rltb_true in Ea. split; [left; exact Ea|]. destruct (Rltb (norm 3 b) (1 / 10 ^ 10)); eexists; reflexivity. }
  destruct (Rltb (norm 3 b) (1 / 10 ^ 10)) eqn:Eb.
  { right. apply Rltb_true in Eb. split; [right; left; exact Eb|]. eexists; reflexivity. }
  cbn [negb andb]. apply Rltb_false in Ea. apply Rltb_false in Eb. pose proof tol_pos as TP.
  set (n := cross _ _).
  assert (NE : forall d, n d = (/ norm 3 a * / norm 3 b) * vprod a b d).
  { intros d. unfold n. rewrite cross_vprod. rewrite <- vprod_scal. destruct d as [|[|]]; simpl; unfold Rdiv; ring. }
  replace (nsqrt _) with (norm 3 n).
  2:{ unfold norm. rewrite dot3. reflexivity. }
  assert (NN : norm 3 n = norm 3 (vprod a b) / (norm 3 a * norm 3 b)).
  { rewrite (@norm_ext 3 n (fun d => (/ norm 3 a * / norm 3 b) * vprod a b d)) by (intros; apply NE).
    rewrite norm_scal. rewrite Rabs_pos_eq.
    - field. split; lra.
    - apply Rlt_le, Rmult_lt_0_compat; apply Rinv_0_lt_compat; lra. }
  rewrite tol_eq. change nabs with Rabs. rewrite Rabs_pos_eq by apply norm_nonneg. change nltb with Rltb.
  assert (PP : 0 < norm 3 a * norm 3 b) by (apply Rmult_lt_0_compat; lra).
  destruct (Rltb (norm 3 n) (1 / 10 ^ 10)) eqn:En.
  - right. split; [|eexists; reflexivity]. apply Rltb_true in En. right. right. fold a b. rewrite NN in En.
    apply Rmult_lt_reg_r with (/ (norm 3 a * norm 3 b)); [now apply Rinv_0_lt_compat|].
    unfold Rdiv in En at 1. eapply Rlt_le_trans; [exact En|]. right. field. split; lra.
  - left. apply Rltb_false in En.
    assert (VP : 0 < norm 3 (vprod a b)).
    { apply Rnot_le_lt. intros Hc. assert (norm 3 (vprod a b) = 0) by (pose proof (norm_nonneg 3 (vprod a b)); lra).
      rewrite NN, H in En. unfold Rdiv in En at 2. rewrite Rmult_0_l in En. lra. }
    split.
    + intros [S|[S|S]]; fold a b in S; [lra|lra|].
      rewrite NN in En. apply (Rmult_le_compat_r (norm 3 a * norm 3 b)) in En; [|lra].
      unfold Rdiv in En at 2. rewrite Rmult_assoc, Rinv_l in En by lra. lra.
    + eexists. split; [reflexivity|]. split; [exact VP|]. intros d. cbv beta. rewrite NE, NN.
      change ndiv with Rdiv. field. repeat split; lra.
Qed.

Lemma triangle_area_R (c : nat -> nat -> R) :
  triangle_area c = / 2 * norm 3 (vprod (sub (c 1%nat) (c 0%nat)) (sub (c 2%nat) (c 0%nat))).
Proof.
  unfold triangle_area. change nmul with Rmult. replace (@nlit R _ 5 1) with (/ 2).
  2:{ unfold nlit. cbn. lra. }
  f_equal. unfold norm. rewrite dot3. reflexivity.
Qed.

(** get_normal_component *)
Lemma subtract_R n k : forall ib comp (b : nat -> nat -> R) v d, (d < n)%nat ->
  subtract_components k ib comp b v d = v d - sumn k (fun m => comp (ib + m)%nat * b (ib + m)%nat d).
Proof.
  induction k as [|k IH]; intros ib comp b v d Hd; cbn [subtract_components]; [rewrite sumn_0; lra|].
  rewrite IH by auto. change nsub with Rminus. change nmul with Rmult.
  replace (sumn (S k) (fun m => comp (ib + m)%nat * b (ib + m)%nat d)) with
    (comp ib * b ib d + sumn k (fun m => comp (S ib + m)%nat * b (S ib + m)%nat d)); [lra|].
  change (S k) with (1 + k)%nat. rewrite sumn_split. rewrite sumn_S, sumn_0, Nat.add_0_r, Rplus_0_l. f_equal.
  apply sumn_ext. intros j _. replace (ib + (1 + j))%nat with (S ib + j)%nat by lia. reflexivity.
Qed.
(** The part of [v] normal to the first [k] vectors. *)
Definition rest (n k : nat) (b : nat -> nat -> R) (v : nat -> R) (d : nat) : R :=
  v d - sumn k (fun m => dot n v (b m) * b m d).
Lemma rest_orth n k b v m : orthonormal_family n k b -> (m < k)%nat -> dot n (rest n k b v) (b m) = 0.
Proof.
  intros O Hm. unfold rest. rewrite dot_minus_l.
  assert (E : dot n (fun d => sumn k (fun m0 => dot n v (b m0) * b m0 d)) (b m) = dot n v (b m)); [|lra].
  unfold dot at 1. rewrite (@sumn_ext n _ (fun d => sumn k (fun m0 => dot n v (b m0) * (b m0 d * b m d)))).
  2:{ intros d _. rewrite Rmult_comm, <- sumn_scal. apply sumn_ext. intros; ring. }
  rewrite SparseCholProofs.sumn_swap.
  rewrite (@sumn_ext k _ (fun m0 => if Nat.eqb m0 m then dot n v (b m) else 0)).
  2:{ intros m0 Hm0. rewrite sumn_scal. pose proof (O m0 m Hm0 Hm) as OO. unfold dot in OO. rewrite OO.
      destruct (Nat.eqb m0 m) eqn:E; [apply Nat.eqb_eq in E; subst|]; unfold dot; lra. }
  clear O. revert Hm. generalize (dot n v (b m)). intros x Hm.
  induction k as [|k IH]; [lia|]. rewrite sumn_S. destruct (Nat.eqb k m) eqn:E.
  - apply Nat.eqb_eq in E. subst k. rewrite (@sumn_ext m _ (fun _ => 0)).
    + rewrite sumn_zero. lra.
    + intros j Hj. destruct (Nat.eqb j m) eqn:E; [lia|reflexivity].
  - rewrite IH by lia. lra.
Qed.
Lemma normal_component_R n k b (v : nat -> R) : orthonormal_family n k b ->
  let w := rest n k b v in
  (dot n w w < 1 / 10 ^ 10 /\ exists u, normal_component n k b v = (false, u, dot n w w) /\ forall d, (d < n)%nat -> u d = w d) \/
  (1 / 10 ^ 10 <= dot n w w /\ exists u, normal_component n k b v = (true, u, 1 / norm n w) /\ forall d, (d < n)%nat -> u d = w d / norm n w).
Proof.
  intros O w. unfold normal_component. rewrite tol_eq. rewrite range0_R.
  set (u := subtract_components _ _ _ _ _).
  assert (E : forall d, (d < n)%nat -> u d = w d).
  { intros d Hd. unfold u. rewrite (@subtract_R n) by auto. unfold w, rest. f_equal. apply sumn_ext. intros m _.
    rewrite Nat.add_0_l, range0_R. reflexivity. }
  replace (sumn n _) with (dot n w w).
  2:{ symmetry. apply dot_ext; auto. }
  change nabs with Rabs. rewrite Rabs_pos_eq by apply dot_self_nonneg. change nltb with Rltb.
  destruct (Rltb (dot n w w) (1 / 10 ^ 10)) eqn:L.
  - left. apply Rltb_true in L. split; auto. eexists. split; [reflexivity|]. exact E.
  - right. apply Rltb_false in L. split; auto. eexists. split; [reflexivity|]. intros d Hd. cbv beta. rewrite E by auto.
    change nmul with Rmult. change ndiv with Rdiv. change (nsqrt (dot n w w)) with (norm n w).
    replace (@n1 R _) with 1 by reflexivity. unfold Rdiv. ring.
Qed.

(** Projections *)
Lemma segment_R (p xo xn : nat -> R) : (exists d, (d < 3)%nat /\ xo d <> xn d) ->
  let '(q, h) := project_segment p xo xn in
  on_segment xo xn q /\ h = vdist 3 p q /\ forall x, on_segment xo xn x -> h <= vdist 3 p x.
Proof.
  intros NE. unfold project_segment. rewrite dot_product_R, range0_R, distance_R.
  change nadd with Rplus. change nsub with Rminus. change nmul with Rmult. change ndiv with Rdiv. change nltb with Rltb.
  set (a := fun d => p d - xo d). set (b := fun d => xn d - xo d).
  change (sumn 3 _) with (dot 3 b b).
  assert (BB : 0 < dot 3 b b).
  { destruct NE as (d & Hd & N). assert (P : 0 < b d * b d) by (unfold b; nra).
    pose proof (@sumn_ge 3 (fun k => b k * b k) d (fun k _ => Rle_0_sqr (b k)) Hd). unfold dot. lra. }
  change (@n0 R RNum) with 0. change (@n1 R RNum) with 1.
  change nltb with Rltb. change ndiv with Rdiv.
  set (u0 := dot 3 a b / dot 3 b b).
  assert (U0 : u0 * dot 3 b b = dot 3 a b) by (unfold u0; field; lra).
  set (u := if Rltb 1 (if Rltb u0 0 then 0 else u0) then 1 else (if Rltb u0 0 then 0 else u0)).
  assert (UR : 0 <= u <= 1 /\ (u0 = u \/ (u = 0 /\ u0 < 0) \/ (u = 1 /\ 1 < u0))).
  { unfold u. destruct (Rltb u0 0) eqn:E1.
    - apply Rltb_true in E1. destruct (Rltb 1 0) eqn:E2; [apply Rltb_true in E2; lra|]. split; [lra|]. right. left. auto.
    - apply Rltb_false in E1. destruct (Rltb 1 u0) eqn:E2.
      + apply Rltb_true in E2. split; [lra|]. right. right. auto.
      + apply Rltb_false in E2. split; [lra|]. left. auto. }
  clearbody u. destruct UR as [UR UC].
  set (q := fun d => xo d + u * (xn d - xo d)).
  split; [exists u; split; [lra|]; intros d _; reflexivity|]. split; [reflexivity|].
  intros x (t & T & Hx).
  rewrite (@vdist_ext 3 p p x (fun d => xo d + t * b d)) by auto.
  rewrite (@vdist_ext 3 p p q (fun d => xo d + u * b d)) by auto.
  unfold vdist, norm. apply sqrt_le_1_alt.
  assert (D : forall s, dot 3 (fun k => p k - (xo k + s * b k)) (fun k => p k - (xo k + s * b k)) = dot 3 a a - 2 * s * dot 3 a b + s * s * dot 3 b b).
  { intros s. rewrite !dot3. unfold a. ring. }
  rewrite !D. rewrite <- U0. clearbody u0. clear D. set (bb := dot 3 b b) in *. clearbody bb.
  assert (Z : 0 <= (t - u) * (t + u - 2 * u0)).
  { destruct UC as [->|[[-> ?]|[-> ?]]].
    - replace ((t - u) * (t + u - 2 * u)) with ((t - u) * (t - u)) by ring. apply Rle_0_sqr.
    - apply Rmult_le_pos; lra.
    - replace ((t - 1) * (t + 1 - 2 * u0)) with ((1 - t) * (2 * u0 - 1 - t)) by ring. apply Rmult_le_pos; lra. }
  pose proof (Rmult_le_pos _ _ (Rlt_le _ _ BB) Z). nra.
Qed.
Lemma line_R (p xo e : nat -> R) : dot 3 e e = 1 ->
  let '(q, h) := project_line p xo e in
  (exists u, forall d, q d = xo d + u * e d) /\ dot 3 (sub p q) e = 0 /\ h = vdist 3 p q /\
  forall u, h <= vdist 3 p (fun d => xo d + u * e d).
Proof.
  intros E. unfold project_line. rewrite dot_product_R, distance_R. set (u0 := dot 3 _ e). change nadd with Rplus. change nmul with Rmult.
  split; [eexists; intros; reflexivity|].
  assert (D : dot 3 (sub p (fun d => xo d + u0 * e d)) e = 0).
  { replace (dot 3 (sub p (fun d => xo d + u0 * e d)) e) with (dot 3 (fun d => p d - xo d) e - u0 * dot 3 e e).
    - rewrite E. unfold u0. change nsub with Rminus. lra.
    - rewrite !dot3. unfold sub. ring. }
  split; [exact D|]. split; [reflexivity|]. intros u. unfold vdist, norm. apply sqrt_le_1_alt.
  replace (dot 3 (fun k => p k - (xo k + u * e k)) (fun k => p k - (xo k + u * e k))) with
    (dot 3 (fun k => p k - (xo k + u0 * e k)) (fun k => p k - (xo k + u0 * e k)) + 2 * (u0 - u) * dot 3 (sub p (fun d => xo d + u0 * e d)) e + (u0 - u) * (u0 - u) * dot 3 e e).
  - rewrite D, E. pose proof (Rle_0_sqr (u0 - u)) as Z. unfold Rsqr in Z. lra.
  - rewrite !dot3. unfold sub. ring.
Qed.

(** Power vertex of two spheres *)
Lemma power_vertex2_R n co ro c1 r1 : 0 < vdist n co c1 ->
  let pv := power_vertex2 n co ro c1 r1 in
  (exists t, forall d, pv d = co d + t * (c1 d - co d)) /\ power n pv co ro = power n pv c1 r1.
Proof.
  intros P. cbn zeta. unfold power_vertex2. rewrite range0_R.
  set (w := fun d => c1 d - co d).
  replace (nsqrt _) with (norm n w) by reflexivity.
  assert (PW : 0 < norm n w).
  { replace (norm n w) with (vdist n co c1); auto. rewrite vdist_sym. reflexivity. }
  change nadd with Rplus. change nsub with Rminus. change nmul with Rmult. change ndiv with Rdiv. replace (@n2 R _) with 2 by reflexivity.
  set (h := norm n w) in *.
  set (t := (h * h + ro * ro - r1 * r1) / (2 * h) / h).
  split.
  - exists t. intros d. unfold t, w. unfold Rdiv. ring.
  - unfold power. rewrite !vdist_sq.
    assert (HW : h * h = dot n w w) by apply norm_sq.
    clearbody h.
    set (pv := fun d => co d + (h * h + ro * ro - r1 * r1) / (2 * h) * (c1 d - co d) / h).
    assert (E1 : forall k, pv k - co k = t * w k) by (intros; unfold pv, t, w; field; lra).
    assert (E2 : forall k, pv k - c1 k = (t - 1) * w k).
    { intros k. replace (c1 k) with (co k + w k) by (unfold w; ring). pose proof (E1 k). lra. }
    change (dot n (fun k => pv k - co k) (fun k => pv k - co k) - ro * ro = dot n (fun k => pv k - c1 k) (fun k => pv k - c1 k) - r1 * r1).
    rewrite (@dot_ext n _ (fun k => t * w k) _ (fun k => t * w k) (fun k _ => E1 k) (fun k _ => E1 k)).
    rewrite (@dot_ext n _ (fun k => (t - 1) * w k) _ (fun k => (t - 1) * w k) (fun k _ => E2 k) (fun k _ => E2 k)).
    rewrite !dot_scal_l, !dot_scal_r, <- HW. unfold t. field. lra.
Qed.
