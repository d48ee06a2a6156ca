From Coq Require Import Reals Lra FunctionalExtensionality.
(** A case for the theorems about seeds: three unit spheres at the corners of a triangle. *)
From Verif Require Import Base Num Vec KdTree SmartTree KdSpec SmartTreeSpec DenseQR Geometry GeometrySpec GeometryProofs
  Spheres SpheresSpec SpheresProofs SpheresOverlapProofs PropsGeometry SeedPairs SeedPairsSpec.
Local Open Scope R_scope.
Definition v4 (x y z r : R) : nat -> R := fun d => match d with 0%nat => x | 1%nat => y | 2%nat => z | 3%nat => r | _ => 0 end.
Definition corner3 : nat -> nat -> R := fun m => match m with 0%nat => v4 0 0 0 1 | 1%nat => v4 1 0 0 1 | _ => v4 0 1 0 1 end.
Definition axis_darts : nat -> nat -> R := fun k => match k with 0%nat => v4 0 1 0 0 | _ => v4 1 0 0 0 end.
Lemma range3 (f : nat -> R) : @range_sum R RNum 0 3 f = f 0%nat + f 1%nat + f 2%nat.
Proof. unfold range_sum. cbn. lra. Qed.
Lemma range13 (f : nat -> R) : @range_sum R RNum 1 3 f = f 1%nat + f 2%nat.
Proof. unfold range_sum. cbn. lra. Qed.
Lemma tiny_abs0 : Rltb (Rabs 0) (1 / 10 ^ 10) = true.
Proof. apply Rltb_true. rewrite Rabs_R0. apply Rdiv_lt_0_compat; [lra|apply pow_lt; lra]. Qed.
Lemma tiny_abs1 : Rltb (Rabs 1) (1 / 10 ^ 10) = false.
Proof. apply Rltb_false. rewrite Rabs_R1. apply Rmult_le_reg_r with (10 ^ 10); [apply pow_lt; lra|]. unfold Rdiv. rewrite Rmult_assoc, Rinv_l by (apply pow_nonzero; lra). lra. Qed.
Lemma below_max a : Rabs a <= 1 -> Rltb (Rabs a) (Rabs (@dbl_max R RNum)) = true.
Proof.
  intros H. apply Rltb_true. assert (1 < @dbl_max R RNum) by (cbn [dbl_max RNum]; apply IZR_lt; reflexivity).
  rewrite (Rabs_pos_eq dbl_max) by lra. lra.
Qed.
Lemma pv2_unit (co c1 : nat -> R) : (forall d, (d < 3)%nat -> True) ->
  (c1 0%nat - co 0%nat) * (c1 0%nat - co 0%nat) + (c1 1%nat - co 1%nat) * (c1 1%nat - co 1%nat) + (c1 2%nat - co 2%nat) * (c1 2%nat - co 2%nat) = 1 ->
  @power_vertex2 R RNum 3 co 1 c1 1 = fun d => co d + (c1 d - co d) / 2.
Proof.
  intros _ H. unfold power_vertex2. rewrite range3. change nsub with Rminus. change nmul with Rmult. change nadd with Rplus. change ndiv with Rdiv. change nsqrt with sqrt.
  rewrite H, sqrt_1. change (@n2 R RNum) with 2. apply functional_extensionality. intros d. field.
Qed.
Lemma nc_unit k basis v w : (forall d, subtract_components k 0 (fun ib => range_sum 0 3 (fun d => v d * basis ib d)) basis v d = w d) ->
  w 0%nat * w 0%nat + w 1%nat * w 1%nat + w 2%nat * w 2%nat = 1 -> @normal_component R RNum 3 k basis v = (true, w, 1).
Proof.
  intros H H1. unfold normal_component. change nmul with Rmult. rewrite range3. rewrite !H, H1. rewrite tol_eq. change nltb with Rltb. change nabs with Rabs. rewrite tiny_abs1.
  change nsqrt with sqrt. rewrite sqrt_1. change (@n1 R RNum) with 1. change ndiv with Rdiv. f_equal; [f_equal|lra].
  apply functional_extensionality. intros d. rewrite H. lra.
Qed.
Lemma nc_zero k basis v : (forall d, subtract_components k 0 (fun ib => range_sum 0 3 (fun d => v d * basis ib d)) basis v d = 0) ->
  @normal_component R RNum 3 k basis v = (false, fun _ => 0, 0).
Proof.
  intros H. unfold normal_component. change nmul with Rmult. rewrite range3. rewrite !H. replace (0 * 0 + 0 * 0 + 0 * 0) with 0 by ring.
  rewrite tol_eq. change nltb with Rltb. change nabs with Rabs. rewrite tiny_abs0. f_equal. f_equal. apply functional_extensionality. exact H.
Qed.
Lemma big_one : @nltb R RNum (nlit 1 1) 1 = true. Proof. apply Rltb_true. cbn. lra. Qed.
Lemma big_zero : @nltb R RNum (nlit 1 1) 0 = false. Proof. apply Rltb_false. cbn. lra. Qed.

Lemma corner3_vertex : @power_vertex R RNum 3 3 corner3 (fun m => corner3 m 3%nat) axis_darts <> Ok None.
Proof.
  unfold power_vertex. cbn [Nat.eqb Nat.ltb Nat.leb orb Nat.add Nat.sub].
  set (axes := fun i d : nat => if Nat.eqb d i then n1 else n0).
  cbn [pv_loop pv_basis pv_c pv_r pv_xst].
  assert (Ed : spoke_dir 3 0 axes (axis_darts 0%nat) = v4 0 1 0 0).
  { apply functional_extensionality. intros d. unfold spoke_dir. rewrite range3. unfold axes, axis_darts. cbn [Nat.sub v4]. change nmul with Rmult.
    change (@n1 R RNum) with 1. change (@n0 R RNum) with 0. destruct d as [|[|[|[|d]]]]; cbn; ring. }
  rewrite Ed.
  assert (Et : trim_spoke (3 - 1) 1 3 corner3 (fun m : nat => corner3 m 3%nat) (corner3 0%nat) (v4 0 1 0 0) (dbl_max, 0%nat) = (1 / 2, 2%nat)).
  { cbn [Nat.sub trim_spoke]. rewrite !range3. cbn [corner3 v4 fst snd]. rewrite !pv2_unit by (auto; cbn; ring).
    change nmul with Rmult. change nsub with Rminus. change ndiv with Rdiv. rewrite tol_eq. change nltb with Rltb. change nabs with Rabs. cbn [v4].
    replace (0 * (1 - 0) + 1 * (0 - 0) + 0 * (0 - 0)) with 0 by ring. rewrite tiny_abs0. cbn [fst snd].
    replace (0 * (0 - 0) + 1 * (1 - 0) + 0 * (0 - 0)) with 1 by ring. rewrite tiny_abs1.
    replace (((0 + (0 - 0) / 2 - 0) * (0 - 0) + (0 + (1 - 0) / 2 - 0) * (1 - 0) + (0 + (0 - 0) / 2 - 0) * (0 - 0)) / 1) with (1 / 2) by field.
    rewrite below_max by (rewrite Rabs_pos_eq; lra). reflexivity. }
  rewrite Et. cbn [Nat.eqb].
  rewrite (@nc_unit 0 axes _ (v4 0 1 0 0)).
  2:{ intros d. cbn [subtract_components]. unfold swap_at. cbn [Nat.eqb corner3]. change nsub with Rminus. destruct d as [|[|[|[|d]]]]; cbn; ring. }
  2:{ cbn. ring. }
  set (b0 := set_vec axes 0 (v4 0 1 0 0)). cbn [complete_basis Nat.sub].
  (* basis vector 1 *)
  assert (E1 : first_axis 3 0 3 1 b0 (v4 0 1 0 0) = v4 1 0 0 0).
  { cbn [first_axis]. rewrite (@nc_unit 1 b0 _ (v4 1 0 0 0)).
    2:{ intros d. cbn [subtract_components]. change nmul with Rmult. rewrite range3. unfold b0, set_vec. change nsub with Rminus. change (@n1 R RNum) with 1. change (@n0 R RNum) with 0. destruct d as [|[|[|[|d]]]]; cbn; ring. }
    2:{ cbn. ring. }
    rewrite big_one. reflexivity. }
  rewrite E1. set (b1 := set_vec b0 1 (v4 1 0 0 0)).
  assert (E2 : exists v, first_axis 3 0 3 2 b1 (v4 1 0 0 0) = v) by eauto. destruct E2 as (w & ->).
  set (b2 := set_vec b1 2 w).
  assert (Ed2 : spoke_dir 3 1 b2 (axis_darts 1%nat) = v4 1 0 0 0).
  { apply functional_extensionality. intros d. unfold spoke_dir. rewrite range13. change nmul with Rmult. unfold b2, b1, set_vec. cbn [Nat.eqb Nat.sub axis_darts v4]. ring. }
  rewrite Ed2.
  set (c := swap_at corner3 2 1). set (r := swap_at (fun m : nat => corner3 m 3%nat) 2 1).
  set (x := fun d : nat => nadd (corner3 0%nat d) (nmul (1 / 2) (v4 0 1 0 0 d))).
  assert (Et2 : trim_spoke 1 2 3 c r x (v4 1 0 0 0) (dbl_max, 0%nat) = (1 / 2, 2%nat)).
  { cbn [trim_spoke]. rewrite !range3. unfold c, r, swap_at. cbn [Nat.eqb corner3 v4 fst snd]. rewrite pv2_unit by (auto; cbn; ring).
    change nmul with Rmult. change nsub with Rminus. change ndiv with Rdiv. rewrite tol_eq. change nltb with Rltb. change nabs with Rabs. unfold x. change nmul with Rmult. change nadd with Rplus. cbn [v4 corner3].
    replace (1 * (1 - 0) + 0 * (0 - 0) + 0 * (0 - 0)) with 1 by ring. rewrite tiny_abs1.
    match goal with |- context [Rltb (Rabs ?t) _] => replace t with (1 / 2) by field end.
    rewrite below_max by (rewrite Rabs_pos_eq; lra). reflexivity. }
  match goal with |- context[trim_spoke 1 2 3 ?cc ?rr ?xx ?dd ?bb] => change (trim_spoke 1 2 3 cc rr xx dd bb) with (trim_spoke 1 2 3 c r x (v4 1 0 0 0) (dbl_max, 0%nat)) end.
  rewrite Et2. cbn [Nat.eqb].
  destruct (normal_component _ _ _ _) as ((? & ?) & ?). discriminate.
Qed.

Lemma corner3_independent : independent 3 3 (1 / 10 ^ 5) corner3.
Proof.
  intros a S0 (i & Hi & A). rewrite !sumn_S, sumn_0 in S0.
  assert (T : 1 / 10 ^ 5 <= / 3).
  { apply Rmult_le_reg_r with (10 ^ 5); [apply pow_lt; lra|]. unfold Rdiv. rewrite Rmult_assoc, Rinv_l by (apply pow_nonzero; lra). lra. }
  pose proof (@coord_le_norm 3 (fun d => sumn 3 (fun i => a i * corner3 i d)) 0 ltac:(lia)) as N0.
  pose proof (@coord_le_norm 3 (fun d => sumn 3 (fun i => a i * corner3 i d)) 1 ltac:(lia)) as N1.
  cbv beta in N0, N1. set (N := norm _ _) in *. rewrite !sumn3 in N0, N1. unfold corner3, v4 in N0, N1.
  pose proof (Rle_abs (a 0%nat * 0 + a 1%nat * 1 + a 2%nat * 0)). pose proof (Rle_abs (- (a 0%nat * 0 + a 1%nat * 1 + a 2%nat * 0))).
  pose proof (Rle_abs (a 0%nat * 0 + a 1%nat * 0 + a 2%nat * 1)). pose proof (Rle_abs (- (a 0%nat * 0 + a 1%nat * 0 + a 2%nat * 1))).
  rewrite Rabs_Ropp in *. destruct i as [|[|[|i]]]; try lia; lra.
Qed.
Lemma corner3_norm : norm 3 (vprod (sub (corner3 1%nat) (corner3 0%nat)) (sub (corner3 2%nat) (corner3 0%nat))) = 1.
Proof. unfold norm. rewrite dot3. unfold vprod, sub, corner3, v4. match goal with |- sqrt ?t = 1 => replace t with 1 by ring end. apply sqrt_1. Qed.
