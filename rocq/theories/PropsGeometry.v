(** C18-C20, C62: geometry routines. *)
From Coq Require Import Reals Lra.
From Verif Require Import Base Num Vec DenseQR Geometry GeometrySpec GeometryProofs GeometryTriProofs GeometryPowerProofs GeometryAngle GeometryAngleProofs.
From Coq Require PrimFloat.
Local Open Scope R_scope.

(** ** C18: closest points. *)
Theorem C18_segment (p xo xn q : nat -> R) h : (exists d, (d < 3)%nat /\ xo d <> xn d) ->
  project_segment p xo xn = (q, h) ->
  on_segment xo xn q /\ h = vdist 3 p q /\ forall x, on_segment xo xn x -> h <= vdist 3 p x.
Proof. intros N E. pose proof (@segment_R p xo xn N) as H. rewrite E in H. exact H. Qed.
Example C18_segment_case : exists d, (d < 3)%nat /\ (fun _ : nat => 0) d <> (fun k : nat => INR k) d.
Proof. exists 1%nat. simpl. split; [lia|lra]. Qed.
(** A segment of length zero gives NaN coordinates. *)
Theorem C18_null_segment_refuted : exists p x : nat -> PrimFloat.float,
  let '(q, h) := project_segment p x x in PrimFloat.eqb (q 0%nat) (q 0%nat) = false /\ PrimFloat.eqb h h = false.
Proof. exists (fun _ => n1), (fun _ => n0). vm_compute. auto. Qed.

Theorem C18_line (p xo e q : nat -> R) h : unit 3 e -> project_line p xo e = (q, h) ->
  (exists u, forall d, q d = xo d + u * e d) /\ orthogonal 3 (sub p q) e /\ h = vdist 3 p q /\
  forall u, h <= vdist 3 p (fun d => xo d + u * e d).
Proof. intros U E. pose proof (@line_R p xo e U) as H. rewrite E in H. exact H. Qed.
Example C18_line_case : unit 3 (fun d => match d with 0%nat => 3 / 5 | 1%nat => 4 / 5 | _ => 0 end).
Proof. unfold unit. rewrite dot3. lra. Qed.

(** The triangle projection: the returned distance is that of the returned point and not
    larger than the distance to any point of the triangle; the returned point is in the
    triangle except where the inside test is skipped because the sub-triangle over an edge
    counts as degenerate. *)
Theorem C18_triangle (p : nat -> R) c q h : ~ sliver c -> (forall i, (i < 3)%nat -> vdist 3 p (c i) < @dbl_max R _) ->
  project_triangle p c = (q, h) ->
  h = vdist 3 p q /\ (forall x, in_triangle c x -> h <= vdist 3 p x) /\
  exists m, barycentric c m q /\ forall k, (k < 3)%nat -> 0 <= m k \/ sliver (moved c k q).
Proof. intros G F E. pose proof (@project_triangle_R p c G F) as H. rewrite E in H. exact H. Qed.
(** In particular it is the closest point whenever no sub-triangle is degenerate. *)
Corollary C18_triangle_closest (p : nat -> R) c q h : ~ sliver c -> (forall i, (i < 3)%nat -> vdist 3 p (c i) < @dbl_max R _) ->
  project_triangle p c = (q, h) -> (forall k, (k < 3)%nat -> ~ sliver (moved c k q)) ->
  in_triangle c q /\ h = vdist 3 p q /\ forall x, in_triangle c x -> vdist 3 p q <= vdist 3 p x.
Proof.
  intros G F E D. destruct (@C18_triangle p c q h G F E) as (H & L & m & B & M). split; [|split; [exact H|now rewrite <- H]].
  exists m. split; [exact B|]. intros k Hk. destruct (M k Hk) as [|S]; [auto|]. now apply D in S.
Qed.
Definition sample_triangle : nat -> nat -> R := fun i d => match i, d with 1%nat, 0%nat => 3 | 2%nat, 1%nat => 4 | _, _ => 0 end.
Lemma tol10_lt1 : 1 / 10 ^ 10 < 1.
Proof. apply Rmult_lt_reg_r with (10 ^ 10); [apply pow_lt; lra|]. unfold Rdiv. rewrite Rmult_assoc, Rinv_l by (apply pow_nonzero; lra). lra. Qed.
Example C18_triangle_case : ~ sliver sample_triangle.
Proof.
  pose proof tol10_lt1 as T. pose proof tol_pos as TP.
  assert (A : norm 3 (sub (sample_triangle 1%nat) (sample_triangle 0%nat)) = 3).
  { unfold norm. rewrite dot3. unfold sub, sample_triangle. replace (_ + _ + _) with (3 * 3) by ring. apply sqrt_square. lra. }
  assert (B : norm 3 (sub (sample_triangle 2%nat) (sample_triangle 0%nat)) = 4).
  { unfold norm. rewrite dot3. unfold sub, sample_triangle. replace (_ + _ + _) with (4 * 4) by ring. apply sqrt_square. lra. }
  assert (C : norm 3 (vprod (sub (sample_triangle 1%nat) (sample_triangle 0%nat)) (sub (sample_triangle 2%nat) (sample_triangle 0%nat))) = 12).
  { unfold norm. rewrite dot3. unfold vprod, sub, sample_triangle. replace (_ + _ + _) with (12 * 12) by ring. apply sqrt_square. lra. }
  intros [S|[S|S]]; [rewrite A in S; lra|rewrite B in S; lra|rewrite A, B, C in S; lra].
Qed.
(** On a triangle with a (nearly) zero edge at its first corner every query point is its own
    projection, at distance zero. *)
Theorem C18_null_triangle_refuted (p : nat -> R) c : vdist 3 (c 1%nat) (c 0%nat) < 1 / 10 ^ 10 ->
  let '(q, h) := project_triangle p c in (forall d, q d = p d) /\ h = 0.
Proof.
  intros L. unfold project_triangle.
  assert (E : triangle_normal c = (false, fun _ => n0)).
  { unfold triangle_normal. rewrite !normalize_R. change (@edge R _ c 0%nat 1%nat) with (fun k => c 1%nat k - c 0%nat k).
    unfold vdist in L. replace (Rltb _ (1 / 10 ^ 10)) with true by (symmetry; apply Rltb_true; exact L).
    destruct (Rltb _ _); reflexivity. }
  rewrite E. cbn [snd]. match goal with |- context [side_ok c _ ?qq 0] => set (q := qq) end.
  assert (Q : forall d, q d = p d). { intros d. unfold q. change nadd with Rplus. change nmul with Rmult. change (@n0 R RNum) with 0. ring. }
  assert (S : forall i, side_ok c (fun _ => n0) q i = true).
  { intros i. unfold side_ok. destruct (triangle_normal (replaced c (before i) q)) as [[] m]; [|reflexivity]. cbv iota. rewrite dot_product_R.
    replace (dot 3 m _) with 0.
    - change nltb with Rltb. change nopp with Ropp. rewrite tol_eq. pose proof tol_pos.
      replace (Rltb _ _) with false by (symmetry; apply Rltb_false; lra). reflexivity.
    - rewrite dot3. change (@n0 R RNum) with 0. ring. }
  rewrite !S. cbn [andb]. split; [exact Q|]. rewrite distance_R. rewrite (@vdist_ext 3 p p q p) by auto. apply vdist_self.
Qed.

(** ** C19: normals, areas, normal components. *)
Theorem C19_normal_success (c : nat -> nat -> R) m : triangle_normal c = (true, m) ->
  let N := vprod (sub (c 1%nat) (c 0%nat)) (sub (c 2%nat) (c 0%nat)) in
  unit 3 m /\ (forall i j, (i < 3)%nat -> (j < 3)%nat -> orthogonal 3 m (sub (c i) (c j))) /\
  0 < norm 3 N /\ (forall d, m d = N d / norm 3 N).
Proof.
  intros E. destruct (triangle_normal_R c) as [(_ & m' & E' & P & M)|(_ & m' & E')]; rewrite E' in E; [|discriminate].
  injection E as <-. cbn zeta. split; [|split; [|split; [exact P|exact M]]].
  - unfold unit. rewrite (@dot_ext 3 m' _ m' _ (fun d _ => M d) (fun d _ => M d)). now apply normalized_unit.
  - intros i j Hi Hj. unfold orthogonal. set (N := vprod _ _) in *.
    assert (O1 : dot 3 N (sub (c 1%nat) (c 0%nat)) = 0) by apply vprod_orth_l.
    assert (O2 : dot 3 N (sub (c 2%nat) (c 0%nat)) = 0) by apply vprod_orth_r.
    assert (O : forall k, (k < 3)%nat -> dot 3 N (sub (c k) (c 0%nat)) = 0).
    { intros k Hk. cases3 k Hk; auto. rewrite dot3. unfold sub. ring. }
    rewrite (@dot_ext 3 m' (fun d => / norm 3 N * N d) (sub (c i) (c j)) (fun d => sub (c i) (c 0%nat) d - sub (c j) (c 0%nat) d)).
    + rewrite dot_scal_l, dot_minus_r, !O by auto. ring.
    + intros d _. rewrite M. unfold Rdiv. ring.
    + intros d _. unfold sub. ring.
Qed.
Theorem C19_normal_fails_iff (c : nat -> nat -> R) : fst (triangle_normal c) = false <-> sliver c.
Proof.
  destruct (triangle_normal_R c) as [(N & m & -> & _)|(S & m & ->)]; cbn [fst]; split; auto; try discriminate. contradiction.
Qed.
(** Half of base times height, whichever foot point realises the height. *)
Theorem C19_area (c : nat -> nat -> R) (f : nat -> R) u :
  (forall d, f d = c 0%nat d + u * (c 1%nat d - c 0%nat d)) -> orthogonal 3 (sub (c 2%nat) f) (sub (c 1%nat) (c 0%nat)) ->
  triangle_area c = / 2 * vdist 3 (c 1%nat) (c 0%nat) * vdist 3 (c 2%nat) f.
Proof.
  intros F O. rewrite triangle_area_R, Rmult_assoc. f_equal. unfold vdist, norm.
  rewrite <- sqrt_mult_alt by apply dot_self_nonneg. f_equal. rewrite vprod_norm. unfold orthogonal in O.
  set (a := sub (c 1%nat) (c 0%nat)) in *. set (g := sub (c 2%nat) f) in *.
  assert (B : forall d, sub (c 2%nat) (c 0%nat) d = u * a d + g d).
  { intros d. unfold g, a, sub. rewrite F. ring. }
  rewrite (@dot_ext 3 (sub (c 2%nat) (c 0%nat)) (fun d => u * a d + g d) _ (fun d => u * a d + g d)) by auto.
  rewrite (@dot_ext 3 a a (sub (c 2%nat) (c 0%nat)) (fun d => u * a d + g d)) by auto.
  rewrite dot_plus_l, !dot_plus_r, !dot_scal_l, !dot_scal_r, (dot_comm 3 a g), O.
  change (fun k => c 1%nat k - c 0%nat k) with a. change (fun k => c 2%nat k - f k) with g. ring.
Qed.
Theorem C19_area_any_order (c : nat -> nat -> R) i j k : (i < 3)%nat -> (j < 3)%nat -> (k < 3)%nat -> i <> j -> j <> k -> i <> k ->
  triangle_area (fun m => match m with 0%nat => c i | 1%nat => c j | _ => c k end) = triangle_area c.
Proof.
  intros Hi Hj Hk N1 N2 N3. rewrite !triangle_area_R. f_equal. unfold norm. f_equal.
  cases3 i Hi; cases3 j Hj; try lia; cases3 k Hk; try lia; rewrite !dot3; unfold vprod, sub; ring.
Qed.
Example C19_area_case : triangle_area sample_triangle = 6.
Proof.
  rewrite (@C19_area sample_triangle (fun _ => 0) 0).
  - unfold vdist, norm. rewrite !dot3. unfold sample_triangle. replace (_ + _ + _) with (3 * 3) by ring.
    replace (_ + _ + _) with (4 * 4) by ring. rewrite !sqrt_square by lra. lra.
  - intros [|[|]]; unfold sample_triangle; ring.
  - unfold orthogonal. rewrite dot3. unfold sub, sample_triangle. ring.
Qed.
Theorem C19_normal_component n k (b : nat -> nat -> R) v u s : orthonormal_family n k b ->
  normal_component n k b v = (true, u, s) ->
  unit n u /\ (forall m, (m < k)%nat -> orthogonal n u (b m)) /\
  exists t x, 0 < t /\ forall d, (d < n)%nat -> v d = t * u d + sumn k (fun m => x m * b m d).
Proof.
  intros O E. destruct (normal_component_R v O) as [(_ & u' & E' & _)|(L & u' & E' & U)]; rewrite E' in E; [discriminate|].
  injection E as <- _. set (w := rest n k b v) in *.
  assert (P : 0 < norm n w) by (apply sqrt_lt_R0; pose proof tol_pos; lra).
  split; [eapply scaled_unit; eauto|]. split.
  - intros m Hm. eapply scaled_orth; eauto. now apply rest_orth.
  - exists (norm n w), (fun m => dot n v (b m)). split; [exact P|]. intros d Hd. rewrite U by auto. unfold w at 2, rest. field. lra.
Qed.
(** Failure is reported only when the vector is within 1e-5 of the span. *)
Theorem C19_normal_component_fails n k (b : nat -> nat -> R) v u s : orthonormal_family n k b ->
  normal_component n k b v = (false, u, s) ->
  exists x, norm n (fun d => v d - sumn k (fun m => x m * b m d)) < 1 / 10 ^ 5.
Proof.
  intros O E. destruct (normal_component_R v O) as [(L & u' & E' & _)|(_ & u' & E' & _)]; rewrite E' in E; [|discriminate].
  exists (fun m => dot n v (b m)). change (norm n (rest n k b v) < 1 / 10 ^ 5). unfold norm.
  replace (1 / 10 ^ 5) with (sqrt (1 / 10 ^ 10)).
  - apply sqrt_lt_1_alt. split; [apply dot_self_nonneg|exact L].
  - replace (1 / 10 ^ 10) with (1 / 10 ^ 5 * (1 / 10 ^ 5)) by field. apply sqrt_square.
    apply Rlt_le, Rdiv_lt_0_compat; [lra|apply pow_lt; lra].
Qed.
Example C19_basis_case : orthonormal_family 3 2 (fun i d => if Nat.eqb d i then 1 else 0).
Proof. intros i j Hi Hj. assert (i = 0 \/ i = 1)%nat as [-> | ->] by lia; assert (j = 0 \/ j = 1)%nat as [-> | ->] by lia; rewrite dot3; simpl; ring. Qed.
Theorem C19_normalize n (v u : nat -> R) ok : normalize_vector n v = (ok, u) ->
  if ok then unit n u /\ (forall d, v d = norm n v * u d) else norm n v < 1 / 10 ^ 10 /\ u = v.
Proof.
  rewrite normalize_R. destruct (Rltb (norm n v) (1 / 10 ^ 10)) eqn:L; intros E; injection E as <- <-.
  - apply Rltb_true in L. auto.
  - apply Rltb_false in L. pose proof tol_pos. split; [apply normalized_unit; lra|]. intros d. field. lra.
Qed.

(** ** C20: power vertices. *)
Theorem C20_two_spheres n (c0 c1 : nat -> R) r0 r1 : 0 < vdist n c0 c1 ->
  let pv := power_vertex2 n c0 r0 c1 r1 in
  (exists t, forall d, pv d = c0 d + t * (c1 d - c0 d)) /\ power n pv c0 r0 = power n pv c1 r1.
Proof. exact (@power_vertex2_R n c0 r0 c1 r1). Qed.
(** n spheres, whatever directions the sampler draws. *)
Theorem C20_n_spheres n np (centers : nat -> nat -> R) radii darts v :
  INR n <= 10 ^ 10 -> independent n np (1 / 10 ^ 5) centers ->
  power_vertex n np centers radii darts = Ok (Some v) ->
  (forall i, (i < np)%nat -> power n v (centers i) (radii i) = power n v (centers 0%nat) (radii 0%nat)) /\
  in_hull n np centers v.
Proof. intros S I E. exact (@power_vertex_R n np centers radii darts S I v E). Qed.
Definition sample_spheres : nat -> nat -> R := fun i d => match i, d with 1%nat, 0%nat => 3 | 2%nat, 1%nat => 2 | 2%nat, 0%nat => 1 | _, _ => 0 end.
Example C20_independent_case : independent 3 3 (1 / 10 ^ 5) sample_spheres.
Proof.
  intros a S0 (i & Hi & A). rewrite !sumn_S, sumn_0 in S0.
  assert (T : 1 / 10 ^ 5 <= / 3).
  { apply Rmult_le_reg_r with (10 ^ 5); [apply pow_lt; lra|]. unfold Rdiv. rewrite Rmult_assoc, Rinv_l by (apply pow_nonzero; lra). lra. }
  pose proof (@coord_le_norm 3 (fun d => sumn 3 (fun i => a i * sample_spheres i d)) 0 ltac:(lia)) as N0.
  pose proof (@coord_le_norm 3 (fun d => sumn 3 (fun i => a i * sample_spheres i d)) 1 ltac:(lia)) as N1.
  cbv beta in N0, N1. set (N := norm _ _) in *. rewrite !sumn3 in N0, N1. unfold sample_spheres in N0, N1.
  pose proof (Rle_abs (a 0%nat * 0 + a 1%nat * 3 + a 2%nat * 1)). pose proof (Rle_abs (- (a 0%nat * 0 + a 1%nat * 3 + a 2%nat * 1))).
  pose proof (Rle_abs (a 0%nat * 0 + a 1%nat * 0 + a 2%nat * 2)). pose proof (Rle_abs (- (a 0%nat * 0 + a 1%nat * 0 + a 2%nat * 2))).
  rewrite Rabs_Ropp in *. cases3 i Hi; lra.
Qed.
(** The three-sphere computation in binary64 answers. *)
Example C20_run : exists v, power_vertex 3 3
   (fun i d => match i, d with 1%nat, 0%nat => nofZ 3 | 2%nat, 1%nat => n2 | 2%nat, 0%nat => n1 | _, _ => n0 end)
   (fun _ => n2) (fun k d => match k, d with 0%nat, 0%nat => nlit 6 1 | 0%nat, 1%nat => nlit 8 1 | 1%nat, 0%nat => nlit 8 1 | 1%nat, 1%nat => nlit 6 1 | _, _ => n0 end)
   = Ok (Some v) /\ PrimFloat.ltb (PrimFloat.abs (PrimFloat.sub (v 0%nat) (nlit 15 1))) (nlit 1 10) = true.
Proof. eexists. split; [vm_compute; reflexivity|]. vm_compute. reflexivity. Qed.
(** A dart parallel to every radical plane makes the routine give up. *)
Theorem C20_parallel_dart_refuted : exists (darts : nat -> nat -> PrimFloat.float) (c : nat -> nat -> PrimFloat.float),
  power_vertex 3 2 c (fun _ => n1) darts = Ok None /\ c 0%nat 0%nat = n0 /\ c 1%nat 0%nat = n1.
Proof.
  exists (fun _ d => match d with 1%nat => n1 | _ => n0 end), (fun i d => match i, d with 1%nat, 0%nat => n1 | _, _ => n0 end).
  vm_compute. auto.
Qed.

(** ** C62: angles. *)
Theorem C62_point_angle x y :
  1 / 10 ^ 10 <= Rabs x \/ 1 / 10 ^ 10 <= Rabs y ->
  x <= - (1 / 10 ^ 10) \/ 0 <= x -> y <= - (1 / 10 ^ 10) \/ 0 <= y ->
  let t := point_angle x y in let r := sqrt (x * x + y * y) in
  0 <= t < 2 * PI /\ x = r * cos t /\ y = r * sin t.
Proof. exact (@point_angle_R x y). Qed.
Example C62_case : 1 / 10 ^ 10 <= Rabs 3 /\ -4 <= - (1 / 10 ^ 10).
Proof. pose proof tol10_lt1. split; [rewrite Rabs_pos_eq; lra|lra]. Qed.
(** Just below the positive x axis the angle is near 0 instead of near 2 pi. *)
Theorem C62_below_axis_refuted : let x := 1 in let y := - (1 / 10 ^ 11) in
  let t := point_angle x y in 0 < sin t.
Proof.
  cbn zeta. pose proof tol_pos as TP. unfold point_angle. rewrite tol_eq.
  assert (T11 : 0 < 1 / 10 ^ 11 < 1 / 10 ^ 10).
  { split; [apply Rdiv_lt_0_compat; [lra|apply pow_lt; lra]|]. unfold Rdiv. rewrite !Rmult_1_l. apply Rinv_lt_contravar; [apply Rmult_lt_0_compat; apply pow_lt; lra|]. apply Rlt_pow; [lra|lia]. }
  pose proof tol10_lt1.
  rewrite Rabs_Ropp, (Rabs_pos_eq (1 / 10 ^ 11)), (Rabs_pos_eq 1) by lra.
  replace (Rltb 1 (1 / 10 ^ 10)) with false by (symmetry; apply Rltb_false; lra). cbn [andb].
  replace (Rltb (1 / 10 ^ 11) 1) with true by (symmetry; apply Rltb_true; lra).
  replace (Rltb (- (1 / 10 ^ 10)) 1) with true by (symmetry; apply Rltb_true; lra).
  replace (Rltb (- (1 / 10 ^ 10)) (- (1 / 10 ^ 11))) with true by (symmetry; apply Rltb_true; lra). cbn [andb].
  rewrite sin_atan. apply Rdiv_lt_0_compat; [lra|]. apply sqrt_lt_R0. pose proof (Rle_0_sqr (1 / 10 ^ 11 / 1)). lra.
Qed.
Theorem C62_cos_angle n (x y z : nat -> R) :
  let v := cos_angle n x y z in
  (vdist n x y < 1 / 10 ^ 10 \/ vdist n y z < 1 / 10 ^ 10 -> v = 1) /\
  (1 / 10 ^ 10 <= vdist n x y -> 1 / 10 ^ 10 <= vdist n y z ->
   -1 <= v <= 1 /\ dot n (sub x y) (sub z y) = vdist n x y * vdist n y z * v).
Proof.
  cbn zeta. unfold cos_angle. rewrite !distance_R, tol_eq, range0_R. change nltb with Rltb. split.
  - intros H. replace (Rltb _ _ || Rltb _ _) with true; [reflexivity|]. symmetry. apply orb_true_iff. rewrite !Rltb_true. exact H.
  - intros H1 H2. pose proof tol_pos.
    replace (Rltb _ _ || Rltb _ _) with false by (symmetry; apply orb_false_iff; rewrite !Rltb_false; auto).
    change ndiv with Rdiv. change nmul with Rmult. change nsub with Rminus.
    change (sumn n _) with (dot n (sub x y) (sub z y)).
    assert (P : 0 < vdist n x y * vdist n y z) by (apply Rmult_lt_0_compat; lra).
    split; [|field; lra].
    assert (N1 : vdist n x y = norm n (sub x y)) by reflexivity.
    assert (N2 : vdist n y z = norm n (sub z y)) by (rewrite vdist_sym; reflexivity).
    rewrite N1, N2 in *. pose proof (dot_le_norm n (sub x y) (sub z y)) as C1.
    pose proof (dot_le_norm n (fun d => -1 * sub x y d) (sub z y)) as C2.
    rewrite dot_scal_l, norm_scal in C2. rewrite Rabs_left in C2 by lra.
    set (D := dot n _ _) in *. set (M := norm n (sub x y) * norm n (sub z y)) in *.
    assert (-M <= D) by (unfold M; lra).
    split; apply Rmult_le_reg_r with M; auto; unfold Rdiv; rewrite Rmult_assoc, Rinv_l by lra; lra.
Qed.

Print Assumptions C18_segment.
Print Assumptions C18_null_segment_refuted.
Print Assumptions C18_line.
Print Assumptions C18_triangle.
Print Assumptions C18_triangle_closest.
Print Assumptions C18_null_triangle_refuted.
Print Assumptions C19_normal_success.
Print Assumptions C19_normal_fails_iff.
Print Assumptions C19_area.
Print Assumptions C19_area_any_order.
Print Assumptions C19_normal_component.
Print Assumptions C19_normal_component_fails.
Print Assumptions C19_normalize.
Print Assumptions C20_two_spheres.
Print Assumptions C20_n_spheres.
Print Assumptions C20_parallel_dart_refuted.
Print Assumptions C62_point_angle.
Print Assumptions C62_below_axis_refuted.
Print Assumptions C62_cos_angle.
