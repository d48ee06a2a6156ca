(** C72: the edge spheres. *)
From Coq Require Import Reals Lra.
From Verif Require Import Base Num Vec KdTree SmartTree KdSpec SmartTreeSpec SmartQueryProofs SmartTreeProofs TreeGrow DenseQR Geometry GeometrySpec GeometryProofs
  Spheres SpheresSpec SpheresProofs SpheresOverlapProofs Sampling SamplingProofs ActivePool ActivePoolSpec ActivePoolProofs ActivePoolThreadProofs ActivePoolEdgeProofs ActivePoolStartProofs ActivePoolRunSpec ActivePoolRunProofs ActivePoolCoverProofs PropsActivePool
  SamplePool SamplePoolSpec SamplePoolProofs PropsSamplePool SeedPairsSpec PolyMesh PropsSpheres
  SurfaceLoop SurfaceShrinkProofs CornerSpec CornerProofs EdgeLoop EdgeLoopSpec EdgeLoopProofs.
Local Open Scope R_scope.

(** Whatever the random numbers, the spheres the routine returns cover the sharp edges, lie on them, have the radii allowed,
    respect the slope, and respect the other edges. *)
Theorem C72_edge_spheres need u w fuel inner mem s :
  good_edge_setting w -> (forall j, 0 <= u j < 1) ->
  generate_edge_spheres need u w fuel inner mem = Ok s -> edge_result w s.
Proof.
  intros Hw Hu E. unfold generate_edge_spheres in E.
  apply (@edge_loop_ok need u w Hw Hu fuel inner (EProg (st_new 3) 0 mem 0) s); [|exact E]. split; [eapply stock_new; eauto|reflexivity].
Qed.

(** The radius given to a new sphere: the least of the limits, but at least _r_min_edges, and at most the input size. *)
Theorem C72_radius w es num x :
  good_edge_setting w -> spheres es \/ st_pts es = [] -> (4 <= length x)%nat -> on_edges (d_points w) (d_edges w) (vec x) ->
  (forall j, (j < count es)%nat -> point_at_reach es (vec x)) ->
  exists near m r, edge_radius w es num x = Ok r
    /\ ((num <= 1)%nat -> near = []) /\ ((1 < num)%nat -> overlapping es (d_Lip w) (vec x) (vec x 3%nat) near)
    /\ least_of (edge_limits w es near x) m
    /\ (d_input w = None -> r = Rmax m (d_rme w))
    /\ (forall t, d_input w = Some t -> exists c, closest_size t (vec x) c /\ r = Rmin (Rmax m (d_rme w)) (radius t c)).
Proof.
  intros Hw Hes Hx Hon Hr. destruct (@edge_radius_ok (fun _ _ => false) (fun _ => 0) w Hw ltac:(intros; lra) es num x Hes Hx Hon Hr) as (near & m & r & H1 & H2 & H3 & H4 & _ & H5 & H6).
  exists near, m, r. auto 8.
Qed.

(** Without sharp corners the tree of corner spheres is empty, and it is searched all the same. *)
Theorem C72_no_corners_refuted need u w fuel inner mem :
  good_points (d_points w) -> good_edges (d_points w) (d_edges w) -> d_edges w <> [] ->
  cloud (d_cloud w) (normals_of (d_cloud w)) -> cloud (d_ecloud w) (normals_of (d_ecloud w)) ->
  d_cs w = st_new 3 ->
  generate_edge_spheres need u w (S fuel) (S inner) mem = UB.
Proof.
  intros Hp He Hne (Rc & Ec & Nc & Lc & Vc) (Re & Ee & Ne & Le & Ve) Hcs.
  unfold generate_edge_spheres. cbn [edge_loop].
  destruct (@start_edges_ok _ _ (d_points w) (d_edges w) Hp He) as (p & -> & D & Lv). cbn [bind]. cbn [fill_edges h_es h_k h_old h_num].
  unfold sample_edge. pose proof D as (D1 & D2 & D3 & D4).
  assert (Lc0 : length (p_cdf p) = length (d_edges w)).
  { destruct (@make_cdf_total _ _ (map (elength (d_points w) (d_edges w)) (map (fun e => (e, [])) (seq 0 (length (d_edges w)))))) as (c & E & L).
    rewrite D3 in E. injection E as <-. rewrite L, !map_length, seq_length. reflexivity. }
  destruct (@pool_pick_total (p_cdf p) (u 0%nat)) as (i & -> & Hi); [intros C; rewrite C in Lc0; destruct (d_edges w); [auto|discriminate]|]. cbn [bind].
  assert (Ei : nth_error (map (fun e : nat => (e, @nil bool)) (seq 0 (length (d_edges w)))) i = Some (i, [])).
  { rewrite (map_nth_error (fun e : nat => (e, @nil bool)) i (seq 0 (length (d_edges w))) (d := i)); auto. rewrite (nth_error_nth' _ 0%nat) by (rewrite seq_length; lia). rewrite seq_nth by lia. reflexivity. }
  rewrite D1, (get_some (map_nth_error fst _ _ Ei)). cbn [bind]. rewrite (@edge_corners_ok _ _ _ _ Hp He p _ i _ D Ei). cbn [bind].
  destruct (eshape (d_points w) (d_edges w) (i, [])) as ((a, b), m). cbn [bind map app].
  unfold point_covered. rewrite Hcs. cbn [st_n st_new st_pts length Nat.eqb bind h_es].
  unfold edge_radius. set (x := [_; _; _; mem]).
  destruct (@closest_nonsmooth_ok _ Rc _ Nc Lc) with (x := x) (tol := d_tol w) (thr := d_thr w) (d0 := @dbl_max R _) as (b1 & -> & _);
    [intros v Hin; rewrite Ec; auto|rewrite Ec; cbn; lia|left; apply dbl_max_pos|]. cbn [bind].
  destruct (@closest_nonsmooth_edge_ok _ Re _ Ne Le) with (x := x) (tol := d_tol w) (thr := d_thr w) (d0 := @dbl_max R _) as (b2 & -> & _);
    [intros v Hin; rewrite Ee; auto|rewrite Ee; cbn; lia|left; apply dbl_max_pos|]. cbn [bind].
  rewrite Hcs. reflexivity.
Qed.

(** A case: one edge of length 1, one corner sphere, and two clouds with one point. *)
Definition corner1 : stree R := ST 3 100 [[0; 0; 0; 2/5]]%R (Some [[0; 0; 0]]%R) (Some [Some [2; 0]%nat]) ([0], [0])%nat 0 1 [0; 0; 0]%R [0; 0; 0]%R.
Lemma corner1_ok : cloud corner1 (normals_of corner1) /\ spheres corner1.
Proof.
  assert (Rd : ready corner1).
  { split; [simpl; lia|]. split; [discriminate|]. split; [intros p [<-|[]]; simpl; lia|].
    exists (Node 0 Leaf Leaf). split; auto. split; [reflexivity|]. split; [reflexivity|].
    split; [eexists _, _; reflexivity|]. split; [repeat split; reflexivity|]. split; [apply Permutation_refl|].
    cbn. repeat split; intros j []. }
  split.
  - split; [exact Rd|]. split; [auto|]. split; [auto|]. split; [auto|]. intros v [<-|[]]. simpl. lia.
  - split; [exact Rd|]. split; [reflexivity|]. intros p [<-|[]]. simpl. lia.
Qed.
Definition case_edge : esetting R :=
  ESet [[0; 0; 0]; [1; 0; 0]] [[0; 1]]%nat cloud1 cloud1 None corner1 (1/10) (9/10) 1 (1/4) (9/10) 0.
Lemma case_edge_box q : on_edges (d_points case_edge) (d_edges case_edge) q -> 0 <= q 0%nat <= 1 /\ q 1%nat = 0 /\ q 2%nat = 0.
Proof.
  intros (f & Hf & m & Hm & Hq). cbn in Hf. assert (f = 0%nat) by lia. subst f.
  pose proof (Hq 0%nat ltac:(lia)) as Q0. pose proof (Hq 1%nat ltac:(lia)) as Q1. pose proof (Hq 2%nat ltac:(lia)) as Q2.
  unfold vec in *. cbn in Q0, Q1, Q2. lra.
Qed.
Example C72_hypotheses : good_edge_setting case_edge.
Proof.
  assert (M : 5 <= @dbl_max R RNum) by (unfold dbl_max; cbn [nofZ RNum]; apply IZR_le; intros C; discriminate C).
  assert (Near : forall p q : nat -> R, 0 <= p 0%nat <= 1 /\ p 1%nat = 0 /\ p 2%nat = 0 -> 0 <= q 0%nat <= 1 /\ q 1%nat = 0 /\ q 2%nat = 0 -> vdist 3 p q < @dbl_max R RNum).
  { intros p q (P0 & P1 & P2) (Q0 & Q1 & Q2). apply Rlt_le_trans with 2; [|lra].
    unfold vdist, norm. rewrite dot3. unfold sub. rewrite <- (sqrt_Rsqr 2) by lra. apply sqrt_lt_1_alt. unfold Rsqr. rewrite P1, P2, Q1, Q2. assert ((p 0%nat - q 0%nat) * (p 0%nat - q 0%nat) <= 1) by nra. pose proof (Rle_0_sqr (p 0%nat - q 0%nat)) as Sq. unfold Rsqr in Sq. split; lra. }
  split; [|split; [|split; [apply cloud1_ok|split; [apply cloud1_ok|split; [apply corner1_ok|split]]]]].
  - intros p [<-|[<-|[]]]; simpl; lia.
  - intros e [<-|[]]. split; [simpl; lia|]. intros k Hk. destruct k as [|[|]]; simpl; lia.
  - right. split; [apply corner1_ok|]. intros p Hp. exists 0%nat. split; [cbn; lia|]. apply Near; [apply case_edge_box; auto|]. unfold center, coord. cbn. lra.
  - split; [discriminate|]. cbn [d_tol d_thr d_rmax d_rme d_Lip d_ratio case_edge].
    split; [lra|]. split; [lra|]. split; [split; [lra|]|split; [lra|split; [lra|split; [lra|]]]].
    + change (1 <= 2 / 5 * @dbl_max R RNum). lra.
    + intros p q Hp Hq. apply Near; apply case_edge_box; auto.
Qed.

(** Runs on floating-point numbers: an edge of length 3 with corner spheres at its ends. *)
Definition two_corners (r1 r2 : PrimFloat.float) : res (stree PrimFloat.float) :=
  s <- add_point (fun _ _ => false) (st_new 3) [n0; n0; n0; r1] None (Some [2; 0]%nat) ;;
  add_point (fun _ _ => false) s [fl 3; n0; n0; r2] None (Some [2; 1]%nat).
Definition run_edges (r1 r2 rmax : PrimFloat.float) (u : nat -> PrimFloat.float) : res (stree PrimFloat.float) :=
  c <- one_cloud ;; k <- two_corners r1 r2 ;;
  generate_edge_spheres auto_balance u
    (ESet [[n0; n0; n0]; [fl 3; n0; n0]] [[0; 1]]%nat c c None k (nlit 1 2) (nlit 9 1) rmax (nlit 25 2) (nlit 9 1) n0) 5 2000 n0.
Definition rows (s : res (stree PrimFloat.float)) : list (list PrimFloat.float) := match s with Ok t => st_pts t | _ => [] end.
(** The dart in the middle gives one sphere, which with the corner spheres covers the edge: its radius is 0.4 times the distance to a corner. *)
Example C72_run :
  rows (run_edges (nlit 14 1) (nlit 14 1) (fl 10) (fun _ => nlit 5 1)) = [[nlit 15 1; n0; n0; nlit 4 1 * nlit 15 1]]%num.
Proof. vm_compute. reflexivity. Qed.
(** "New sphere should not alpha cover an old sphere center" (1244): the check starts with the third sphere, so the second may cover the centre of the first
    even when it is reduced by the factor sqrt(1 - ratio^2). *)
Theorem C72_second_refuted : exists u x1 x2 r1 r2,
  (forall k, (n0 <=? u k) = true /\ (u k <? n1) = true)%num
  /\ rows (run_edges (nlit 99 2) (nlit 17 1) (fl 10) u) = [[x1; n0; n0; r1]; [x2; n0; n0; r2]]
  /\ (x1 <? x2)%num = true /\ (x2 - x1 <? nsqrt (n1 - nlit 9 1 * nlit 9 1) * r2)%num = true.
Proof.
  exists (fun k => if Nat.eqb k 1 then nlit 33333 5 else if Nat.eqb k 3 then nlit 39466 5 else nlit 5 1).
  eexists _, _, _, _. split; [|split; [vm_compute; reflexivity|split; vm_compute; reflexivity]].
  intros k. destruct (Nat.eqb k 1); [|destruct (Nat.eqb k 3)]; split; vm_compute; reflexivity.
Qed.

Print Assumptions C72_edge_spheres.
Print Assumptions C72_radius.
Print Assumptions C72_no_corners_refuted.
Print Assumptions C72_second_refuted.
