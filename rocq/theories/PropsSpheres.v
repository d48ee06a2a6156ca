(** C27-C30, C63: coverage by spheres, Lipschitz radii, overlaps, slivers
    (MeshingSpheresMethods.cpp). *)
From Verif Require Import Base Num DenseQR KdTree Vec KdSpec SmartTree SmartTreeSpec Geometry GeometrySpec GeometryProofs
  Spheres SpheresSpec SpheresProofs SpheresLipProofs SpheresTreeLipProofs SpheresOverlapProofs.
From Coq Require Import Reals Lra.
Local Open Scope R_scope.

(** ** C27: coverage *)
Theorem C27_one_sphere (p sphere : nat -> R) alpha :
  point_covered1 p sphere alpha = true <-> vdist 3 p sphere < reach (fraction alpha) (sphere 3%nat).
Proof.
  unfold point_covered1, within, reach. rewrite beta_of_R. cbn [nltb nadd nmul RNum].
  rewrite Rltb_true, distance_R, nlit8. reflexivity.
Qed.

Theorem C27_no_spheres (s : stree R) x y z L alpha : st_pts s = [] ->
  point_covered s x L alpha = Ok false /\ edge_covered s x y L alpha = Ok false /\ face_covered s x y z L alpha = Ok false.
Proof.
  intros E. unfold point_covered, edge_covered, face_covered, corners_covered, st_n. rewrite E. auto.
Qed.

(** The answer is always given, and "covered" is right. *)
Theorem C27_point_sound s x L alpha : spheres s -> (3 <= length x)%nat -> point_at_reach s (vec x) ->
  exists b, point_covered s x L alpha = Ok b
    /\ (b = true -> exists j, (j < count s)%nat /\ covers s (fraction alpha) j (vec x)).
Proof.
  intros Hs Hx Hr. destruct (@point_covered_ok s x L alpha Hs Hx Hr) as (b & E & H & _). eauto.
Qed.
(** "Not covered" is right when the radii have slope L < 1 (locally): no sphere that
    contains the point in its interior passes the test. *)
Theorem C27_point_complete s x L alpha : spheres s -> (3 <= length x)%nat -> point_at_reach s (vec x) ->
  0 <= L < 1 -> locally_lipschitz L s -> point_covered s x L alpha = Ok false ->
  forall j, (j < count s)%nat -> vdist 3 (vec x) (center s j) < radius s j -> ~ covers s (fraction alpha) j (vec x).
Proof.
  intros Hs Hx Hr HL HLip E j Hj Hin Hc. destruct (@point_covered_ok s x L alpha Hs Hx Hr) as (b & E' & _ & H).
  rewrite E in E'. injection E' as <-. discriminate (H HL HLip j Hj Hc Hin).
Qed.

Theorem C27_edge_sound s a b L alpha : spheres s -> point_at_reach s (vec (center2 a b)) ->
  exists r, edge_covered s a b L alpha = Ok r
    /\ (r = true -> exists j, (j < count s)%nat /\
          forall p, on_segment (vec a) (vec b) p -> covers s (sqrt (1 - alpha * alpha)) j p).
Proof.
  intros Hs Hr.
  destruct (@corners_covered_ok s (center2 a b) [gv a; gv b] L alpha Hs) as (r & E & H & _); auto.
  exists r. split; auto. intros Er. destruct (H Er) as (j & Hj & Hc). exists j. split; auto.
  intros p (u & Hu & Hp). unfold covers in *.
  pose proof (Hc (gv a) (or_introl eq_refl)) as Ca. pose proof (Hc (gv b) (or_intror (or_introl eq_refl))) as Cb.
  change (gv a) with (vec a) in Ca. change (gv b) with (vec b) in Cb.
  pose proof (@vdist_convex 3 (vec a) (vec b) (center s j) p u Hu) as V.
  assert (V' : vdist 3 p (center s j) <= (1 - u) * vdist 3 (vec a) (center s j) + u * vdist 3 (vec b) (center s j)).
  { apply V. intros k Hk. rewrite Hp by auto. ring. }
  set (q := reach (sqrt (1 - alpha * alpha)) (radius s j)) in *.
  assert ((1 - u) * vdist 3 (vec a) (center s j) + u * vdist 3 (vec b) (center s j) < q).
  { destruct (Req_dec u 0) as [->|]; [lra|].
    assert (u * vdist 3 (vec b) (center s j) < u * q) by (apply Rmult_lt_compat_l; lra).
    assert ((1 - u) * vdist 3 (vec a) (center s j) <= (1 - u) * q) by (apply Rmult_le_compat_l; lra). lra. }
  lra.
Qed.
Theorem C27_edge_complete s a b L alpha : spheres s -> point_at_reach s (vec (center2 a b)) ->
  0 <= L < 1 -> locally_lipschitz L s -> edge_covered s a b L alpha = Ok false ->
  forall j, (j < count s)%nat -> vdist 3 (vec a) (center s j) < radius s j -> vdist 3 (vec b) (center s j) < radius s j ->
    ~ (covers s (sqrt (1 - alpha * alpha)) j (vec a) /\ covers s (sqrt (1 - alpha * alpha)) j (vec b)).
Proof.
  intros Hs Hr HL HLip E j Hj Ha Hb (Ca & Cb).
  destruct (@corners_covered_ok s (center2 a b) [gv a; gv b] L alpha Hs) as (r & E' & _ & H); auto.
  unfold edge_covered in E. rewrite E in E'. injection E' as <-.
  assert (false = true); [|discriminate].
  apply (H HL HLip j Hj).
  - intros p [<-|[<-|[]]]; auto.
  - pose proof (@vdist_convex 3 (vec a) (vec b) (center s j) (vec (center2 a b)) (1 / 2)) as V.
    assert (vdist 3 (vec (center2 a b)) (center s j) <= (1 - 1/2) * vdist 3 (vec a) (center s j) + 1/2 * vdist 3 (vec b) (center s j)).
    { apply V; [lra|]. intros. apply center2_vec; auto. }
    lra.
Qed.

Definition corner3 (a b c : list R) : nat -> nat -> R := fun i => vec (nth i [a; b; c] []).
Theorem C27_face_sound s a b c L alpha : spheres s -> point_at_reach s (vec (center3 a b c)) ->
  exists r, face_covered s a b c L alpha = Ok r
    /\ (r = true -> exists j, (j < count s)%nat /\
          forall p, in_triangle (corner3 a b c) p -> covers s (sqrt (1 - alpha * alpha)) j p).
Proof.
  intros Hs Hr.
  destruct (@corners_covered_ok s (center3 a b c) [gv a; gv b; gv c] L alpha Hs) as (r & E & H & _); auto.
  exists r. split; auto. intros Er. destruct (H Er) as (j & Hj & Hc). exists j. split; auto.
  intros p (m & (Hm & Hp) & Hpos). unfold covers in *.
  pose proof (Hc (gv a) (or_introl eq_refl)) as Ca. pose proof (Hc (gv b) (or_intror (or_introl eq_refl))) as Cb.
  pose proof (Hc (gv c) (or_intror (or_intror (or_introl eq_refl)))) as Cc.
  change (gv a) with (corner3 a b c 0) in Ca. change (gv b) with (corner3 a b c 1) in Cb. change (gv c) with (corner3 a b c 2) in Cc.
  pose proof (@vdist_bary 3 (corner3 a b c) m p (center s j) Hm Hpos Hp) as V.
  pose proof (Hpos 0%nat ltac:(lia)). pose proof (Hpos 1%nat ltac:(lia)). pose proof (Hpos 2%nat ltac:(lia)).
  set (q := reach (sqrt (1 - alpha * alpha)) (radius s j)) in *.
  set (d0 := vdist 3 (corner3 a b c 0) (center s j)) in *. set (d1 := vdist 3 (corner3 a b c 1) (center s j)) in *.
  set (d2 := vdist 3 (corner3 a b c 2) (center s j)) in *.
  set (M := Rmax d0 (Rmax d1 d2)). assert (HM : M < q) by (unfold M; repeat apply Rmax_lub_lt; auto).
  assert (d0 <= M /\ d1 <= M /\ d2 <= M).
  { unfold M. pose proof (Rmax_l d0 (Rmax d1 d2)). pose proof (Rmax_r d0 (Rmax d1 d2)).
    pose proof (Rmax_l d1 d2). pose proof (Rmax_r d1 d2). lra. }
  assert (m 0%nat * d0 <= m 0%nat * M) by (apply Rmult_le_compat_l; lra).
  assert (m 1%nat * d1 <= m 1%nat * M) by (apply Rmult_le_compat_l; lra).
  assert (m 2%nat * d2 <= m 2%nat * M) by (apply Rmult_le_compat_l; lra).
  assert (m 0%nat * M + m 1%nat * M + m 2%nat * M = M) by (rewrite <- !Rmult_plus_distr_r, Hm; lra).
  lra.
Qed.
Theorem C27_face_complete s a b c L alpha : spheres s -> point_at_reach s (vec (center3 a b c)) ->
  0 <= L < 1 -> locally_lipschitz L s -> face_covered s a b c L alpha = Ok false ->
  forall j, (j < count s)%nat ->
    (forall k, (k < 3)%nat -> vdist 3 (corner3 a b c k) (center s j) < radius s j) ->
    ~ (forall k, (k < 3)%nat -> covers s (sqrt (1 - alpha * alpha)) j (corner3 a b c k)).
Proof.
  intros Hs Hr HL HLip E j Hj Hin Hcov.
  destruct (@corners_covered_ok s (center3 a b c) [gv a; gv b; gv c] L alpha Hs) as (r & E' & _ & H); auto.
  unfold face_covered in E. rewrite E in E'. injection E' as <-.
  assert (false = true); [|discriminate].
  apply (H HL HLip j Hj).
  - intros p [<-|[<-|[<-|[]]]]; [apply (Hcov 0%nat)|apply (Hcov 1%nat)|apply (Hcov 2%nat)]; lia.
  - pose proof (@vdist_bary 3 (corner3 a b c) (fun _ => 1 / 3) (vec (center3 a b c)) (center s j)) as V.
    assert (vdist 3 (vec (center3 a b c)) (center s j) <= 1/3 * vdist 3 (corner3 a b c 0) (center s j)
       + 1/3 * vdist 3 (corner3 a b c 1) (center s j) + 1/3 * vdist 3 (corner3 a b c 2) (center s j)).
    { apply V; [lra|intros; lra|]. intros. apply center3_vec; auto. }
    pose proof (Hin 0%nat ltac:(lia)). pose proof (Hin 1%nat ltac:(lia)). pose proof (Hin 2%nat ltac:(lia)). lra.
Qed.

(** *** A concrete set of two spheres, at distance [a] on the first axis *)
Definition two_spheres (a r0 r1 : R) : stree R :=
  ST 3 100 [[0; 0; 0; r0]; [a; 0; 0; r1]] None None ([0; 1], [1; 1])%nat 0 2 [0; 0; 0] [a; 0; 0].
Lemma two_spheres_ok a r0 r1 : 0 < a -> spheres (two_spheres a r0 r1).
Proof.
  intros Ha. split; [|split; auto].
  - split; [simpl; lia|]. split; [discriminate|]. split.
    + intros p [<-|[<-|[]]]; simpl; lia.
    + exists (Node 0 Leaf (Node 1 Leaf Leaf)). split; auto. split; [reflexivity|]. split; [reflexivity|].
      split; [eexists _, _; reflexivity|]. split; [repeat split; reflexivity|]. split; [apply Permutation_refl|].
      cbn. split; [intros j []|]. split; [|repeat split; intros j []].
      intros j [<-|[]]. unfold coord. simpl. apply Rltb_true. auto.
  - intros p [<-|[<-|[]]]; simpl; lia.
Qed.
Lemma axis_dist (u v : nat -> R) : u 1%nat = v 1%nat -> u 2%nat = v 2%nat -> vdist 3 u v = Rabs (u 0%nat - v 0%nat).
Proof.
  intros E1 E2. unfold vdist, norm. rewrite dot3.
  replace (_ + _ + _) with (Rsqr (u 0%nat - v 0%nat)) by (rewrite E1, E2; unfold Rsqr; ring). apply sqrt_Rsqr_abs.
Qed.
Lemma two_spheres_gap a r0 r1 : 0 < a -> gap (two_spheres a r0 r1) 0 1 = a /\ gap (two_spheres a r0 r1) 1 0 = a.
Proof.
  intros Ha. assert (G : gap (two_spheres a r0 r1) 0 1 = a).
  { unfold gap. rewrite axis_dist by reflexivity. unfold center, coord. simpl.
    replace (0 - a) with (- a) by ring. rewrite Rabs_Ropp. apply Rabs_pos_eq. lra. }
  split; auto. rewrite gap_sym. auto.
Qed.
Lemma two_spheres_lipschitz a r0 r1 L : 0 < a -> Rabs (r0 - r1) <= L * a -> lipschitz L (two_spheres a r0 r1).
Proof.
  intros Ha H i j Hi Hj. change (count (two_spheres a r0 r1)) with 2%nat in *.
  destruct (two_spheres_gap r0 r1 Ha) as (G1 & G2). apply Rabs_le_between in H || apply Rabs_def2 in H || idtac.
  assert (H' : - (L * a) <= r0 - r1 <= L * a) by (revert H; unfold Rabs; destruct (Rcase_abs _); lra).
  destruct i as [|[|i]]; [| |lia]; destruct j as [|[|j]]; try lia; rewrite ?gap_self, ?G1, ?G2; unfold radius, coord; simpl; lra.
Qed.
Lemma lipschitz_local L s : lipschitz L s -> locally_lipschitz L s.
Proof. intros H i j Hi Hj _. auto. Qed.
Lemma dbl_max_big : 1000 < @dbl_max R RNum.
Proof. unfold dbl_max. cbn [nofZ RNum]. apply IZR_lt. reflexivity. Qed.

Example C27_hypotheses : let s := two_spheres 1 (1/2) (6/10) in
  spheres s /\ locally_lipschitz (1/4) s /\ point_at_reach s (vec [1/4; 0; 0]) /\ covers s (fraction (1/10)) 0 (vec [1/4; 0; 0]).
Proof.
  intros s. split; [apply two_spheres_ok; lra|]. split.
  - apply lipschitz_local, two_spheres_lipschitz; [lra|]. unfold Rabs. destruct (Rcase_abs _); lra.
  - assert (D : vdist 3 (vec [1/4; 0; 0]) (center s 0) = 1/4).
    { rewrite axis_dist by reflexivity. unfold center, coord, vec. simpl. rewrite Rabs_pos_eq; lra. }
    split.
    + exists 0%nat. split; [cbn; lia|]. rewrite D. pose proof dbl_max_big. lra.
    + unfold covers. rewrite D. unfold reach, fraction. pose proof eight_pos.
      destruct (Rlt_dec (1 / 10 ^ 10) (1/10)) as [_|N].
      * change (radius s 0) with (1/2). assert (9/10 <= sqrt (1 - 1/10 * (1/10))).
        { rewrite <- (sqrt_Rsqr (9/10)) by lra. apply sqrt_le_1_alt. unfold Rsqr. lra. }
        assert (9/10 * (1/2) <= (sqrt (1 - 1/10 * (1/10)) + 1/10^8) * (1/2)) by (apply Rmult_le_compat_r; lra). lra.
      * exfalso. apply N. lra.
Qed.

(** Without a bound on the slope the answer may be wrong: the point is well inside the
    large sphere but a small sphere is nearer. *)
Theorem C27_any_radii_refuted : exists s x,
  spheres s /\ positive_radii s /\ point_covered s x (1/4) 0 = Ok false /\ vdist 3 (vec x) (center s 1) < 1 /\ radius s 1 = 10.
Proof.
  exists (two_spheres 1 (1/100) 10), [1/10; 0; 0]. set (s := two_spheres 1 (1/100) 10).
  assert (Hs : spheres s) by (apply two_spheres_ok; lra).
  assert (D0 : vdist 3 (vec [1/10; 0; 0]) (center s 0) = 1/10).
  { rewrite axis_dist by reflexivity. unfold center, coord, vec. simpl. rewrite Rabs_pos_eq; lra. }
  assert (D1 : vdist 3 (vec [1/10; 0; 0]) (center s 1) = 9/10).
  { rewrite axis_dist by reflexivity. unfold center, coord, vec. simpl. rewrite Rabs_left; lra. }
  split; auto. split.
  { intros [|[|i]] Hi; [unfold radius, coord; simpl; lra|unfold radius, coord; simpl; lra|cbn in Hi; lia]. }
  split; [|split; [lra|reflexivity]].
  unfold point_covered. destruct (spheres_n Hs) as (-> & _).
  destruct (@estimate_ok s [1/10; 0; 0] (1/4) Hs) as (c & Hc & -> & Hmin); [simpl; lia|..].
  { exists 0%nat. split; [cbn; lia|]. rewrite D0. pose proof dbl_max_big. lra. }
  cbn [bind]. assert (c = 0%nat) as ->.
  { destruct c as [|[|c]]; auto; [|cbn in Hc; lia]. specialize (Hmin 0%nat ltac:(cbn; lia)). lra. }
  rewrite D0. change (radius s 0) with (1/100).
  change (@n1 R RNum) with 1. change ndiv with Rdiv. change nsub with Rminus.
  set (q := (1/100 + 1/4 * (1/10)) / (1 - 1/4)). assert (Hq : q = 7/150) by (unfold q; field).
  destruct (@query_ok s [1/10; 0; 0] q Hs) as (l & -> & _ & Hl & _ & Hin); [simpl; lia|]. cbn [bind].
  destruct l as [|j l]; [reflexivity|]. exfalso.
  specialize (Hl j (or_introl eq_refl)). specialize (Hin j (or_introl eq_refl)). rewrite Hq in Hin.
  destruct j as [|[|j]]; [rewrite D0 in Hin|rewrite D1 in Hin|cbn in Hl; lia]; revert Hin; lra.
Qed.

(** ** C28: Lipschitz radii, all pairs *)
Theorem C28_brute_force L s fuel : 0 <= L -> spheres s -> (2 <= fuel)%nat ->
  exists s' shrunk, impose_lipschitz_brute fuel L s = Ok (s', shrunk)
    /\ only_radii s s' /\ lipschitz L s'
    /\ (forall i, (i < count s)%nat -> radius s' i <= radius s i)
    /\ (forall rho : nat -> R, (forall i, (i < count s)%nat -> rho i <= radius s i) ->
          (forall i j, (i < count s)%nat -> (j < count s)%nat -> rho i <= rho j + L * gap s i j) ->
          forall i, (i < count s)%nat -> rho i <= radius s' i)
    /\ (shrunk = true <-> exists i, (i < count s)%nat /\ radius s' i < radius s i)
    /\ (shrunk = false -> s' = s).
Proof.
  intros HL Hs Hf. destruct (@brute_ok L s fuel HL Hs Hf) as (s' & b & E & O & Hh & Hb).
  exists s', b. split; auto. split; auto. split; [eapply hull_lipschitz; eauto|].
  split; [intros i Hi; apply (hull_le (Hh i Hi) Hi)|]. split.
  - intros rho H1 H2 i Hi. destruct (Hh i Hi) as ((j & Hj & ->) & _). specialize (H2 i j Hi Hj). specialize (H1 j Hj). lra.
  - destruct b; split; auto; try discriminate. 
    + split; auto.
    + subst s'. split; [discriminate|]. intros (i & _ & C). lra.
Qed.
(** Radii stay positive, and radii that already have slope L are left alone. *)
Theorem C28_brute_force_positive L s fuel s' b : 0 <= L -> spheres s -> (2 <= fuel)%nat -> positive_radii s ->
  impose_lipschitz_brute fuel L s = Ok (s', b) -> positive_radii s'.
Proof.
  intros HL Hs Hf Hp E i Hi. destruct (@brute_ok L s fuel HL Hs Hf) as (s1 & b1 & E1 & O & Hh & _).
  rewrite E in E1. injection E1 as <- <-. rewrite (only_radii_count O) in Hi.
  destruct (Hh i Hi) as ((j & Hj & ->) & _). specialize (Hp j Hj). pose proof (Lgap s i j HL). lra.
Qed.
Theorem C28_brute_force_idempotent L s fuel : 0 <= L -> spheres s -> (2 <= fuel)%nat -> lipschitz L s ->
  impose_lipschitz_brute fuel L s = Ok (s, false).
Proof.
  intros HL Hs Hf HLip. destruct fuel as [|f]; [lia|]. unfold impose_lipschitz_brute. cbn [brute].
  rewrite sweep_lipschitz; auto.
Qed.
Example C28_hypotheses : spheres (two_spheres 1 (1/2) 2) /\ ~ lipschitz (1/4) (two_spheres 1 (1/2) 2).
Proof.
  split; [apply two_spheres_ok; lra|]. intros H. specialize (H 1%nat 0%nat ltac:(cbn; lia) ltac:(cbn; lia)).
  destruct (@two_spheres_gap 1 (1/2) 2) as (_ & G); [lra|]. rewrite G in H. unfold radius, coord in H. simpl in H. lra.
Qed.

(** ** C29: Lipschitz radii with range queries *)
Theorem C29_tree L s fuel shrunk : 0 <= L -> spheres s -> positive_radii s -> (count s <= fuel)%nat ->
  exists s' b, impose_lipschitz fuel L s shrunk = Ok (s', b)
    /\ only_radii s s' /\ locally_lipschitz L s'
    /\ (forall i, (i < count s)%nat -> 0 < radius s' i <= radius s i)
    /\ (forall rho : nat -> R, (forall i, (i < count s)%nat -> rho i <= radius s i) ->
          (forall i j, (i < count s)%nat -> (j < count s)%nat -> rho i <= rho j + L * gap s i j) ->
          forall i, (i < count s)%nat -> rho i <= radius s' i)
    /\ (b = true <-> shrunk = true \/ exists i, (i < count s)%nat /\ radius s' i < radius s i).
Proof.
  intros HL Hs Hp Hf. destruct (@impose_lipschitz_ok L s fuel shrunk HL Hs Hp Hf) as (s' & b & E & O & Hr & Hh & Hl & Hb & _).
  exists s', b. split; auto. split; auto. split; auto. split; auto. split.
  - intros rho H1 H2 i Hi. destruct (@hull_exists L s i) as (v & Hv); [lia|]. specialize (Hh i v Hi Hv).
    destruct Hv as ((j & Hj & ->) & _). specialize (H2 i j Hi Hj). specialize (H1 j Hj). lra.
  - destruct Hb as [(-> & Hb)|(-> & Hb)]; [|tauto]. split; auto. intros [H|(i & Hi & C)]; auto. rewrite Hb in C by auto. lra.
Qed.
(** Radii that have slope L are left alone. *)
Theorem C29_tree_idempotent L s fuel shrunk : 0 <= L -> spheres s -> positive_radii s -> (count s <= fuel)%nat -> lipschitz L s ->
  exists s', impose_lipschitz fuel L s shrunk = Ok (s', shrunk) /\ only_radii s s'
    /\ forall i, (i < count s)%nat -> radius s' i = radius s i.
Proof.
  intros HL Hs Hp Hf HLip. destruct (@impose_lipschitz_ok L s fuel shrunk HL Hs Hp Hf) as (s' & b & E & O & Hr & Hh & Hl & Hb & _).
  assert (Eq : forall i, (i < count s)%nat -> radius s' i = radius s i).
  { intros i Hi. pose proof (Hr i Hi). pose proof (Hh i (radius s i) Hi (lipschitz_hull HLip Hi)). lra. }
  exists s'. destruct Hb as [(-> & _)|(_ & i & Hi & C)]; auto. rewrite Eq in C by auto. lra.
Qed.
(** The radii need not have slope L over all pairs. *)
Theorem C29_global_refuted : exists s s' b, spheres s /\ positive_radii s
  /\ impose_lipschitz 2 (1/4) s false = Ok (s', b) /\ ~ lipschitz (1/4) s'.
Proof.
  set (s := two_spheres 3 1 (1/100)). assert (Hs : spheres s) by (apply two_spheres_ok; lra).
  assert (Hp : positive_radii s).
  { intros [|[|i]] Hi; [unfold radius, coord; simpl; lra|unfold radius, coord; simpl; lra|cbn in Hi; lia]. }
  destruct (@two_spheres_gap 3 1 (1/100)) as (G1 & G2); [lra|]. fold s in G1, G2.
  destruct (@impose_lipschitz_ok (1/4) s 2 false) as (s' & b & E & O & _ & _ & _ & _ & Hap); auto; [lra|].
  destruct Hap as (_ & Eq).
  { intros i j Hi Hj Nij. change (count s) with 2%nat in *.
    destruct i as [|[|i]]; [| |lia]; destruct j as [|[|j]]; try lia; rewrite ?G1, ?G2; unfold radius, coord; simpl; lra. }
  exists s, s', b. split; auto. split; auto. split; auto. intros H.
  specialize (H 0%nat 1%nat). rewrite (only_radii_count O), (only_radii_gap 0 1 O), !Eq, G1 in H by (cbn; lia).
  specialize (H ltac:(cbn; lia) ltac:(cbn; lia)). revert H. unfold radius, coord. simpl. lra.
Qed.
(** With no sphere the sort is called with an upper bound of SIZE_MAX. *)
Theorem C29_no_spheres_refuted L (s : stree R) fuel b : st_pts s = [] -> impose_lipschitz fuel L s b = UB.
Proof. intros E. unfold impose_lipschitz, st_n. now rewrite E. Qed.
(** Coverage after the pass: with the radii it leaves, "not covered" can be trusted. *)
Theorem C29_coverage_complete L s fuel shrunk s' b x alpha : 0 <= L < 1 -> spheres s -> positive_radii s -> (count s <= fuel)%nat ->
  impose_lipschitz fuel L s shrunk = Ok (s', b) ->
  (3 <= length x)%nat -> point_at_reach s' (vec x) -> point_covered s' x L alpha = Ok false ->
  forall j, (j < count s)%nat -> vdist 3 (vec x) (center s' j) < radius s' j -> ~ covers s' (fraction alpha) j (vec x).
Proof.
  intros HL Hs Hp Hf E Hx Hr Ec j Hj.
  destruct (@impose_lipschitz_ok L s fuel shrunk (proj1 HL) Hs Hp Hf) as (s1 & b1 & E1 & O & _ & _ & Hl & _).
  rewrite E in E1. injection E1 as <- <-.
  apply (@C27_point_complete s' x L alpha); auto; [eapply only_radii_spheres; eauto|].
  rewrite (only_radii_count O). auto.
Qed.

(** ** C30: overlapping spheres *)
Theorem C30_sound s sphere L : spheres s -> (4 <= length sphere)%nat -> point_at_reach s (vec sphere) ->
  exists out, get_overlapping_spheres sphere s L = Ok out /\ NoDup out
    /\ forall j, In j out -> (j < count s)%nat
         /\ vdist 3 (vec sphere) (center s j) < vec sphere 3%nat + radius s j + 1 / 10 ^ 10.
Proof.
  intros Hs Hx Hr. destruct (@get_overlapping_ok s sphere L Hs Hx Hr) as (out & E & ND & H & _). eauto.
Qed.
Theorem C30_complete s sphere L out : spheres s -> (4 <= length sphere)%nat -> point_at_reach s (vec sphere) ->
  0 <= L < 1 -> lipschitz L s -> get_overlapping_spheres sphere s L = Ok out ->
  forall j, (j < count s)%nat -> overlap s (vec sphere) j -> In j out.
Proof.
  intros Hs Hx Hr HL HLip E. destruct (@get_overlapping_ok s sphere L Hs Hx Hr) as (o & E' & _ & _ & H & _).
  rewrite E in E'. injection E' as <-. auto.
Qed.
(** For a sphere of the set the weaker condition that C29 establishes is enough. *)
Theorem C30_complete_member s sphere L out q : spheres s -> (4 <= length sphere)%nat -> point_at_reach s (vec sphere) ->
  0 <= L < 1 -> locally_lipschitz L s ->
  (q < count s)%nat -> (forall d, (d < 4)%nat -> vec sphere d = coord (st_pts s) q d) ->
  get_overlapping_spheres sphere s L = Ok out ->
  forall j, (j < count s)%nat -> overlap s (vec sphere) j -> In j out.
Proof.
  intros Hs Hx Hr HL HLip Hq Eq E. destruct (@get_overlapping_ok s sphere L Hs Hx Hr) as (o & E' & _ & _ & _ & H).
  rewrite E in E'. injection E' as <-. apply H; eauto.
Qed.
Theorem C30_no_spheres (s : stree R) sphere L : st_pts s = [] -> get_overlapping_spheres sphere s L = Ok [].
Proof. intros E. unfold get_overlapping_spheres, st_n. now rewrite E. Qed.
Example C30_hypotheses : let s := two_spheres 1 (1/2) (6/10) in
  spheres s /\ lipschitz (1/4) s /\ point_at_reach s (vec [0; 0; 0; 1/2]) /\ overlap s (vec [0; 0; 0; 1/2]) 1.
Proof.
  intros s. split; [apply two_spheres_ok; lra|]. split; [apply two_spheres_lipschitz; [lra|unfold Rabs; destruct (Rcase_abs _); lra]|].
  assert (D : vdist 3 (vec [0; 0; 0; 1/2]) (center s 1) = 1).
  { rewrite axis_dist by reflexivity. unfold center, coord, vec. simpl. rewrite Rabs_left; lra. }
  split.
  - exists 1%nat. split; [cbn; lia|]. rewrite D. pose proof dbl_max_big. lra.
  - unfold overlap. rewrite D. unfold radius, coord, vec. simpl. lra.
Qed.

(** ** C63: slivers *)
(** The two points offset from the power vertex along the normal lie on the three spheres. *)
Theorem C63_meeting_points up (sp : nat -> nat -> R) i m (pv normal : nat -> R) :
  unit 3 normal -> orthogonal 3 normal (sub pv (sp m)) -> orthogonal 3 normal (sub pv (sp i)) ->
  power 3 pv (sp m) (sp m 3%nat) = power 3 pv (sp i) (sp i 3%nat) ->
  vdist 3 pv (sp i) <= sp i 3%nat -> 0 <= sp m 3%nat ->
  vdist 3 (meeting (sp i) pv normal up) (sp m) = sp m 3%nat.
Proof. apply meeting_on_sphere. Qed.
(** The sphere chosen: among all that half cover a triplet, the one that shrinks least.
    The points of the triplet are strictly outside the shrunk sphere, unless its centre is
    such a point; then the new radius is 0. *)
Theorem C63_least_shrinkage n sp fixed pv normal :
  let up := fun i j k => meeting (sp i) (pv i j k) (normal i j k) true in
  let lo := fun i j k => meeting (sp i) (pv i j k) (normal i j k) false in
  let drop := fun i j k l => sp l 3%nat - 95 / 100 * nearer sp (up i j k) (lo i j k) l in
  (forall i j k l, half_covered n sp fixed up lo i j k l -> drop i j k l < dbl_max) ->
  exists l0 r0 d0, resolve_sliver n sp fixed pv normal = (l0, r0, d0)
    /\ (l0 = n -> forall i j k l, ~ half_covered n sp fixed up lo i j k l)
    /\ (l0 <> n -> exists i j k, half_covered n sp fixed up lo i j k l0
          /\ r0 = 95 / 100 * nearer sp (up i j k) (lo i j k) l0
          /\ 0 <= r0 <= sp l0 3%nat - 1 / 10 ^ 10
          /\ (r0 = 0 \/ (r0 < vdist 3 (sp l0) (up i j k) /\ r0 < vdist 3 (sp l0) (lo i j k)))
          /\ forall i' j' k' l', half_covered n sp fixed up lo i' j' k' l' -> drop i j k l0 <= drop i' j' k' l').
Proof.
  intros up lo drop Hmax. pose proof (@resolve_sliver_ok n sp fixed pv normal) as B.
  destruct (resolve_sliver n sp fixed pv normal) as [[l0 r0] d0]. exists l0, r0, d0. split; auto.
  destruct B as (B1 & B2).
  assert (HC : forall i j k l, half_covered n sp fixed up lo i j k l -> d0 <= drop i j k l).
  { intros i j k l H. pose proof (Hmax i j k l H) as Hm. destruct H as (H1 & H2 & H3 & H4 & H5 & H6 & H7 & H8).
    destruct (B2 i j k l) as [H|H]; auto; [repeat split; auto|]. apply Rlt_not_le in Hm. tauto. }
  split.
  - intros -> i j k l H. destruct B1 as [(_ & ->)|(i' & j' & k' & _ & (C & _) & _)]; [|lia].
    pose proof (HC i j k l H) as H'. pose proof (Hmax i j k l H) as Hm. apply Rlt_not_le in Hm. tauto.
  - intros N. destruct B1 as [(C & _)|(i & j & k & (Hij & Hk & Hl) & Hc & -> & -> & _)]; [tauto|].
    destruct Hc as (_ & H4 & H5 & H6 & H7 & H8).
    assert (Hn : 0 <= nearer sp (up i j k) (lo i j k) l0).
    { unfold nearer. apply Rmin_glb; apply vdist_nonneg. }
    exists i, j, k. split; [repeat split; auto; lia|]. split; [reflexivity|]. split.
    + change (nearer sp (up_pt sp pv normal i j k) (lo_pt sp pv normal i j k) l0) with (nearer sp (up i j k) (lo i j k) l0) in *. lra.
    + split; [|intros i' j' k' l' H'; apply (HC i' j' k' l' H')].
      change (nearer sp (up_pt sp pv normal i j k) (lo_pt sp pv normal i j k) l0) with (nearer sp (up i j k) (lo i j k) l0).
      unfold nearer in *. set (a := vdist 3 (sp l0) (up i j k)) in *. set (b := vdist 3 (sp l0) (lo i j k)) in *.
      assert (0 <= a) by apply vdist_nonneg. assert (0 <= b) by apply vdist_nonneg.
      unfold Rmin. destruct (Rle_dec a b); [destruct (Req_dec a 0)|destruct (Req_dec b 0)]; [left; lra|right; lra|left; lra|right; lra].
Qed.
(** Four spheres of which the last contains a point where the first three meet. *)
Definition sliver_spheres4 (i d : nat) : R :=
  match i, d with
  | 0%nat, 0%nat => 1 | 1%nat, 1%nat => 1 | 2%nat, 2%nat => 1   (* three unit spheres about the axes' ends *)
  | 3%nat, 3%nat => 1/2 | 3%nat, _ => 0                            (* they meet at the origin *)
  | _, 3%nat => 1 | _, _ => 0
  end.
Example C63_hypotheses :
  let third := fun _ : nat => 1/3 in
  let up := fun i j k : nat => meeting (sliver_spheres4 i) third (fun _ => 1 / sqrt 3) true in
  let lo := fun i j k : nat => meeting (sliver_spheres4 i) third (fun _ => 1 / sqrt 3) false in
  half_covered 4 sliver_spheres4 (fun _ => false) up lo 0 1 2 3.
Proof.
  intros third up lo. repeat split; try lia.
  assert (S3 : sqrt 3 * sqrt 3 = 3) by (apply sqrt_sqrt; lra).
  assert (P3 : 0 < sqrt 3) by (apply sqrt_lt_R0; lra).
  assert (Hlo : forall d, (d < 3)%nat -> lo 0%nat 1%nat 2%nat d = 0).
  { intros d Hd. unfold lo, meeting. rewrite distance_R. change nsqrt with sqrt. change nmul with Rmult. change nsub with Rminus.
    assert (V : vdist 3 third (sliver_spheres4 0) * vdist 3 third (sliver_spheres4 0) = 6/9).
    { rewrite vdist_sq, dot3. unfold third, sliver_spheres4. lra. }
    rewrite V. change (sliver_spheres4 0 3) with 1.
    replace (1 * 1 - 6/9) with (Rsqr (sqrt 3 / 3)).
    2:{ unfold Rsqr. replace (sqrt 3 / 3 * (sqrt 3 / 3)) with (sqrt 3 * sqrt 3 / 9) by field. rewrite S3. field. }
    rewrite sqrt_Rsqr by (apply Rmult_le_pos; lra). unfold third. field. lra. }
  unfold nearer. eapply Rle_trans; [apply Rmin_r|].
  rewrite (@vdist_ext 3 (sliver_spheres4 3) (fun _ => 0) (lo 0%nat 1%nat 2%nat) (fun _ => 0)).
  - rewrite vdist_self. unfold sliver_spheres4. assert (1 / 10 ^ 10 < 1/2) by lra. lra.
  - intros d Hd. destruct d as [|[|[|d]]]; reflexivity || lia.
  - auto.
Qed.

Print Assumptions C27_one_sphere.
Print Assumptions C27_no_spheres.
Print Assumptions C27_point_sound.
Print Assumptions C27_point_complete.
Print Assumptions C27_edge_sound.
Print Assumptions C27_edge_complete.
Print Assumptions C27_face_sound.
Print Assumptions C27_face_complete.
Print Assumptions C27_any_radii_refuted.
Print Assumptions C28_brute_force.
Print Assumptions C28_brute_force_positive.
Print Assumptions C28_brute_force_idempotent.
Print Assumptions C29_tree.
Print Assumptions C29_tree_idempotent.
Print Assumptions C29_global_refuted.
Print Assumptions C29_no_spheres_refuted.
Print Assumptions C29_coverage_complete.
Print Assumptions C30_sound.
Print Assumptions C30_complete.
Print Assumptions C30_complete_member.
Print Assumptions C30_no_spheres.
Print Assumptions C63_meeting_points.
Print Assumptions C63_least_shrinkage.
