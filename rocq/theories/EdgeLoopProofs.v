(** Proofs about generate_edge_spheres. *)
From Coq Require Import Reals Lra.
From Verif Require Import Base Num Vec KdTree SmartTree KdSpec SmartTreeSpec SmartQueryProofs SmartTreeProofs TreeGrow DenseQR Geometry GeometrySpec GeometryProofs
  Spheres SpheresSpec SpheresProofs SpheresOverlapProofs Sampling SamplingProofs ActivePool ActivePoolSpec ActivePoolProofs ActivePoolThreadProofs ActivePoolEdgeProofs ActivePoolStartProofs ActivePoolRunSpec ActivePoolRunProofs ActivePoolCoverProofs PropsActivePool
  SamplePool SamplePoolSpec SamplePoolProofs SeedPairsSpec PolyMesh PropsSpheres
  SurfaceLoop SurfaceShrinkProofs CornerSpec CornerProofs EdgeLoop EdgeLoopSpec.
Local Open Scope R_scope.

Lemma ehistory_first points edges Lip ratio p0 sc p1 scs p :
  refine_pool_edges points edges (edges_of sc) (corners_of sc) Lip ratio p0 = Ok p1 ->
  ehistory points edges Lip ratio p1 scs p -> ehistory points edges Lip ratio p0 (sc :: scs) p.
Proof.
  intros E Hh. induction Hh as [|scs sc' p p' Hh IH E'].
  - change [sc] with ([] ++ [sc]). eapply ehistory_refine; eauto. constructor.
  - change (sc :: scs ++ [sc']) with ((sc :: scs) ++ [sc']). eapply ehistory_refine; eauto.
Qed.

(** Changing radii keeps a tree that was filled by add_tree_point. *)
Lemma grown_only_radii s s' l : grown 3 s l -> (forall p, In p (st_pts s) -> length p = 4%nat) -> only_radii s s' -> exists l', grown 3 s' l'.
Proof.
  intros Hg H4 O. pose proof O as (A1 & A2 & A3 & A4 & A5 & A6 & A7 & A8 & A9 & A10 & A11 & A12).
  pose proof Hg as (G1 & G2 & G3 & [(-> & Ep)|(Hl & [I1 I2 I3 I4 I5])]).
  - exists []. split; [congruence|]. split; [congruence|]. split; [congruence|]. left. split; auto.
    unfold count in A10. rewrite Ep in A10. destruct (st_pts s'); [auto|discriminate].
  - assert (Hsp : spheres s).
    { split; [eapply (@grown_ready 3 s l); eauto; lia|]. split; auto. intros p Hp. rewrite (H4 p Hp). lia. }
    pose proof (only_radii_spheres O Hsp) as Hsp'.
    set (l' := map (fun xi : list R * item => It (fst xi) (it_n (snd xi)) (it_a (snd xi))) (combine (st_pts s') l)).
    assert (Ll : length l = length (st_pts s')) by (unfold count in A10; rewrite A10, (grown_pts Hg), map_length; auto).
    assert (E1 : map it_x l' = st_pts s').
    { unfold l'. rewrite map_map. cbn [it_x]. clear -Ll. revert l Ll. induction (st_pts s') as [|x t IH]; intros [|i l] Ll; cbn in *; auto; try discriminate.
      rewrite IH; auto. }
    assert (E2 : map it_n l' = map it_n l).
    { unfold l'. rewrite map_map. cbn [it_n]. clear -Ll. revert l Ll. induction (st_pts s') as [|x t IH]; intros [|i l] Ll; cbn in *; auto; try discriminate.
      rewrite IH; auto. }
    assert (E3 : map it_a l' = map it_a l).
    { unfold l'. rewrite map_map. cbn [it_a]. clear -Ll. revert l Ll. induction (st_pts s') as [|x t IH]; intros [|i l] Ll; cbn in *; auto; try discriminate.
      rewrite IH; auto. }
    assert (Hnl' : l' <> []) by (intros C; rewrite C in E3; destruct l; [congruence|discriminate]).
    exists l'. split; [congruence|]. split; [congruence|]. split; [congruence|]. right. split; auto.
    destruct I2 as (J1 & J2 & J3). constructor.
    + congruence.
    + split; [auto|]. rewrite E2, E3, A3, A4. auto.
    + intros p Hp. destruct Hsp' as (_ & _ & H5). specialize (H5 p Hp). lia.
    + rewrite A2. unfold count in A10. rewrite A10. auto.
    + destruct Hsp' as ((_ & _ & _ & V) & _). exact V.
Qed.

(** A loop whose flag, once set, stays set, and whose state changes only when the flag is set. *)
Definition quiet {A St} (f : A -> St * bool -> res (St * bool)) : Prop :=
  forall x s b s', f x (s, b) = Ok (s', false) -> s' = s /\ b = false.
Lemma fold_quiet {A St} (f : A -> St * bool -> res (St * bool)) : quiet f -> forall l s b s', fold_res f l (s, b) = Ok (s', false) ->
  s' = s /\ b = false /\ forall x, In x l -> f x (s, false) = Ok (s, false).
Proof.
  intros Q. induction l as [|x l IH]; intros s b s' E; cbn [fold_res] in E.
  - injection E as <- <-. split; auto. split; auto. intros x [].
  - apply bind_Ok_inv in E. destruct E as ((s1, b1) & E1 & E). destruct (IH _ _ _ E) as (-> & -> & H). destruct (Q _ _ _ _ E1) as (-> & ->).
    split; auto. split; auto. intros y [<-|Hy]; auto.
Qed.
Lemma for_quiet {St} (f : nat -> St * bool -> res (St * bool)) : quiet f -> forall n lo s b s', for_res n lo f (s, b) = Ok (s', false) ->
  s' = s /\ b = false /\ forall k, (lo <= k < lo + n)%nat -> f k (s, false) = Ok (s, false).
Proof.
  intros Q. induction n as [|n IH]; intros lo s b s' E; cbn [for_res] in E.
  - injection E as <- <-. split; auto. split; auto. intros k Hk. lia.
  - apply bind_Ok_inv in E. destruct E as ((s1, b1) & E1 & E). destruct (IH _ _ _ _ E) as (-> & -> & H). destruct (Q _ _ _ _ E1) as (-> & ->).
    split; auto. split; auto. intros k Hk. destruct (Nat.eq_dec k lo) as [->|N]; auto. apply H. lia.
Qed.

Lemma smooth_from_ext s nrm x y tol thr j : st_nd s = 3%nat -> (forall d, (d < 3)%nat -> vec x d = vec y d) -> smooth_from s nrm x tol thr j -> smooth_from s nrm y tol thr j.
Proof.
  intros E H. unfold smooth_from, sine, cosine. rewrite E.
  assert (O : forall k, (k < 3)%nat -> offset s x j k = offset s y j k) by (intros k Hk; unfold offset; rewrite H; auto).
  unfold norm. rewrite (@dot_ext 3 (offset s x j) (offset s y j) (offset s x j) (offset s y j)), (@dot_ext 3 (offset s x j) (offset s y j) (normal_at nrm j) (normal_at nrm j)); auto.
Qed.
Lemma smooth_edge_ext s nrm x y tol thr j : st_nd s = 3%nat -> (forall d, (d < 3)%nat -> vec x d = vec y d) -> smooth_edge s nrm x tol thr j -> smooth_edge s nrm y tol thr j.
Proof.
  intros E H. unfold smooth_edge, cosine. rewrite E.
  assert (O : forall k, (k < 3)%nat -> offset s x j k = offset s y j k) by (intros k Hk; unfold offset; rewrite H; auto).
  unfold norm. rewrite (@dot_ext 3 (offset s x j) (offset s y j) (offset s x j) (offset s y j)), (@dot_ext 3 (offset s x j) (offset s y j) (normal_at nrm j) (normal_at nrm j)); auto.
Qed.
Lemma in_seg_ext s (x y : nat -> R) : (forall d, (d < 3)%nat -> x d = y d) -> in_seg s x -> in_seg s y.
Proof. intros H (u & Hu & Hx). exists u. split; auto. intros d Hd. rewrite <- H; auto. Qed.
Lemma least_eq a : least_of (fun v => v = a) a.
Proof. split; [auto|intros v ->; lra]. Qed.
Lemma firstn3_ext (a b : list R) : length a = length b -> (forall d, (d < 3)%nat -> vec a d = vec b d) -> firstn 3 a = firstn 3 b.
Proof.
  intros L H. apply (nth_ext _ _ 0 0); [rewrite !firstn_length; lia|]. intros d Hd. rewrite firstn_length in Hd.
  rewrite <- (firstn_skipn 3 a) in H. rewrite <- (firstn_skipn 3 b) in H. specialize (H d ltac:(lia)). unfold vec in H.
  rewrite !app_nth1 in H by (rewrite firstn_length; lia). exact H.
Qed.

Section Loop.
  Variables (need : nat -> nat -> bool) (u : nat -> R) (w : esetting R).
  Hypothesis Hw : good_edge_setting w.
  Hypothesis Hu : forall j, 0 <= u j < 1.
  Let points := d_points w.
  Let edges := d_edges w.
  Let cs := d_cs w.
  Let onE := on_edges points edges.

  Let Hpts : good_points points. Proof. apply Hw. Qed.
  Let Hedges : good_edges points edges. Proof. apply Hw. Qed.
  Let Ucs : ActivePoolSpec.usable onE cs. Proof. apply Hw. Qed.
  Let Htol : 0 <= d_tol w. Proof. apply Hw. Qed.
  Let Hthr : d_thr w < 1. Proof. apply Hw. Qed.
  Let Hrmax : 0 < d_rmax w <= 2 / 5 * dbl_max. Proof. apply Hw. Qed.
  Let Hrme : 0 <= d_rme w <= d_rmax w. Proof. apply Hw. Qed.
  Let HL : 0 <= d_Lip w < 1. Proof. apply Hw. Qed.
  Let Hratio : -1 < d_ratio w < 1. Proof. apply Hw. Qed.
  Let Hdiam : forall p q, onE p -> onE q -> vdist 3 p q < dbl_max. Proof. apply Hw. Qed.

  (** ** The dart *)
  Lemma sample_edge_ok p k x e : ereached points edges p -> sample_edge u w p k = Ok (x, e) ->
    length x = 3%nat /\ (e < length edges)%nat /\ in_seg (edge_seg points edges e) (vec x).
  Proof.
    intros Hr E. unfold sample_edge in E. apply bind_Ok_inv in E. destruct E as (i & _ & E). apply bind_Ok_inv in E. destruct E as (e' & Ee & E).
    apply bind_Ok_inv in E. destruct E as (((a, b), m) & Ec & E). injection E as <- <-. split; [reflexivity|].
    destruct (ereached_denotes Hpts Hedges Hr) as (els & D). apply get_Ok in Ee.
    pose proof D as (D1 & D2 & D3 & D4). rewrite D1 in Ee. destruct (nth_error els i) as [el|] eqn:El.
    2:{ apply nth_error_None in El. assert (C : nth_error (map fst els) i = None) by (apply nth_error_None; rewrite map_length; exact El). congruence. }
    rewrite (map_nth_error fst _ _ El) in Ee.
    injection Ee as <-. destruct (D4 i el El) as (Hlt & _). split; auto.
    fold points edges in Ec. rewrite (@edge_corners_ok _ _ points edges Hpts Hedges p els i el) in Ec by auto. injection Ec as Ec.
    destruct el as (f, q). cbn [fst] in *. apply (@epath_in_edge points edges q f). rewrite Ec. cbn [ends].
    exists (u (k + 1)). split; [specialize (Hu (k + 1)); lra|]. intros d Hd.
    destruct d as [|[|[|d]]]; [reflexivity|reflexivity|reflexivity|lia].
  Qed.

  (** ** The radius *)
  Lemma edge_radius_ok es num x : spheres es \/ st_pts es = [] -> (4 <= length x)%nat -> onE (vec x) -> (forall j, (j < count es)%nat -> point_at_reach es (vec x)) ->
    exists near m r, edge_radius w es num x = Ok r
      /\ ((num <= 1)%nat -> near = []) /\ ((1 < num)%nat -> overlapping es (d_Lip w) (vec x) (vec x 3%nat) near)
      /\ least_of (edge_limits w es near x) m
      /\ r <= Rmax m (d_rme w)
      /\ (d_input w = None -> r = Rmax m (d_rme w))
      /\ (forall t, d_input w = Some t -> exists c, closest_size t (vec x) c /\ r = Rmin (Rmax m (d_rme w)) (radius t c)).
  Proof.
    intros Hes Hx Hon Hreach. destruct Hw as (_ & _ & (Rc & Ec & Nc & Lc & Vc) & (Re & Ee & Ne & Le & Ve) & (Rk & Ek & Nk & Lk & Vk) & _ & Hi & _).
    unfold edge_radius.
    destruct (@closest_nonsmooth_ok _ Rc _ Nc Lc) with (x := x) (tol := d_tol w) (thr := d_thr w) (d0 := @dbl_max R _) as (b1 & -> & N1);
      [intros v Hin; rewrite Ec; auto|rewrite Ec; lia|left; apply dbl_max_pos|]. cbn [bind].
    destruct (@closest_nonsmooth_edge_ok _ Re _ Ne Le) with (x := x) (tol := d_tol w) (thr := d_thr w) (d0 := @dbl_max R _) as (b2 & -> & N2);
      [intros v Hin; rewrite Ee; auto|rewrite Ee; lia|left; apply dbl_max_pos|]. cbn [bind].
    destruct (@closest_nonsmooth_edge_ok _ Rk _ Nk Lk) with (x := x) (tol := d_tol w) (thr := d_thr w) (d0 := @dbl_max R _) as (b3 & -> & N3);
      [intros v Hin; rewrite Ek; auto|rewrite Ek; lia|left; apply dbl_max_pos|]. cbn [bind].
    rewrite nlit4, !nmin_R. cbn [nltb nmul RNum].
    set (a := 2 / 5 * snd b1). set (b := 2 / 5 * snd b2). set (c := 2 / 5 * snd b3).
    pose proof (@least_nearest _ _ _ _ _ _ _ (least_eq (d_rmax w)) (proj2 Hrmax) N1) as L1. fold a in L1.
    assert (M1 : Rmin (d_rmax w) a <= 2 / 5 * dbl_max) by (apply Rmin_bound, Hrmax).
    pose proof (@least_nearest _ _ _ _ _ _ _ L1 M1 N2) as L2. fold b in L2.
    assert (M2 : Rmin (Rmin (d_rmax w) a) b <= 2 / 5 * dbl_max) by (apply Rmin_bound; auto).
    pose proof (@least_nearest _ _ _ _ _ _ _ L2 M2 N3) as L3. fold c in L3.
    set (m0 := Rmin (Rmin (Rmin (d_rmax w) a) b) c) in *.
    assert (Hnear : exists near sz, (if Nat.ltb 1 num then l <- get_overlapping_spheres x es (d_Lip w) ;; limit_all (d_Lip w) (nsqrt (nsub n1 (Rmult (d_ratio w) (d_ratio w)))) es x l (Rmin b c) else Ok (Rmin b c)) = Ok sz
      /\ ((num <= 1)%nat -> near = []) /\ ((1 < num)%nat -> overlapping es (d_Lip w) (vec x) (vec x 3%nat) near)
      /\ least_of (fun v => v = Rmin b c \/ exists j, In j near /\ (v = vdist 3 (vec x) (center es j) / sqrt (1 - d_ratio w * d_ratio w)
                              \/ v = radius es j + d_Lip w * vdist 3 (vec x) (center es j))) sz).
    { assert (Nil : least_of (fun v => v = Rmin b c \/ exists j, In j (@nil nat) /\ (v = vdist 3 (vec x) (center es j) / sqrt (1 - d_ratio w * d_ratio w)
                              \/ v = radius es j + d_Lip w * vdist 3 (vec x) (center es j))) (Rmin b c)).
      { eapply least_iff; [|apply (least_eq (Rmin b c))]. intros v. split; auto. intros [H|(j & [] & _)]; auto. }
      destruct (Nat.ltb 1 num) eqn:En; [apply Nat.ltb_lt in En|apply Nat.ltb_ge in En].
      - destruct (st_pts es) as [|r0 t0] eqn:Ep.
        + unfold get_overlapping_spheres, st_n. rewrite Ep. cbn [length Nat.eqb bind limit_all]. exists [], (Rmin b c). split; auto. split; auto. split; auto.
          intros _. split; [intros j []|]. intros _ _ j Hj. unfold count in Hj. rewrite Ep in Hj. cbn in Hj. lia.
        + destruct Hes as [Hsp|C]; [|discriminate].
          destruct (@get_overlapping_ok es x (d_Lip w) Hsp) as (near & -> & _ & H1 & H2 & _); [lia|apply (Hreach 0%nat); unfold count; rewrite Ep; cbn; lia|]. cbn [bind].
          edestruct (@limit_all_ok (d_Lip w) (nsqrt (nsub n1 (Rmult (d_ratio w) (d_ratio w)))) es x near Hsp) as (m & Em & Hm); [intros j Hj; apply H1; auto|apply (least_eq (Rmin b c))|].
          exists near, m. split; [exact Em|]. split; [lia|]. split; [|exact Hm]. intros _. split; auto.
      - exists [], (Rmin b c). split; auto. split; auto. split; [lia|auto]. }
    destruct Hnear as (near & sz & -> & P1 & P2 & Ls). cbn [bind]. rewrite nmin_R.
    set (m := Rmin (d_rmax w) (Rmin a sz)).
    assert (Em : (if Rltb (d_rmax w) (Rmin a sz) then d_rmax w else Rmin a sz) = m).
    { unfold m, Rmin at 3. destruct (Rltb (d_rmax w) (Rmin a sz)) eqn:E; [apply Rltb_true in E|apply Rltb_false in E]; destruct (Rle_dec _ _); auto; lra. }
    rewrite Em. clear Em.
    assert (Er : (if Rltb m (d_rme w) then d_rme w else m) = Rmax m (d_rme w)).
    { unfold Rmax. destruct (Rltb m (d_rme w)) eqn:E; [apply Rltb_true in E|apply Rltb_false in E]; destruct (Rle_dec _ _); auto; lra. }
    rewrite Er. clear Er.
    assert (Lm : least_of (edge_limits w es near x) m).
    { assert (Q : forall v, ((v = d_rmax w \/ (exists j, In j (all_points (d_cloud w)) /\ ~ smooth_from (d_cloud w) (normals_of (d_cloud w)) x (d_tol w) (d_thr w) j /\ v = 2 / 5 * dist_to (d_cloud w) x j))
           \/ (exists j, In j (all_points (d_ecloud w)) /\ ~ smooth_edge (d_ecloud w) (normals_of (d_ecloud w)) x (d_tol w) (d_thr w) j /\ v = 2 / 5 * dist_to (d_ecloud w) x j))
           \/ (exists j, In j (all_points (d_cs w)) /\ ~ smooth_edge (d_cs w) (normals_of (d_cs w)) x (d_tol w) (d_thr w) j /\ v = 2 / 5 * dist_to (d_cs w) x j)
         <-> edge_limits w es [] x v).
      { intros v. unfold edge_limits.
        assert (K : forall s (P : nat -> Prop), st_nd s = 3%nat -> ((exists j, In j (all_points s) /\ P j /\ v = 2 / 5 * dist_to s x j) <-> exists j, (j < count s)%nat /\ P j /\ v = 2 / 5 * vdist 3 (vec x) (center s j))).
        { intros s P Es. split; intros (j & Hj & H1 & H2); exists j; rewrite cloud_dist in * by auto; (split; [|auto]).
          - apply in_seq in Hj. unfold count. lia.
          - apply in_seq. unfold count in Hj. lia. }
        rewrite !K by auto. split; [tauto|]. intros [H|[H|[H|[H|(j & [] & _)]]]]; auto. }
      pose proof (least_iff _ Q L3) as L4. clear L3 Q.
      assert (Inc : forall v, edge_limits w es [] x v -> edge_limits w es near x v).
      { unfold edge_limits. intros v [H|[H|[H|[H|(j & [] & _)]]]]; auto. }
      destruct L4 as (L4 & L5). destruct Ls as (Ls1 & Ls2).
      assert (B : sz <= Rmin b c) by (apply Ls2; auto). pose proof (Rmin_l b c) as B1. pose proof (Rmin_r b c) as B2.
      assert (Emm : m = Rmin m0 sz).
      { unfold m, m0. clear -B B1 B2. apply Rle_antisym; repeat apply Rmin_glb; try (pose proof (Rmin_l (d_rmax w) (Rmin a sz)); pose proof (Rmin_r (d_rmax w) (Rmin a sz)); pose proof (Rmin_l a sz); pose proof (Rmin_r a sz); lra).
        - eapply Rle_trans; [apply Rmin_l|]. eapply Rle_trans; [apply Rmin_l|]. eapply Rle_trans; [apply Rmin_l|]. apply Rmin_l.
        - eapply Rle_trans; [apply Rmin_l|]. eapply Rle_trans; [apply Rmin_l|]. eapply Rle_trans; [apply Rmin_l|]. apply Rmin_r.
        - apply Rmin_r. }
      rewrite Emm. split.
      - unfold Rmin. destruct (Rle_dec m0 sz) as [Hle|Hle]; [apply Inc; auto|].
        destruct Ls1 as [->|H]; [|unfold edge_limits; auto]. exfalso. apply Hle. unfold m0.
        apply Rmin_glb; [eapply Rle_trans; [apply Rmin_l|apply Rmin_r]|apply Rmin_r].
      - intros v Hv. pose proof (Rmin_l m0 sz) as Z1. pose proof (Rmin_r m0 sz) as Z2. unfold edge_limits in Hv.
        destruct Hv as [H|[H|[H|[H|H]]]].
        + specialize (L5 v (or_introl H)). lra.
        + specialize (L5 v (or_intror (or_introl H))). lra.
        + specialize (L5 v (or_intror (or_intror (or_introl H)))). lra.
        + specialize (L5 v (or_intror (or_intror (or_intror (or_introl H))))). lra.
        + specialize (Ls2 v (or_intror H)). lra. }
    assert (Hin : forall t, d_input w = Some t -> spheres t /\ point_at_reach t (vec x)).
    { intros t E. destruct (Hi t E) as (H1 & _ & H2). split; auto. exact (H2 _ Hon). }
    destruct (@input_limit_ok (d_input w) x (Rmax m (d_rme w)) _ Hin ltac:(lia) (least_eq _)) as (r & ci & -> & Hle & Hci & (R1 & R2)).
    exists near, m, r. split; auto. split; auto. split; auto. split; auto. split; auto. split.
    - intros En. destruct R1 as [->|(t & E & _)]; [auto|congruence].
    - intros t E. exists ci. split; [apply (Hci t E)|]. apply Rle_antisym.
      + apply Rmin_glb; auto. apply R2. eauto.
      + destruct R1 as [->|(t' & E' & ->)]; [apply Rmin_l|]. rewrite E in E'. injection E' as <-. apply Rmin_r.
  Qed.

  (** ** The spheres at any moment *)
  Record stock (s : stree R) : Prop := {
    k_grown : exists l, grown 3 s l;
    k_row : forall i, (i < count s)%nat -> length (nth i (st_pts s) []) = 4%nat;
    k_rad : forall i, (i < count s)%nat -> 0 < radius s i <= d_rmax w /\ allowed w (centre_of s i) (radius s i);
    k_on : forall i, (i < count s)%nat -> exists e, on_edge w s i e;
    k_gap : forall i j, (i < j < count s)%nat -> 0 < gap s i j
  }.
  Lemma stock_new : stock (st_new 3).
  Proof.
    constructor; try (intros i Hi; cbn in Hi; lia).
    - exists []. apply grown_new.
    - intros i j Hij. cbn in Hij. lia.
  Qed.
  Lemma stock_rows s p : stock s -> In p (st_pts s) -> length p = 4%nat.
  Proof. intros Hs Hp. destruct (In_nth _ _ [] Hp) as (i & Hi & <-). apply (k_row Hs); auto. Qed.
  Lemma stock_spheres s : stock s -> st_pts s <> [] -> spheres s.
  Proof.
    intros Hs Hne. pose proof (fun p => @stock_rows s p Hs) as Hr. destruct (k_grown Hs) as (l & Hg).
    split; [|split; [apply Hg|intros p Hp; rewrite (Hr p Hp); lia]]. apply (@grown_ready 3 s l); auto.
    intros ->. apply Hne. exact (grown_pts Hg).
  Qed.
  Lemma stock_usable s : stock s -> ActivePoolSpec.usable onE s.
  Proof.
    intros Hs. destruct (st_pts s) as [|x t] eqn:E; [left; auto|right]. split; [apply stock_spheres; [auto|congruence]|].
    intros p Hp. exists 0%nat. assert (H0 : (0 < count s)%nat) by (unfold count; rewrite E; cbn; lia). split; auto.
    destruct (k_on Hs H0) as (e & _ & He & Hin). apply Hdiam; auto. exists e. auto.
  Qed.
  Lemma stock_positive s : stock s -> positive_radii s.
  Proof. intros Hs i Hi. apply (k_rad Hs); auto. Qed.
  Lemma centre_only_radii s s' i : only_radii s s' -> centre_of s' i = centre_of s i.
  Proof.
    intros (_ & _ & _ & _ & _ & _ & _ & _ & _ & _ & A11 & A12). unfold centre_of. apply firstn3_ext; auto.
    intros d Hd. apply A12. lia.
  Qed.
  Lemma allowed_le x r r' : allowed w x r -> r' <= r -> allowed w x r'.
  Proof.
    intros (A & B & C & D) Hr. split; [|split; [|split]].
    - intros j Hj Hs. specialize (A j Hj Hs). lra.
    - intros j Hj Hs. specialize (B j Hj Hs). lra.
    - intros j Hj Hs. specialize (C j Hj Hs). lra.
    - intros t E. destruct (D t E) as (c & Hc & Hle). exists c. split; auto. lra.
  Qed.
  Definition lessened (s s' : stree R) : Prop := only_radii s s' /\ forall i, (i < count s)%nat -> 0 < radius s' i <= radius s i.
  Lemma lessened_refl s : positive_radii s -> lessened s s.
  Proof. intros H. split; [apply only_radii_refl|]. intros i Hi. specialize (H i Hi). lra. Qed.
  Lemma lessened_trans a b c : lessened a b -> lessened b c -> lessened a c.
  Proof.
    intros (O1 & H1) (O2 & H2). split; [eapply only_radii_trans; eauto|]. intros i Hi. specialize (H1 i Hi).
    rewrite <- (only_radii_count O1) in Hi. specialize (H2 i Hi). lra.
  Qed.
  Lemma stock_lessened s s' : stock s -> lessened s s' -> stock s'.
  Proof.
    intros Hs (O & Hr). pose proof (only_radii_count O) as Cn. constructor; rewrite ?Cn.
    - destruct (k_grown Hs) as (l & Hg). eapply grown_only_radii; eauto. intros p Hp. eapply stock_rows; eauto.
    - intros i Hi. destruct O as (_ & _ & _ & _ & _ & _ & _ & _ & _ & _ & A11 & _). rewrite A11. apply (k_row Hs); auto.
    - intros i Hi. destruct (k_rad Hs Hi) as (A & B). specialize (Hr i Hi). split; [lra|]. rewrite (centre_only_radii i O). eapply allowed_le; eauto. lra.
    - intros i Hi. destruct (k_on Hs Hi) as (e & A & B & C). exists e. split; [|split; auto].
      + unfold record in *. destruct O as (_ & _ & _ & -> & _). exact A.
      + eapply in_seg_ext; [|exact C]. intros d Hd. symmetry. apply O. lia.
    - intros i j Hij. rewrite (only_radii_gap i j O). apply (k_gap Hs). auto.
  Qed.

  Lemma stock_add s x e r old num s' : stock s -> length x = 3%nat -> (e < length edges)%nat -> in_seg (edge_seg points edges e) (vec x) ->
    point_covered s (x ++ [old]) (d_Lip w) (d_ratio w) = Ok false ->
    edge_radius w s num (x ++ [old]) = Ok r -> add_point need s (x ++ [r]) None (Some [2; e]%nat) = Ok s' ->
    stock s' /\ grows s s' /\ count s' = S (count s).
  Proof.
    intros Hs Lx He Hx Ec Er Ea.
    assert (Vx : forall a d, (d < 3)%nat -> vec (x ++ [a]) d = vec x d) by (intros a d Hd; unfold vec; rewrite app_nth1; auto; lia).
    assert (On : onE (vec (x ++ [old]))).
    { exists e. split; auto. eapply in_seg_ext; [|exact Hx]. intros d Hd. symmetry. auto. }
    pose proof (stock_usable Hs) as Us.
    destruct (@point_covered_any s (x ++ [old]) (d_Lip w) (d_ratio w) onE Us On) as (b & Eb & _ & _ & Hfar); [rewrite app_length; cbn; lia|].
    rewrite Ec in Eb. injection Eb as <-. specialize (Hfar eq_refl HL (stock_positive Hs)).
    assert (Hfar' : forall a j, (j < count s)%nat -> 0 < vdist 3 (center s j) (vec (x ++ [a]))).
    { intros a j Hj. rewrite vdist_sym. rewrite (@vdist_ext 3 _ (vec (x ++ [old])) _ (center s j)); auto. intros d Hd. rewrite !Vx; auto. }
    destruct (@edge_radius_ok s num (x ++ [old])) as (near & m & r0 & Er' & Hn1 & Hn2 & (Lm1 & Lm2) & Rle & RN & RS); auto.
    { destruct Us as [U|(U & _)]; auto. }
    { rewrite app_length. cbn. lia. }
    { intros j Hj. destruct Us as [U|(U & H)]; [unfold count in Hj; rewrite U in Hj; cbn in Hj; lia|]. apply H; auto. }
    rewrite Er in Er'. injection Er' as <-.
    assert (Hnear : forall j, In j near -> (j < count s)%nat).
    { intros j Hj. destruct (Nat.le_gt_cases num 1) as [Hle|Hlt]; [rewrite (Hn1 Hle) in Hj; destruct Hj|]. apply (Hn2 Hlt); auto. }
    destruct Hw as (_ & _ & (_ & Ecl & _) & (_ & Eec & _) & (_ & Ekc & _) & _ & Hi & _).
    assert (Mpos : 0 < m).
    { destruct Lm1 as [->|[(j & Hj & Hs' & ->)|[(j & Hj & Hs' & ->)|[(j & Hj & Hs' & ->)|(j & Hj & [->| ->])]]]].
      - lra.
      - unfold smooth_from in Hs'. rewrite (@far_from (d_cloud w) _ j Ecl) in Hs'. destruct (Rle_lt_dec (vdist 3 (vec (x ++ [old])) (center (d_cloud w) j)) (d_tol w)); [tauto|lra].
      - unfold smooth_edge in Hs'. rewrite (@far_from (d_ecloud w) _ j Eec) in Hs'. destruct (Rle_lt_dec (vdist 3 (vec (x ++ [old])) (center (d_ecloud w) j)) (d_tol w)); [tauto|lra].
      - unfold smooth_edge in Hs'. rewrite (@far_from (d_cs w) _ j Ekc) in Hs'. destruct (Rle_lt_dec (vdist 3 (vec (x ++ [old])) (center (d_cs w) j)) (d_tol w)); [tauto|lra].
      - apply Rdiv_lt_0_compat; [apply Hfar; auto|]. apply sqrt_lt_R0. nra.
      - pose proof (stock_positive Hs (Hnear j Hj)). pose proof (vdist_nonneg 3 (vec (x ++ [old])) (center s j)). nra. }
    assert (Mmax : m <= d_rmax w) by (apply Lm2; left; reflexivity).
    assert (Rb : 0 < Rmax m (d_rme w) <= d_rmax w) by (unfold Rmax; destruct (Rle_dec m (d_rme w)); lra).
    assert (Rpos : 0 < r <= d_rmax w).
    { split; [|lra]. destruct (d_input w) as [t|] eqn:Ei; [|rewrite RN; auto; lra].
      destruct (RS t eq_refl) as (c & (Hc & _) & ->). apply Rmin_pos; [lra|]. destruct (Hi t eq_refl) as (_ & P & _). apply P; auto. }
    destruct (k_grown Hs) as (l & Hg).
    destruct (@grown_add 3 need s l (x ++ [r]) None (Some [2; e]%nat)) as (s1 & E1 & G1); auto.
    { split; [rewrite app_length; lia|]. split; [discriminate|]. intros a [= <-]. split; [discriminate|]. cbn. lia. }
    rewrite Ea in E1. injection E1 as <-.
    assert (Ep : st_pts s' = st_pts s ++ [x ++ [r]]) by (rewrite (grown_pts G1), (grown_pts Hg), map_app; reflexivity).
    assert (Cn : count s' = S (count s)) by (unfold count; rewrite Ep, app_length; cbn; lia).
    assert (Old : forall i, (i < count s)%nat -> nth i (st_pts s') [] = nth i (st_pts s) []) by (intros i Hii; rewrite Ep; apply app_nth1; exact Hii).
    assert (New : nth (count s) (st_pts s') [] = x ++ [r]) by (rewrite Ep, app_nth2 by (unfold count; lia); unfold count; rewrite Nat.sub_diag; reflexivity).
    assert (Rec : forall i, (i < count s)%nat -> record s' i = record s i).
    { intros i Hii. unfold record. rewrite (grown_att G1) by (destruct l; discriminate). unfold count in Hii. rewrite (grown_pts Hg), map_length in Hii.
      rewrite map_app, app_nth1 by (rewrite map_length; auto). rewrite (grown_att Hg) by (destruct l; [cbn in Hii; lia|discriminate]). reflexivity. }
    assert (RecN : record s' (count s) = Some [2; e]%nat).
    { unfold record. rewrite (grown_att G1) by (destruct l; discriminate). unfold count. rewrite (grown_pts Hg), map_length, map_app, app_nth2 by (rewrite map_length; lia).
      rewrite map_length, Nat.sub_diag. reflexivity. }
    split; [|split; [exists [x ++ [r]]; exact Ep|exact Cn]].
    constructor; rewrite ?Cn.
    - eexists. exact G1.
    - intros i Hii. destruct (Nat.eq_dec i (count s)) as [->|N]; [rewrite New, app_length; cbn; lia|]. rewrite Old by lia. apply (k_row Hs); lia.
    - intros i Hii. unfold radius, coord, centre_of. destruct (Nat.eq_dec i (count s)) as [->|N].
      + rewrite New. rewrite app_nth2, Lx by lia. cbn [nth Nat.sub]. split; [exact Rpos|].
        rewrite <- Lx at 1. rewrite firstn_app, firstn_all, Nat.sub_diag. cbn [firstn]. rewrite app_nil_r.
        assert (Dx : forall y, vdist 3 (vec x) y = vdist 3 (vec (x ++ [old])) y) by (intros y; apply vdist_ext; auto; intros d Hd; rewrite Vx; auto).
        assert (Up : forall v, edge_limits w s near (x ++ [old]) v -> r <= Rmax v (d_rme w)).
        { intros v Hv. specialize (Lm2 v Hv). eapply Rle_trans; [exact Rle|]. apply Rmax_case_strong; intros; [eapply Rle_trans; [exact Lm2|apply Rmax_l]|apply Rmax_r]. }
        split; [|split; [|split]].
        * intros j Hj Hns. apply Up. right. left. exists j. split; auto. rewrite Dx. split; auto. intros C. apply Hns. eapply smooth_from_ext; [auto| |exact C]. auto.
        * intros j Hj Hns. apply Up. right. right. left. exists j. split; auto. rewrite Dx. split; auto. intros C. apply Hns. eapply smooth_edge_ext; [auto| |exact C]. auto.
        * intros j Hj Hns. apply Up. right. right. right. left. exists j. split; auto. rewrite Dx. split; auto. intros C. apply Hns. eapply smooth_edge_ext; [auto| |exact C]. auto.
        * intros t Et. destruct (RS t Et) as (c & (C1 & C2) & ->). exists c. split; [|apply Rmin_r]. split; auto. intros j Hj. rewrite !Dx. auto.
      + rewrite Old by lia. apply (k_rad Hs). lia.
    - intros i Hii. destruct (Nat.eq_dec i (count s)) as [->|N].
      + exists e. split; auto. split; auto. eapply in_seg_ext; [|exact Hx]. intros d Hd. unfold center, coord. rewrite New. symmetry. apply (Vx r d Hd).
      + destruct (k_on Hs (i := i)) as (f & A & B & C); [lia|]. exists f. split; [rewrite Rec by lia; auto|]. split; auto.
        unfold center, coord. rewrite Old by lia. exact C.
    - intros i j Hij. unfold gap, center, coord. rewrite (Old i) by lia. destruct (Nat.eq_dec j (count s)) as [->|N].
      + rewrite New. apply (Hfar' r i). lia.
      + rewrite (Old j) by lia. apply (k_gap Hs). lia.
  Qed.

  (** ** Filling the pool *)
  Lemma grows_refl s : grows s s.
  Proof. exists []. now rewrite app_nil_r. Qed.
  Lemma grows_trans a b c : grows a b -> grows b c -> grows a c.
  Proof. intros (x & E) (y & E'). exists (x ++ y). rewrite E', E, app_assoc. reflexivity. Qed.
  Definition live (st : eprogress R) : Prop := stock (h_es st) /\ h_num st = count (h_es st).
  Definition done (st st' : eprogress R) (p : pool R) : Prop :=
    live st' /\ grows (h_es st) (h_es st')
    /\ exists scs q, ehistory points edges (d_Lip w) (d_ratio w) p scs q /\ p_size q = 0%nat
         /\ Forall (usable_escene points edges) scs /\ Forall (fun sc => scene_grows sc (Scene (h_es st') (h_es st') cs)) scs.
  Lemma fill_edges_ok : forall fuel st p m st', live st -> ereached points edges p -> fill_edges need u w fuel st p m = Ok st' -> done st st' p.
  Proof.
    induction fuel as [|fuel IH]; intros st p m st' (Hs & Hn) Hr E; cbn [fill_edges] in E; [discriminate|].
    apply bind_Ok_inv in E. destruct E as ((x, e) & Ex & E). destruct (@sample_edge_ok p _ x e Hr Ex) as (Lx & He & Hx).
    apply bind_Ok_inv in E. destruct E as (b & Eb & E). apply bind_Ok_inv in E. destruct E as (b2 & Eb2 & E).
    apply bind_Ok_inv in E. destruct E as ((st1, m1) & E1 & E).
    assert (S1 : live st1 /\ grows (h_es st) (h_es st1)).
    { destruct b2.
      - injection E1 as <- _. split; [split; auto|apply grows_refl].
      - destruct b; [discriminate|]. apply bind_Ok_inv in E1. destruct E1 as (r & Er & E1). apply bind_Ok_inv in E1. destruct E1 as (es & Ea & E1).
        injection E1 as <- _. destruct (@stock_add _ _ _ _ _ _ _ Hs Lx He Hx Eb2 Er Ea) as (A & B & C). split; [split; auto; cbn; lia|exact B]. }
    destruct S1 as (L1 & G1).
    assert (Usc : usable_escene points edges (Scene (h_es st1) (h_es st1) cs)) by (split; [apply stock_usable; apply L1|exact Ucs]).
    destruct (Nat.eqb m1 edge_misses).
    - apply bind_Ok_inv in E. destruct E as (p' & Ep & E). fold points edges cs in Ep.
      assert (Hr' : ereached points edges p') by (eapply ereached_refine; eauto).
      destruct (Nat.eqb (p_size p') 0) eqn:Ez.
      + injection E as <-. apply Nat.eqb_eq in Ez. split; auto. split; auto. exists [Scene (h_es st1) (h_es st1) cs], p'. split.
        * eapply ehistory_first; [exact Ep|constructor].
        * split; auto. split; constructor; auto. split; [apply grows_refl|split; apply grows_refl].
      + destruct (IH _ _ _ _ L1 Hr' E) as (L2 & G2 & scs & q & Hh & Hq & HU & Hg). split; auto. split; [eapply grows_trans; eauto|].
        exists (Scene (h_es st1) (h_es st1) cs :: scs), q. split; [eapply ehistory_first; [exact Ep|exact Hh]|]. split; auto.
        split; constructor; auto. split; [exact G2|split; [exact G2|apply grows_refl]].
    - destruct (IH _ _ _ _ L1 Hr E) as (L2 & G2 & H2). split; auto. split; auto. eapply grows_trans; eauto.
  Qed.

  (** ** The Lipschitz pass *)
  Lemma impose_lessened fuel s s' b : stock s -> st_pts s <> [] -> impose_lipschitz fuel (d_Lip w) s false = Ok (s', b) ->
    lessened s s' /\ locally_lipschitz (d_Lip w) s' /\ (b = false -> s' = s).
  Proof.
    intros Hs Hne E. pose proof (stock_spheres Hs Hne) as Hsp. pose proof (stock_positive Hs) as Hp.
    destruct (@C29_tree (d_Lip w) s (Nat.max fuel (count s)) false (proj1 HL) Hsp Hp) as (s1 & b1 & E1 & O & Hlip & Hr & _); [lia|].
    assert (E2 : impose_lipschitz (Nat.max fuel (count s)) (d_Lip w) s false = Ok (s', b)) by (eapply impose_more; [|exact E]; lia).
    rewrite E1 in E2. injection E2 as -> ->. split; [split; auto|]. split; auto.
    apply (@impose_shrinks _ _ _ _ _ _ (proj1 HL) Hsp E).
  Qed.

  (** ** Narrow regions *)
  Lemma attr_ok s i e : record s i = Some [2; e]%nat -> face_of s i = Ok e.
  Proof.
    intros E. unfold record in E. unfold face_of. destruct (st_att s) as [l|]; [|discriminate].
    destruct (nth_error l i) as [r|] eqn:Er; [|rewrite nth_overflow in E; [discriminate|apply nth_error_None; auto]].
    rewrite (get_some Er). cbn [bind]. rewrite (nth_error_nth _ _ None Er) in E. subst r. reflexivity.
  Qed.
  Lemma edge_ends_ok e : (e < length edges)%nat -> exists ed j1 j2, get edges e = Ok ed /\ get ed 0 = Ok j1 /\ get ed 1 = Ok j2
    /\ corner points j1 = Ok (edge_end points edges e 0) /\ corner points j2 = Ok (edge_end points edges e 1).
  Proof.
    intros He. destruct (nth_error_lt edges He) as (ed & Ed). destruct (Hedges _ (nth_error_In _ _ Ed)) as (L2 & Hc).
    destruct (nth_error_lt ed (i := 0)) as (j1 & E1); [lia|]. destruct (nth_error_lt ed (i := 1)) as (j2 & E2); [lia|].
    exists ed, j1, j2. rewrite (get_some Ed), (get_some E1), (get_some E2). split; auto. split; auto. split; auto.
    assert (C : forall j, (j < length points)%nat -> corner points j = Ok (point3 points j)).
    { intros j Hj. unfold corner, point3. destruct (nth_error_lt points Hj) as (pt & Ept). rewrite (get_some Ept). cbn [bind]. rewrite (nth_error_nth _ _ [] Ept).
      pose proof (Hpts _ (nth_error_In _ _ Ept)) as L3. apply Nat.leb_le in L3. rewrite L3. reflexivity. }
    unfold edge_end. rewrite (nth_error_nth _ _ [] Ed). pose proof (Hc 0%nat ltac:(lia)) as H0. pose proof (Hc 1%nat ltac:(lia)) as H1.
    rewrite (nth_error_nth _ _ 0%nat E1) in *. rewrite (nth_error_nth _ _ 0%nat E2) in *. auto.
  Qed.
  Lemma nlit8 : (nlit 1 8 : R) = 1 / 10 ^ 8.
  Proof. unfold nlit. cbn [nofZ ndiv RNum]. unfold Rdiv. rewrite !Rmult_1_l. f_equal. change (Z.pow 10 (Z.of_nat 8)) with 100000000%Z. lra. Qed.

  Lemma pair_quiet i ei : quiet (edge_narrow_pair w i ei).
  Proof.
    intros j s b s' E. unfold edge_narrow_pair in E. apply bind_Ok_inv in E. destruct E as (ej & _ & E).
    destruct (Nat.eqb ei ej); [injection E as <- <-; auto|].
    apply bind_Ok_inv in E. destruct E as (ed & _ & E). apply bind_Ok_inv in E. destruct E as (j1 & _ & E). apply bind_Ok_inv in E. destruct E as (j2 & _ & E).
    apply bind_Ok_inv in E. destruct E as (x1 & _ & E). apply bind_Ok_inv in E. destruct E as (x2 & _ & E). apply bind_Ok_inv in E. destruct E as (si & _ & E).
    destruct (project_segment _ _ _) as (q, h). destruct (normalize_vector 3 _) as (g, t). destruct g; [|injection E as <- <-; auto].
    destruct (normalize_vector 3 _) as (g, v). destruct g; [|injection E as <- <-; auto].
    destruct (nltb _ _); [injection E as <- <-; auto|]. destruct (nltb _ _); [injection E as <- <-; auto|]. cbv zeta in E.
    destruct (nltb (gv si 3%nat) _); [injection E as <- <-; auto|]. apply bind_Ok_inv in E. destruct E as (s2 & _ & E). discriminate.
  Qed.
  Lemma narrow_body_quiet : quiet (fun i (st : stree R * bool) =>
      si <- get_sphere (fst st) i ;;
      ei <- face_of (fst st) i ;;
      ed <- get (d_edges w) ei ;; _ <- get ed 0 ;; _ <- get ed 1 ;;
      l <- get_overlapping_spheres si (fst st) (d_Lip w) ;;
      fold_res (edge_narrow_pair w i ei) l st).
  Proof.
    intros i s b s' E. apply bind_Ok_inv in E. destruct E as (si & _ & E). apply bind_Ok_inv in E. destruct E as (ei & _ & E).
    apply bind_Ok_inv in E. destruct E as (ed & _ & E). apply bind_Ok_inv in E. destruct E as (y1 & _ & E). apply bind_Ok_inv in E. destruct E as (y2 & _ & E).
    apply bind_Ok_inv in E. destruct E as (l & _ & E). destruct (@fold_quiet _ _ _ (@pair_quiet i ei) _ _ _ _ E) as (A & B & _). auto.
  Qed.
  Lemma pair_lessened i ei j s b s' b' : spheres s -> positive_radii s -> edge_narrow_pair w i ei j (s, b) = Ok (s', b') -> lessened s s'.
  Proof.
    intros Hs Hp E. unfold edge_narrow_pair in E. apply bind_Ok_inv in E. destruct E as (ej & _ & E).
    assert (Rf : lessened s s) by (apply lessened_refl; auto).
    destruct (Nat.eqb ei ej); [injection E as <- <-; auto|].
    apply bind_Ok_inv in E. destruct E as (ed & _ & E). apply bind_Ok_inv in E. destruct E as (j1 & _ & E). apply bind_Ok_inv in E. destruct E as (j2 & _ & E).
    apply bind_Ok_inv in E. destruct E as (x1 & _ & E). apply bind_Ok_inv in E. destruct E as (x2 & _ & E). apply bind_Ok_inv in E. destruct E as (si & Esi & E).
    pose proof (get_sphere_lt _ _ Esi) as Hi. pose proof (@get_sphere_radius _ _ _ Hs Esi) as Er.
    destruct (project_segment (gv si) (gv x1) (gv x2)) as (q, h) eqn:Eq.
    assert (Eh : h = vdist 3 (gv si) q). { unfold project_segment in Eq. injection Eq as <- <-. apply distance_R. }
    destruct (normalize_vector 3 (fun d => nsub (gv x2 d) (gv x1 d))) as (g, t). destruct g; [|injection E as <- <-; auto].
    rewrite normalize_R in E. destruct (Rltb (norm 3 _) (1 / 10 ^ 10)) eqn:Eg; [injection E as <- <-; auto|]. apply Rltb_false in Eg.
    destruct (nltb _ _); [injection E as <- <-; auto|]. destruct (nltb _ _); [injection E as <- <-; auto|]. cbv zeta in E.
    change (norm 3 (fun d : nat => nsub (gv si d) (q d))) with (vdist 3 (gv si) q) in Eg. rewrite <- Eh in Eg. pose proof tol_pos as Tp.
    set (dst := if nltb (nmul h (nlit 4 1)) (d_rme w) then d_rme w else nmul h (nlit 4 1)) in E.
    assert (Dp : 0 < dst).
    { unfold dst. rewrite nlit4. change nmul with Rmult. change nltb with Rltb. destruct (Rltb (h * (2 / 5)) (d_rme w)) eqn:Ed; [apply Rltb_true in Ed|]; lra. }
    change nltb with Rltb in E. destruct (Rltb (gv si 3%nat) _) eqn:El; [injection E as <- <-; auto|]. apply Rltb_false in El.
    rewrite Er, nlit8 in El. change nadd with Rplus in El. change nmul with Rmult in El. change (@n1 R RNum) with 1 in El.
    apply bind_Ok_inv in E. destruct E as (s2 & E2 & E). injection E as <- _.
    destruct (@set_radius_ok s Hs i dst Hi) as (s3 & E3 & O & R1 & R2). rewrite E2 in E3. injection E3 as <-.
    split; auto. intros k Hk. destruct (Nat.eq_dec k i) as [->|N].
    - rewrite R1. split; auto. assert (0 < 1 / 10 ^ 8) by (apply Rdiv_lt_0_compat; [lra|apply pow_lt; lra]). nra.
    - rewrite (R2 k N). specialize (Hp k Hk). lra.
  Qed.
  Lemma narrow_lessened s num s' b : stock s -> st_pts s <> [] -> edge_narrow w s num = Ok (s', b) -> lessened s s'.
  Proof.
    intros Hs Hne E. pose proof (stock_spheres Hs Hne) as Hsp. pose proof (stock_positive Hs) as Hp. unfold edge_narrow in E.
    apply (@for_res_Ok _ (fun st => lessened s (fst st))) in E; [exact E| |apply lessened_refl; auto].
    intros i (s1, b1) (s2, b2) _ H1 Eb. cbn [fst] in *.
    apply bind_Ok_inv in Eb. destruct Eb as (si & _ & Eb). apply bind_Ok_inv in Eb. destruct Eb as (ei & _ & Eb).
    apply bind_Ok_inv in Eb. destruct Eb as (ed & _ & Eb). apply bind_Ok_inv in Eb. destruct Eb as (y1 & _ & Eb). apply bind_Ok_inv in Eb. destruct Eb as (y2 & _ & Eb).
    apply bind_Ok_inv in Eb. destruct Eb as (l & _ & Eb).
    apply (@fold_res_Ok _ _ (fun st => lessened s (fst st))) in Eb; auto.
    intros j (s3, b3) (s4, b4) _ H3 E4. cbn [fst] in *. eapply lessened_trans; [exact H3|]. eapply pair_lessened; [| |exact E4].
    - eapply only_radii_spheres; [apply H3|auto].
    - intros k Hk. destruct H3 as (O3 & H3). rewrite (only_radii_count O3) in Hk. apply H3. auto.
  Qed.
  Lemma narrow_respects s num : stock s -> st_pts s <> [] -> num = count s -> locally_lipschitz (d_Lip w) s -> forall s', edge_narrow w s num = Ok (s', false) ->
    s' = s /\ forall i j, (i < count s)%nat -> (j < count s)%nat -> overlap s (fun d => coord (st_pts s) i d) j -> respects w s i j.
  Proof.
    intros Hs Hne -> Hlip s' E. pose proof (stock_spheres Hs Hne) as Hsp.
    unfold edge_narrow in E. destruct (@for_quiet _ _ narrow_body_quiet _ _ _ _ _ E) as (-> & _ & Hb). split; auto.
    intros i j Hi Hj Hov ei ej Ei Ej Nij a b Hab. specialize (Hb i ltac:(lia)). cbn [fst] in Hb.
    destruct (@get_sphere_ok s Hsp i Hi) as (si & Esi & Ls & Hsi). rewrite Esi in Hb. cbn [bind] in Hb.
    rewrite (attr_ok s i Ei) in Hb. cbn [bind] in Hb.
    apply bind_Ok_inv in Hb. destruct Hb as (ed & _ & Hb). apply bind_Ok_inv in Hb. destruct Hb as (y1 & _ & Hb). apply bind_Ok_inv in Hb. destruct Hb as (y2 & _ & Hb).
    apply bind_Ok_inv in Hb. destruct Hb as (l & El & Hb). destruct (@fold_quiet _ _ _ (@pair_quiet i ei) _ _ _ _ Hb) as (_ & _ & Hp).
    assert (Hat : point_at_reach s (vec si)).
    { destruct (stock_usable Hs) as [C|(_ & Hr)]; [congruence|]. apply Hr. destruct (k_on Hs Hi) as (e & _ & He & Hin). exists e. split; auto.
      eapply in_seg_ext; [|exact Hin]. intros d Hd. symmetry. apply Hsi. lia. }
    assert (Hin : In j l).
    { refine (@C30_complete_member s si (d_Lip w) l i Hsp ltac:(lia) Hat HL Hlip Hi Hsi El j Hj _).
      unfold overlap in *. rewrite (@vdist_ext 3 (vec si) (fun d => coord (st_pts s) i d) (center s j) (center s j)); auto.
      change (vec si 3%nat) with (gv si 3%nat). rewrite Hsi by lia. exact Hov. }
    specialize (Hp j Hin). unfold edge_narrow_pair in Hp. rewrite (attr_ok s j Ej) in Hp. cbn [bind] in Hp.
    assert (Nb : Nat.eqb ei ej = false) by (apply Nat.eqb_neq; auto). rewrite Nb in Hp.
    destruct (k_on Hs Hj) as (ej' & Ej' & Hlt & _). rewrite Ej in Ej'. injection Ej' as <-.
    destruct (edge_ends_ok Hlt) as (ed' & j1 & j2 & G1 & G2 & G3 & G4 & G5). fold edges points in Hp.
    rewrite G1 in Hp. cbn [bind] in Hp. rewrite G2 in Hp. cbn [bind] in Hp. rewrite G3 in Hp. cbn [bind] in Hp. rewrite G4 in Hp. cbn [bind] in Hp. rewrite G5 in Hp. cbn [bind] in Hp.
    rewrite Esi in Hp. cbn [bind] in Hp. change (gv (edge_end points edges ej 0)) with a in Hp. change (gv (edge_end points edges ej 1)) with b in Hp.
    pose proof tol_pos as Tp.
    assert (NE : exists d, (d < 3)%nat /\ a d <> b d).
    { destruct (Req_dec (a 0%nat) (b 0%nat)) as [E0|]; [|exists 0%nat; split; [lia|auto]]. destruct (Req_dec (a 1%nat) (b 1%nat)) as [E1|]; [|exists 1%nat; split; [lia|auto]].
      destruct (Req_dec (a 2%nat) (b 2%nat)) as [E2|]; [|exists 2%nat; split; [lia|auto]].
      exfalso. rewrite (@vdist_ext 3 b a a a), vdist_self in Hab; [lra| |auto]. intros [|[|[|d]]] Hd; auto; lia. }
    pose proof (@segment_R (gv si) a b NE) as Hq. destruct (project_segment (gv si) a b) as (q, h). destruct Hq as (Q1 & Q2 & Q3).
    assert (Cs : forall d, (d < 3)%nat -> gv si d = center s i d) by (intros d Hd; apply Hsi; lia).
    assert (Dv : forall y, vdist 3 (gv si) y = vdist 3 (center s i) y) by (intros y; apply vdist_ext; auto).
    exists q. split; [split; auto; intros y Hy; rewrite <- !Dv, <- Q2; auto|]. cbn zeta. change (norm 3 (sub (center s i) q)) with (vdist 3 (center s i) q).
    rewrite Dv in Q2. rewrite <- Q2. intros Hh Hcos Ht.
    rewrite normalize_R in Hp. change (norm 3 (fun d : nat => nsub (b d) (a d))) with (vdist 3 b a) in Hp.
    replace (Rltb (vdist 3 b a) (1 / 10 ^ 10)) with false in Hp by (symmetry; apply Rltb_false; auto).
    rewrite normalize_R in Hp. change (norm 3 (fun d : nat => nsub (gv si d) (q d))) with (vdist 3 (gv si) q) in Hp. rewrite Dv, <- Q2 in Hp.
    replace (Rltb h (1 / 10 ^ 10)) with false in Hp by (symmetry; apply Rltb_false; auto).
    rewrite dot_product_R in Hp.
    assert (Ed : dot 3 (fun d : nat => nsub (b d) (a d) / vdist 3 b a) (fun d : nat => nsub (gv si d) (q d) / h) = dot 3 (sub b a) (sub (center s i) q) / (norm 3 (sub b a) * h)).
    { change (norm 3 (sub b a)) with (vdist 3 b a). unfold dot. rewrite <- (Rmult_1_r (sumn 3 _)). unfold Rdiv at 3. rewrite (Rmult_comm (sumn 3 (fun k => sub b a k * _))), <- sumn_scal, Rmult_1_r.
      apply sumn_ext. intros d Hd. unfold sub. rewrite Cs by auto. change nsub with Rminus. field. lra. }
    rewrite Ed in Hp. clear Ed. change nltb with Rltb in Hp. change nabs with Rabs in Hp.
    replace (Rltb (d_thr w) _) with false in Hp by (symmetry; apply Rltb_false; auto). rewrite nlit4, nlit8 in Hp. change nmul with Rmult in Hp. change nadd with Rplus in Hp. change (@n1 R RNum) with 1 in Hp.
    replace (Rltb (h * (2 / 5)) (d_tol w)) with false in Hp by (symmetry; apply Rltb_false; lra). cbv zeta in Hp.
    assert (Er : (if Rltb (h * (2 / 5)) (d_rme w) then d_rme w else h * (2 / 5)) = Rmax (2 / 5 * h) (d_rme w)).
    { rewrite (Rmult_comm h). unfold Rmax. destruct (Rltb (2 / 5 * h) (d_rme w)) eqn:E0; [apply Rltb_true in E0|apply Rltb_false in E0]; destruct (Rle_dec _ _); auto; lra. }
    rewrite Er in Hp. destruct (Rltb (gv si 3%nat) _) eqn:Elt; [apply Rltb_true in Elt; rewrite Hsi in Elt by lia; exact Elt|].
    apply bind_Ok_inv in Hp. destruct Hp as (s2 & _ & Hp). discriminate.
  Qed.

  (** ** The whole loop *)
  Lemma edge_loop_ok : forall fuel inner st s, live st -> edge_loop need u w fuel inner st = Ok s -> edge_result w s /\ stock s /\ st_pts s <> [].
  Proof.
    induction fuel as [|fuel IH]; intros inner st s Hl E; cbn [edge_loop] in E; [discriminate|].
    apply bind_Ok_inv in E. destruct E as (p & Ep & E). fold points edges in Ep. apply bind_Ok_inv in E. destruct E as (st1 & Ef & E).
    destruct (@fill_edges_ok _ _ _ _ _ Hl (ereached_start _ _ Ep) Ef) as ((S1 & N1) & _ & scs & q & Hh & Hq & HU & Hg).
    pose proof (@C33_edges points edges (d_Lip w) (d_ratio w) p scs q (Scene (h_es st1) (h_es st1) cs) Hpts Hedges Ep Hh HU Hg Hq) as Hcov.
    apply bind_Ok_inv in E. destruct E as ((s1, b) & E1 & E).
    assert (Hne : st_pts (h_es st1) <> []) by (intros C; rewrite C29_no_spheres_refuted in E1 by auto; discriminate).
    destruct (@impose_lessened _ _ _ _ S1 Hne E1) as (Ls1 & Hlip & F1).
    assert (Lv : forall s', lessened (h_es st1) s' -> live (EProg s' (h_num st1) (h_old st1) (h_k st1))).
    { intros s' Hs'. split; [eapply stock_lessened; eauto|]. cbn. rewrite N1. symmetry. apply (only_radii_count (proj1 Hs')). }
    destruct b; [eapply IH; [apply Lv; exact Ls1|exact E]|]. rewrite (F1 eq_refl) in *. clear F1 Ls1.
    apply bind_Ok_inv in E. destruct E as ((s2, b) & E2 & E).
    destruct b; [eapply IH; [apply Lv; eapply narrow_lessened; eauto|exact E]|].
    destruct (@narrow_respects _ _ S1 Hne N1 Hlip _ E2) as (-> & Hresp). injection E as <-. split; [|split; auto].
    split; [intros y Hy; exact (Hcov y Hy)|]. split; [apply (k_on S1)|]. split; [apply (k_gap S1)|]. split; [apply (k_rad S1)|]. auto.
  Qed.
End Loop.
