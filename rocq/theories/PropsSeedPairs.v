(** C35, C37, C64: pairs of seeds. *)
From Coq Require Import Reals Lra.
From Verif Require Import Base Num Vec KdTree SmartTree KdSpec SmartTreeSpec SmartQueryProofs SmartTreeProofs TreeGrow DenseQR Geometry GeometrySpec GeometryProofs
  Spheres SpheresSpec SpheresProofs SpheresOverlapProofs PropsGeometry SeedPairs SeedPairsSpec SeedPairsProofs SeedCoverProofs SeedRunProofs SeedLoopProofs SeedEndProofs SeedPairsCase.
Local Open Scope R_scope.

(** Three trees of spheres for which the routine is meant. *)
Definition sphere_input (ss es cs : stree R) (L : R) (darts : nat -> nat -> nat -> nat -> nat -> R) : Prop :=
  sphere_set L ss /\ sphere_set L es /\ sphere_set L cs /\ moderate (all_spheres ss es cs) /\ 0 <= L < 1
  /\ usable (all_spheres ss es cs) darts /\ lipschitz L es /\ lipschitz L cs.

(** ** C35: the pair of a triple *)
(** A pair that is produced lies on the three spheres, is mirrored in the plane of the
    centres, is oriented by the face of the first sphere and has the least of the three radii. *)
Theorem C35_pair ss es cs L darts stale face i j k p :
  sphere_input ss es cs L darts -> (i < j < k)%nat -> (k < length (all_spheres ss es cs))%nat ->
  meeting_pair ss es cs (darts i j k) stale (face i) i j k = Ok (Some p) ->
  let all := all_spheres ss es cs in
  touching all i j /\ touching all i k /\ touching all j k /\ good_pair all (snd (triangle_normal (face i))) i j k p.
Proof.
  intros (H1 & H2 & H3 & H4 & H5 & H6 & HLe & HLc) Hijk Hk E all.
  destruct (@meeting_pair_ok ss es cs L H1 H2 H3 H4 (darts i j k) stale (face i) i j k) as (o & E' & Ho); try (fold all; unfold all; lia).
  { apply H6; auto. }
  rewrite E in E'. injection E' as <-. destruct Ho as (T1 & T2 & T3 & G & _). auto.
Qed.
(** It is produced whenever the three balls overlap and the two points exist (the point of the plane
    with equal powers is inside the first ball by more than 1e-10). *)
Theorem C35_found ss es cs L darts stale face i j k x :
  sphere_input ss es cs L darts -> (i < j < k)%nat -> (k < length (all_spheres ss es cs))%nat ->
  let all := all_spheres ss es cs in
  touching all i j -> touching all i k -> touching all j k -> 1 / 10 ^ 10 <= area (triangle all i j k) ->
  in_hull 3 3 (triangle all i j k) x ->
  power 3 x (centre all j) (rad all j) = power 3 x (centre all i) (rad all i) ->
  power 3 x (centre all k) (rad all k) = power 3 x (centre all i) (rad all i) ->
  vdist 3 x (centre all i) <= rad all i - 1 / 10 ^ 10 ->
  exists p, meeting_pair ss es cs (darts i j k) stale (face i) i j k = Ok (Some p).
Proof.
  intros (H1 & H2 & H3 & H4 & H5 & H6 & HLe & HLc) Hijk Hk all T1 T2 T3 Ha Hx P1 P2 Hin.
  destruct (@meeting_pair_ok ss es cs L H1 H2 H3 H4 (darts i j k) stale (face i) i j k) as (o & E' & Ho); try (fold all; unfold all in *; lia).
  { apply H6; auto. }
  destruct o as [p|]; [eauto|]. exfalso. specialize (Ho T1 T2 T3 Ha x Hx P1 P2). fold all in Ho. lra.
Qed.
(** The coverage test: "not covered" means that no other ball contains the point;
    "covered" that another ball, enlarged by 1e-10, does. *)
Theorem C35_coverage ss es cs L darts i j k p :
  sphere_input ss es cs L darts -> (i < j < k)%nat -> (k < length (all_spheres ss es cs))%nat ->
  let all := all_spheres ss es cs in
  length (p_up p) = 4%nat -> length (p_lo p) = 4%nat -> on_three all i j k (vec (p_up p)) -> on_three all i j k (vec (p_lo p)) ->
  exists cu cl cover, coverage ss es cs L i j k (p_up p) (p_lo p) = Ok (cu, cl, cover)
    /\ (if cu then buried all i j k (vec (p_up p)) (1 / 10 ^ 10) else ~ buried all i j k (vec (p_up p)) 0)
    /\ (if cl then buried all i j k (vec (p_lo p)) (1 / 10 ^ 10) else ~ buried all i j k (vec (p_lo p)) 0).
Proof.
  intros (H1 & H2 & H3 & H4 & H5 & H6 & HLe & HLc) Hijk Hk all L1 L2 O1 O2.
  destruct (@coverage_ok ss es cs L H1 H2 H3 H4 H5 i j k (p_up p) (p_lo p)) as (cu & cl & cover & E & _ & Cu & Cl & Fu & Fl); try (fold all; unfold all in *; lia); [apply O1|apply O2|].
  exists cu, cl, cover. split; auto. split.
  - destruct cu; auto. destruct (Cu eq_refl) as (m & _ & Hm). exists m. exact Hm.
  - destruct cl; auto. destruct (Cl eq_refl) as (m & _ & Hm). exists m. exact Hm.
Qed.

(** ** C64: the whole generation *)
(** It always answers.  Either some surface sphere shrinks, none grows, nothing but radii changes and
    the seeds are discarded; or the spheres are unchanged and the seeds are pairs as in C35, each
    recorded with its partner, not closer than a hundredth of their radii.  Every triple that meets
    has been settled: see [settled]. *)
Theorem C64_generation o ss es cs L ups los :
  sphere_input ss es cs L (o_darts o) -> st_nd ups = 3%nat -> st_nd los = 3%nat ->
  exists ss' u l sh, generate_surface_seeds o ss es cs L ups los = Ok (ss', u, l, sh)
    /\ only_radii ss ss'
    /\ (sh = false -> ss' = ss
          /\ seeds_of (accepted ss es cs (o_face o)) p_up p_lo u l /\ seeds_of (accepted ss es cs (o_face o)) p_lo p_up l u
          /\ distinct_seeds u /\ distinct_seeds l /\ spaced ss u /\ spaced ss l)
    /\ (sh = true -> st_pts u = [] /\ st_pts l = []
          /\ (forall m, (m < count ss)%nat -> 0 <= radius ss' m <= radius ss m)
          /\ (exists m, (m < count ss)%nat /\ radius ss' m < radius ss m))
    /\ forall i j k p, (i < j < k)%nat -> (k < length (all_spheres ss es cs))%nat -> (i < count ss)%nat ->
         meeting_pair ss es cs (o_darts o i j k) (o_stale o i j k) (o_face o i) i j k = Ok (Some p) ->
         settled ss es cs (o_face o) (o_pv o) (o_nrm o) ss' u l sh i j k p.
Proof.
  intros (H1 & H2 & H3 & H4 & H5 & H6 & HLe & HLc) Nu Nl.
  destruct (@generate_ok o ss es cs L H1 H2 H3 H4 H5 H6 HLe HLc ups los Nu Nl) as (ss' & u & l & sh & E & O & F & T & S).
  exists ss', u, l, sh. split; auto. split; auto. split; [|auto]. intros Esh. destruct (F Esh) as (Es & (Tu & Tl & Su & Sl & Du & Dl & _) & Sp1 & Sp2).
  assert (W : forall this other t t', seeds_of (accepted_by o ss es cs) this other t t' -> seeds_of (accepted ss es cs (o_face o)) this other t t').
  { intros this other t t' Hs a Ha. destruct (Hs a Ha) as (i & j & k & p & b & x & y & (A & _) & R). exists i, j, k, p, b, x, y. auto. }
  auto 10.
Qed.

(** ** C37: partners *)
Lemma clear_separate o ss es cs : clear_pairs ss es cs (o_face o) -> separate (accepted_by o ss es cs).
Proof.
  intros Hc i j k p i' j' k' p' (A & _) (A' & _) Hd.
  destruct (Nat.eq_dec i i') as [E1|N1]; [destruct (Nat.eq_dec j j') as [E2|N2]; [destruct (Nat.eq_dec k k') as [E3|N3]; [auto|]|]|].
  all: exfalso; set (all := all_spheres ss es cs) in *.
  all: assert (Hm : exists m, others all i j k m /\ vdist 3 (vec (p_up p')) (centre all m) = rad all m /\ vdist 3 (vec (p_lo p')) (centre all m) = rad all m).
  1,3,5: pose proof A as (Ho & _); pose proof A' as (Ho' & Hk' & _ & _ & _ & _ & (_ & _ & _ & (U1 & U2 & U3) & (L1 & L2 & L3) & _) & _); fold all in Hk', U1, U2, U3, L1, L2, L3;
    assert (Hx : (i' <> i /\ i' <> j /\ i' <> k) \/ (j' <> i /\ j' <> j /\ j' <> k) \/ (k' <> i /\ k' <> j /\ k' <> k)) by lia;
    destruct Hx as [Hx|[Hx|Hx]]; [exists i'|exists j'|exists k']; (split; [unfold others; lia|split; assumption]).
  all: destruct Hm as (m & Om & Mu & Ml); destruct (Hc i j k p A) as (B1 & B2); fold all in B1, B2;
    destruct Hd as [Hd|Hd]; [apply B1|apply B2]; exists m; (split; [exact Om|]);
    [pose proof (vdist_triangle 3 (vec (p_up p)) (vec (p_up p')) (centre all m)) as T|pose proof (vdist_triangle 3 (vec (p_lo p)) (vec (p_lo p')) (centre all m)) as T]; lra.
Qed.
(** When no ball comes within 1e-10 of a seed, seed a of the upper list and seed a of the lower
    list are the two points of one pair and record each other. *)
Theorem C37_mutual o ss es cs L ups los ss' u l :
  sphere_input ss es cs L (o_darts o) -> st_nd ups = 3%nat -> st_nd los = 3%nat -> clear_pairs ss es cs (o_face o) ->
  generate_surface_seeds o ss es cs L ups los = Ok (ss', u, l, false) ->
  mutual (accepted ss es cs (o_face o)) u l.
Proof.
  intros (H1 & H2 & H3 & H4 & H5 & H6 & HLe & HLc) Nu Nl Hc E.
  destruct (@generate_ok o ss es cs L H1 H2 H3 H4 H5 H6 HLe HLc ups los Nu Nl) as (ss2 & u2 & l2 & sh & E' & _ & F & _).
  rewrite E in E'. injection E' as <- <- <- <-. destruct (F eq_refl) as (_ & (_ & _ & _ & _ & _ & _ & M) & _).
  destruct (M (clear_separate Hc)) as (Ec & M'). split; auto. intros a Ha. destruct (M' a Ha) as (i & j & k & p & x & y & (A & _) & R).
  exists i, j, k, p, x, y. auto.
Qed.
(** Merging: the list is the upper seeds followed by the lower seeds; normals and spheres are kept; the
    partner recorded with an upper seed is the number of the same lower seed, and vice versa. *)
Theorem C37_merge o ss es cs L ups los ss' u l need :
  sphere_input ss es cs L (o_darts o) -> st_nd ups = 3%nat -> st_nd los = 3%nat ->
  generate_surface_seeds o ss es cs L ups los = Ok (ss', u, l, false) ->
  exists s, merge_seeds need u l (st_new 3) = Ok s
    /\ st_pts s = st_pts u ++ st_pts l
    /\ (forall a, (a < count u)%nat -> exists i j k p b x y, accepted ss es cs (o_face o) i j k p
          /\ nth a (st_pts s) [] = p_up p /\ normal_of s a = p_nrm p /\ record s a = Some [6; b; i; x; y; 0]%nat /\ p_att p = (i, x, y)
          /\ (count u <= b < count u + count l)%nat /\ record u a = Some [6; b - count u; i; x; y; 0]%nat
          /\ nth b (st_pts s) [] = nth (b - count u) (st_pts l) [] /\ seed_near s (vec (p_lo p)) b)
    /\ (forall a, (a < count l)%nat -> exists i j k p b x y, accepted ss es cs (o_face o) i j k p
          /\ nth (count u + a) (st_pts s) [] = p_lo p /\ normal_of s (count u + a) = p_nrm p /\ record s (count u + a) = Some [6; b; i; x; y; 0]%nat /\ p_att p = (i, x, y)
          /\ (b < count u)%nat /\ record l a = Some [6; b; i; x; y; 0]%nat
          /\ nth b (st_pts s) [] = nth b (st_pts u) [] /\ seed_near s (vec (p_up p)) b).
Proof.
  intros (H1 & H2 & H3 & H4 & H5 & H6 & HLe & HLc) Nu Nl E.
  destruct (@generate_ok o ss es cs L H1 H2 H3 H4 H5 H6 HLe HLc ups los Nu Nl) as (ss2 & u2 & l2 & sh & E' & _ & F & _).
  rewrite E in E'. injection E' as <- <- <- <-. destruct (F eq_refl) as (_ & (Tu & Tl & Su & Sl & _) & _).
  assert (Hacc : forall i j k p, accepted_by o ss es cs i j k p -> length (p_up p) = 4%nat /\ length (p_lo p) = 4%nat /\ length (p_nrm p) = 3%nat).
  { intros i j k p ((_ & _ & _ & _ & _ & _ & (A1 & A2 & A3 & _) & _) & _). auto. }
  destruct (@merge_ok _ Hacc need u l Tu Tl Su Sl) as (s & Es & _ & (Ep & Mu & Ml)). exists s. split; auto. split; auto.
  assert (Cs : count s = (count u + count l)%nat) by (unfold count; rewrite Ep, app_length; reflexivity).
  assert (N1 : forall a, (a < count u)%nat -> nth a (st_pts s) [] = nth a (st_pts u) []) by (intros a Ha; rewrite Ep; apply app_nth1; exact Ha).
  assert (N2 : forall a, nth (count u + a) (st_pts s) [] = nth a (st_pts l) []).
  { intros a. rewrite Ep. unfold count. rewrite app_nth2_plus. reflexivity. }
  split.
  - intros a Ha. destruct (Su a Ha) as (i & j & k & p & b & x & y & (A & _) & P1 & P2 & P3 & P4 & (Hb & Hd)). destruct (Mu a Ha) as (M1 & M2).
    exists i, j, k, p, (b + count u)%nat, x, y. split; auto. split; [rewrite N1; auto|]. split; [rewrite M2; auto|].
    split; [rewrite M1, P4; reflexivity|]. split; auto. split; [lia|]. replace (b + count u - count u)%nat with b by lia. split; auto.
    rewrite (Nat.add_comm b). split; [apply N2|]. split; [lia|]. unfold center, coord in *. rewrite N2. exact Hd.
  - intros a Ha. destruct (Sl a Ha) as (i & j & k & p & b & x & y & (A & _) & P1 & P2 & P3 & P4 & (Hb & Hd)). destruct (Ml a Ha) as (M1 & M2).
    exists i, j, k, p, b, x, y. split; auto. split; [rewrite N2; auto|]. split; [rewrite M2; auto|].
    split; [rewrite M1, P4; reflexivity|]. split; auto. split; auto. split; auto. split; [apply N1; auto|]. split; [lia|].
    unfold center, coord in *. rewrite N1 by auto. exact Hd.
Qed.
(** Partners are not mutual in general: when only the upper point of a pair is already a seed, the seed that is
    added for the lower point names a seed whose own partner is another one. *)
Definition seed_rows (t : stree PrimFloat.float) : list (option (list nat)) := match st_att t with Some l => l | None => [] end.
Theorem C37_mutual_refuted : exists (p q : pair PrimFloat.float) u1 l1 u2 l2,
  add_pair (fun _ _ => false) (st_new 3) (st_new 3) p = Ok (u1, l1) /\ add_pair (fun _ _ => false) u1 l1 q = Ok (u2, l2)
  /\ seed_rows u2 = [Some [6; 0; 0; 1; 2; 0]]%nat /\ seed_rows l2 = [Some [6; 0; 0; 1; 2; 0]; Some [6; 0; 0; 1; 3; 0]]%nat.
Proof.
  exists (MkPair [n0; n0; n1; n1] [n0; n0; n0; n1] [n0; n0; n1] (0, 1, 2)%nat), (MkPair [n0; n0; n1; n1] [n0; n1; n0; n1] [n0; n0; n1] (0, 1, 3)%nat).
  eexists _, _, _, _. split; [vm_compute; reflexivity|]. split; [vm_compute; reflexivity|]. split; reflexivity.
Qed.

(** A case: three unit spheres, no edge and no corner spheres. *)
Definition three_spheres : stree R :=
  ST 3 100 [[0; 0; 0; 1]; [1; 0; 0; 1]; [0; 1; 0; 1]] None None ([2; 1; 2], [1; 1; 2])%nat 0 2 [0; 0; 0] [1; 1; 0].
Lemma three_spheres_ok : spheres three_spheres.
Proof.
  split; [|split; auto].
  - split; [simpl; lia|]. split; [discriminate|]. split.
    + intros p [<-|[<-|[<-|[]]]]; simpl; lia.
    + exists (Node 0 (Node 2 Leaf Leaf) (Node 1 Leaf Leaf)). split; auto. split; [reflexivity|]. split; [reflexivity|].
      split; [eexists _, _; reflexivity|]. split; [repeat split; reflexivity|]. split; [apply Permutation_refl|].
      cbn. split; [|split; [|repeat split; intros j []]].
      * intros j [<-|[]]. unfold coord. simpl. apply Rltb_false. lra.
      * intros j [<-|[]]. unfold coord. simpl. apply Rltb_true. lra.
  - intros p [<-|[<-|[<-|[]]]]; simpl; lia.
Qed.
Lemma three_rad m : (m < 3)%nat -> rad (st_pts three_spheres) m = 1.
Proof. destruct m as [|[|[|m]]]; intros H; try lia; reflexivity. Qed.
Lemma three_gap m m' : (m < 3)%nat -> (m' < 3)%nat -> vdist 3 (centre (st_pts three_spheres) m) (centre (st_pts three_spheres) m') <= 3/2.
Proof.
  intros H H'. unfold vdist, norm. rewrite dot3. rewrite <- (sqrt_Rsqr (3/2)) by lra. apply sqrt_le_1_alt. unfold Rsqr, sub, centre, coord.
  destruct m as [|[|[|m]]]; try lia; destruct m' as [|[|[|m']]]; try lia; simpl; lra.
Qed.
Lemma three_triangle : forall m d, triangle (st_pts three_spheres) 0 1 2 m d = corner3 m d.
Proof. intros [|[|m]] [|[|[|[|[|d]]]]]; reflexivity. Qed.
Definition axes_everywhere : nat -> nat -> nat -> nat -> nat -> R := fun _ _ _ => axis_darts.
Example C35_hypotheses : let es := st_new 3 in let all := all_spheres three_spheres es es in
  sphere_input three_spheres es es 0 axes_everywhere
  /\ touching all 0 1 /\ touching all 0 2 /\ touching all 1 2 /\ 1 / 10 ^ 10 <= area (triangle all 0 1 2)
  /\ exists x, in_hull 3 3 (triangle all 0 1 2) x /\ power 3 x (centre all 1) (rad all 1) = power 3 x (centre all 0) (rad all 0)
     /\ power 3 x (centre all 2) (rad all 2) = power 3 x (centre all 0) (rad all 0) /\ vdist 3 x (centre all 0) <= rad all 0 - 1 / 10 ^ 10.
Proof.
  intros es all. assert (Ea : all = st_pts three_spheres) by reflexivity. rewrite Ea. clear Ea all.
  assert (T : 1 / 10 ^ 10 <= / 4).
  { apply Rmult_le_reg_r with (10 ^ 10); [apply pow_lt; lra|]. unfold Rdiv. rewrite Rmult_assoc, Rinv_l by (apply pow_nonzero; lra). lra. }
  assert (Et : triangle (st_pts three_spheres) 0 1 2 = corner3).
  { apply FunctionalExtensionality.functional_extensionality. intros m. apply FunctionalExtensionality.functional_extensionality. intros d. apply three_triangle. }
  assert (Hd : 1000 < @dbl_max R RNum) by (cbn [dbl_max RNum]; apply IZR_lt; reflexivity).
  assert (Tt : forall m m', (m < 3)%nat -> (m' < 3)%nat -> touching (st_pts three_spheres) m m').
  { intros m m' H H'. unfold touching. rewrite !three_rad by auto. pose proof (three_gap H H'). lra. }
  assert (He : sphere_set 0 es).
  { split; auto. split; [left; reflexivity|]. split; [intros i j Hi; cbn in Hi; lia|intros p []]. }
  assert (Hl0 : lipschitz 0 es) by (intros i j Hi; cbn in Hi; lia).
  assert (A : area (triangle (st_pts three_spheres) 0 1 2) = / 2) by (rewrite Et; unfold area; rewrite corner3_norm; lra).
  split; [split; [|split; [exact He|split; [exact He|split; [|split; [lra|split; [|split; [exact Hl0|exact Hl0]]]]]]]|].
  - split; auto. split; [right; apply three_spheres_ok|]. split.
    + intros i j Hi Hj. change (count three_spheres) with 3%nat in *. change (radius three_spheres i) with (rad (st_pts three_spheres) i).
      change (radius three_spheres j) with (rad (st_pts three_spheres) j). rewrite !three_rad by auto. lra.
    + intros p [<-|[<-|[<-|[]]]]; reflexivity.
  - intros m m' H H'. change (length (all_spheres three_spheres es es)) with 3%nat in *. change (all_spheres three_spheres es es) with (st_pts three_spheres).
    rewrite three_rad by auto. pose proof (three_gap H H'). lra.
  - intros i j k Hijk Hk. change (length (all_spheres three_spheres es es)) with 3%nat in *. change (all_spheres three_spheres es es) with (st_pts three_spheres).
    assert (i = 0 /\ j = 1 /\ k = 2)%nat as (-> & -> & ->) by lia. right. rewrite Et. split; [apply corner3_independent|]. split.
    + intros S. unfold sliver in S. rewrite corner3_norm in S.
      assert (N1 : norm 3 (sub (corner3 1%nat) (corner3 0%nat)) = 1).
      { unfold norm. rewrite dot3. unfold sub, corner3, v4. match goal with |- sqrt ?t = 1 => replace t with 1 by ring end. apply sqrt_1. }
      assert (N2 : norm 3 (sub (corner3 2%nat) (corner3 0%nat)) = 1).
      { unfold norm. rewrite dot3. unfold sub, corner3, v4. match goal with |- sqrt ?t = 1 => replace t with 1 by ring end. apply sqrt_1. }
      rewrite N1, N2 in S. lra.
    + apply corner3_vertex.
  - split; [apply Tt; lia|]. split; [apply Tt; lia|]. split; [apply Tt; lia|]. split; [rewrite A; lra|].
    exists (v4 (1/2) (1/2) 0 0). rewrite Et. split; [|split; [|split]].
    + exists (fun m => match m with 0%nat => 0 | _ => 1/2 end). split; [rewrite sumn3; lra|]. intros d Hd'. rewrite sumn3. destruct d as [|[|[|d]]]; try lia; unfold corner3, v4; lra.
    + unfold power, vdist, norm. rewrite !dot3. unfold sub, centre, rad, coord. simpl. rewrite !sqrt_sqrt by nra. lra.
    + unfold power, vdist, norm. rewrite !dot3. unfold sub, centre, rad, coord. simpl. rewrite !sqrt_sqrt by nra. lra.
    + rewrite three_rad by lia. apply Rle_trans with (3/4); [|lra]. unfold vdist, norm. rewrite dot3. rewrite <- (sqrt_Rsqr (3/4)) by lra. apply sqrt_le_1_alt. unfold Rsqr, sub, centre, coord. simpl. lra.
Qed.
(** Its pairs are clear, since there is no fourth ball. *)
Example C37_hypotheses face : clear_pairs three_spheres (st_new 3) (st_new 3) face.
Proof.
  unfold clear_pairs. intros i j k p A. destruct A as (Hijk & Hk & _). change (length _) with 3%nat in Hk.
  split; intros (m & (Hm & N1 & N2 & N3) & _); change (length _) with 3%nat in Hm; lia.
Qed.

(** The program run, in double precision, on those spheres: one pair, each seed naming the other. *)
Definition float_spheres : list (list PrimFloat.float) := [[n0; n0; n0; n1]; [n1; n0; n0; n1]; [n0; n1; n0; n1]].
Definition float_tree (l : list (list PrimFloat.float)) : res (stree PrimFloat.float) :=
  fold_left (fun r x => t <- r ;; add_point (fun _ _ => false) t x None None) l (Ok (st_new 3)).
Definition float_axis (a d : nat) : PrimFloat.float := if Nat.eqb a d then n1 else n0.
Definition float_oracle : oracle PrimFloat.float :=
  MkOracle (fun _ _ => false) (fun _ m => match m with 0%nat => fun _ => n0 | 1%nat => float_axis 0 | _ => float_axis 1 end)
    (fun _ _ _ a => match a with 0%nat => float_axis 1 | _ => float_axis 0 end) (fun _ _ _ _ => n0) (fun _ _ _ _ _ => n0) (fun _ _ _ _ _ => n0).
Example C64_run : match (t <- float_tree float_spheres ;; generate_surface_seeds float_oracle t (st_new 3) (st_new 3) n0 (st_new 3) (st_new 3)) with
  | Ok (_, u, l, sh) => sh = false /\ seed_rows u = [Some [6; 0; 0; 1; 2; 0]]%nat /\ seed_rows l = [Some [6; 0; 0; 1; 2; 0]]%nat
      /\ match merge_seeds (fun _ _ => false) u l (st_new 3) with Ok s => seed_rows s = [Some [6; 1; 0; 1; 2; 0]; Some [6; 0; 0; 1; 2; 0]]%nat | _ => False end
  | _ => False end.
Proof. vm_compute. repeat split; reflexivity. Qed.

Print Assumptions C35_pair.
Print Assumptions C35_found.
Print Assumptions C35_coverage.
Print Assumptions C64_generation.
Print Assumptions C37_mutual.
Print Assumptions C37_merge.
Print Assumptions C37_mutual_refuted.
