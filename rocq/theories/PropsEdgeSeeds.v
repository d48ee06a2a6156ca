(** C74: the seeds added for the sharp edges. *)
From Coq Require Import Floats Reals Lra.
From Verif Require Import Base Num SamplingSpec Vec KdSpec KdTree SmartTree DenseQR Geometry GeometryProofs Spheres
  PolyMesh PolyMeshProofs Regions RegionsProofs KdQueryProofs SpokeFlatProofs Interior InteriorSpec InteriorTreeProofs
  InteriorProofs SurfaceShrinkProofs EdgeSeeds EdgeSeedsSpec EdgeSeedsProofs.
Local Open Scope R_scope.

(** What is asked of the input: the slope bound, spheres, one region for every seed, unit
    directions from the sampler (C55) and distances that fit into a double. *)
Record edge_setting (L : R) (seeds : list (list R)) (regs : list nat) (surf edge corner : list (list R)) (dir2 : nat -> list R) : Prop :=
  { es_L : 0 <= L < 1;
    es_seeds : seeds <> [] /\ Forall sphere seeds /\ length regs = length seeds;
    es_slope : slope L surf;
    es_edge : Forall sphere edge;
    es_corner : Forall sphere corner;
    es_small : small_setting seeds surf edge corner;
    es_dir : forall k, nth 0 (dir2 k) 0 * nth 0 (dir2 k) 0 + nth 1 (dir2 k) 0 * nth 1 (dir2 k) 0 = 1 }.

Lemma setting_spec fuel lfuel L seeds regs surf edge corner sizing dir3 dir2 : edge_setting L seeds regs surf edge corner dir2 ->
  match ensure_edge_seeds fuel lfuel L seeds regs surf edge corner sizing dir3 dir2 with
  | Ok (seeds', regs') => exists seeds1 outs, smoothed L seeds seeds1
      /\ length outs = length edge
      /\ (forall i, (i < length edge)%nat -> edge_outcome seeds1 regs surf edge corner i (nth i outs []))
      /\ seeds' = seeds1 ++ map fst (concat outs) /\ regs' = regs ++ map snd (concat outs)
  | UB => (length surf < length corner)%nat \/ (length surf < length sizing)%nat \/ ~ linked edge corner
  | Fuel => True
  end.
Proof. intros [H1 (H2 & H3 & H4) H5 H6 H7 H8 H9]. apply ensure_spec; auto. Qed.

(** Every edge sphere in turn, towards its neighbour and then towards the neighbour on the
    other side, gets what [outcome] says; the given seeds keep their places and regions, and
    their sizes only shrink, to the largest ones with slope L. *)
Theorem C74_outcome fuel lfuel L seeds regs surf edge corner sizing dir3 dir2 seeds' regs' :
  edge_setting L seeds regs surf edge corner dir2 ->
  ensure_edge_seeds fuel lfuel L seeds regs surf edge corner sizing dir3 dir2 = Ok (seeds', regs') ->
  exists seeds1 outs,
    shrunk seeds seeds1 /\ near_slope L (1 / 10 ^ 10) seeds seeds1 /\ above_all_slopes L seeds seeds1
    /\ length outs = length edge
    /\ (forall i, (i < length edge)%nat -> edge_outcome seeds1 regs surf edge corner i (nth i outs []))
    /\ seeds' = seeds1 ++ map fst (concat outs) /\ regs' = regs ++ map snd (concat outs).
Proof.
  intros Hs E. pose proof (@setting_spec fuel lfuel L seeds regs surf edge corner sizing dir3 dir2 Hs) as G. rewrite E in G.
  destruct G as (seeds1 & outs & (S1 & _ & S2 & S3) & G). exists seeds1, outs. auto.
Qed.

(** With neighbours on both sides, and with no more corner spheres and sizing points than
    surface spheres, no array is read or written outside its bounds. *)
Theorem C74_no_undefined fuel lfuel L seeds regs surf edge corner sizing dir3 dir2 :
  edge_setting L seeds regs surf edge corner dir2 -> linked edge corner ->
  (length corner <= length surf)%nat -> (length sizing <= length surf)%nat ->
  ensure_edge_seeds fuel lfuel L seeds regs surf edge corner sizing dir3 dir2 <> UB.
Proof.
  intros Hs Hl H1 H2 E. pose proof (@setting_spec fuel lfuel L seeds regs surf edge corner sizing dir3 dir2 Hs) as G. rewrite E in G.
  destruct G as [G|[G|G]]; try lia. auto.
Qed.

Lemma outcome_length seeds regs surf so sn out : outcome seeds regs surf so sn out -> (length out <= 1)%nat.
Proof. intros (c & _ & [(_ & ->)|(_ & cand & _ & _ & [(-> & _)|(x & h & r & _ & _ & -> & _)])]); cbn; lia. Qed.
Lemma outcome_In seeds regs surf so sn out y r : outcome seeds regs surf so sn out -> In (y, r) out ->
  exists c x h, common_circle so sn c /\ on_circle so sn c x /\ usable seeds regs surf x h r /\ y = x ++ [rad c] /\ ~ surely_crowded seeds c.
Proof.
  intros (c & Hc & [(_ & ->)|(Hn & cand & _ & Hon & [(-> & _)|(x & h & r' & Hx & Hu & -> & _)])]) Hy; try contradiction.
  destruct Hy as [E|[]]. injection E as <- <-. exists c, x, h. split; auto. split; [apply (proj1 (Forall_forall _ _) Hon); auto|]. auto.
Qed.
Lemma cdist_app x a z : (3 <= length x)%nat -> cdist (x ++ [a]) z = cdist x z.
Proof. intros H. apply cdist_ext; auto. intros d Hd. rewrite app_nth1 by lia. reflexivity. Qed.

(** At most two seeds for each edge sphere, and one region for every seed. *)
Theorem C74_at_most_two fuel lfuel L seeds regs surf edge corner sizing dir3 dir2 seeds' regs' :
  edge_setting L seeds regs surf edge corner dir2 ->
  ensure_edge_seeds fuel lfuel L seeds regs surf edge corner sizing dir3 dir2 = Ok (seeds', regs') ->
  (length seeds <= length seeds' <= length seeds + 2 * length edge)%nat /\ length regs' = length seeds'
  /\ firstn (length seeds) regs' = regs
  /\ (forall i, (i < length seeds)%nat -> (forall d, (d < 3)%nat -> nth d (nth i seeds' []) 0 = nth d (nth i seeds []) 0)
        /\ rad (nth i seeds' []) <= rad (nth i seeds [])).
Proof.
  intros Hs E. destruct (@C74_outcome _ _ _ _ _ _ _ _ _ _ _ _ _ Hs E) as (seeds1 & outs & S1 & _ & _ & El & Ho & -> & ->).
  destruct (es_seeds Hs) as (_ & _ & Hr). destruct S1 as (Hl & Hsh).
  rewrite !app_length, !map_length.
  assert (Hc : (length (concat outs) <= 2 * length edge)%nat).
  { rewrite <- El. clear E.
    assert (H : forall o, In o outs -> (length o <= 2)%nat).
    { intros o Hin. apply In_nth with (d := []) in Hin. destruct Hin as (i & Hi & <-). rewrite El in Hi.
      destruct (Ho i Hi) as (sn1 & sn2 & o1 & o2 & _ & O1 & _ & O2 & ->). rewrite app_length.
      pose proof (outcome_length O1). pose proof (outcome_length O2). lia. }
    clear - H. induction outs as [|o outs IH]; cbn [concat length]; [lia|]. rewrite app_length.
    pose proof (H o (or_introl eq_refl)). specialize (IH (fun o' Ho' => H o' (or_intror Ho'))). lia. }
  split; [lia|]. split; [lia|]. split.
  - rewrite <- Hr, firstn_app, firstn_all, Nat.sub_diag. cbn [firstn]. apply app_nil_r.
  - intros i Hi. rewrite app_nth1 by lia. destruct (Hsh i Hi) as (_ & H1 & H2). auto.
Qed.

(** Every added seed is on an edge sphere and on the sphere of one of its two neighbours,
    outside every surface sphere, at least 1e-10 away from the given seeds, in the region of
    the nearest one, which is not the exterior; its size is the radius of the circle. *)
Theorem C74_added fuel lfuel L seeds regs surf edge corner sizing dir3 dir2 seeds' regs' k :
  edge_setting L seeds regs surf edge corner dir2 ->
  ensure_edge_seeds fuel lfuel L seeds regs surf edge corner sizing dir3 dir2 = Ok (seeds', regs') ->
  (length seeds <= k < length seeds')%nat ->
  let y := nth k seeds' [] in
  exists i first sn c, (i < length edge)%nat /\ neighbour edge corner i first sn
    /\ (first = None \/ exists sn0, first = Some sn0 /\ neighbour edge corner i None sn0)
    /\ cdist y (nth i edge []) = rad (nth i edge []) /\ cdist y sn = rad sn
    /\ common_circle (nth i edge []) sn c /\ rad y = rad c
    /\ (forall s, In s surf -> rad s - 1 / 10 ^ 10 <= cdist y s)
    /\ (exists p, nearest_sphere y seeds p /\ nth k regs' 0%nat = nth p regs 0%nat)
    /\ nth k regs' 0%nat <> 0%nat
    /\ (forall s, In s seeds -> 1 / 10 ^ 10 <= cdist y s).
Proof.
  intros Hs E Hk. cbn zeta. destruct (@C74_outcome _ _ _ _ _ _ _ _ _ _ _ _ _ Hs E) as (seeds1 & outs & (Hl & Hsh) & _ & _ & El & Ho & E1 & E2).
  destruct (es_seeds Hs) as (_ & _ & Hr).
  set (a := (k - length seeds)%nat).
  assert (Ha : (a < length (concat outs))%nat) by (rewrite E1, app_length, map_length in Hk; unfold a; lia).
  assert (Ey : nth k seeds' [] = fst (nth a (concat outs) ([], 0%nat))).
  { rewrite E1, app_nth2 by lia. rewrite Hl. fold a. rewrite <- (map_nth fst). reflexivity. }
  assert (Er : nth k regs' 0%nat = snd (nth a (concat outs) ([], 0%nat))).
  { rewrite E2, app_nth2 by lia. rewrite Hr. fold a. rewrite <- (map_nth snd). reflexivity. }
  assert (Hin : In (nth k seeds' [], nth k regs' 0%nat) (concat outs)).
  { rewrite Ey, Er, <- surjective_pairing. apply nth_In; auto. }
  apply in_concat in Hin. destruct Hin as (o & Hin & Hy). apply In_nth with (d := []) in Hin. destruct Hin as (i & Hi & <-). rewrite El in Hi.
  destruct (Ho i Hi) as (sn1 & sn2 & o1 & o2 & N1 & O1 & N2 & O2 & Eo). rewrite Eo in Hy. apply in_app_or in Hy.
  set (y := nth k seeds' []) in *. set (r := nth k regs' 0%nat) in *.
  assert (Hcd : forall z p, (p < length seeds)%nat -> cdist z (nth p seeds1 []) = cdist z (nth p seeds [])).
  { intros z p Hp. destruct (Hsh p Hp) as (_ & Hc & _). apply cdist_ext; auto. }
  assert (G : forall first sn out, neighbour edge corner i first sn -> outcome seeds1 regs surf (nth i edge []) sn out -> In (y, r) out ->
    exists c, common_circle (nth i edge []) sn c /\ cdist y (nth i edge []) = rad (nth i edge []) /\ cdist y sn = rad sn /\ rad y = rad c
    /\ (forall s, In s surf -> rad s - 1 / 10 ^ 10 <= cdist y s)
    /\ (exists p, nearest_sphere y seeds p /\ r = nth p regs 0%nat)
    /\ r <> 0%nat
    /\ (forall s, In s seeds -> 1 / 10 ^ 10 <= cdist y s)).
  { intros first sn out _ O Hy'. destruct (outcome_In _ _ O Hy') as (c & x & h & Hc & (P0 & P1 & P2 & P3) & (U1 & (p & (Np & Np') & Eh & Ep) & U3 & U4) & E' & _).
    assert (Hy3 : forall z, cdist y z = cdist x z) by (intros z; rewrite E'; apply cdist_app; lia).
    assert (Hry : rad y = rad c) by (rewrite E'; unfold rad at 1; rewrite app_nth2 by lia; rewrite P0; reflexivity).
    rewrite Hl in Np. exists c. rewrite !Hy3. split; auto. split; auto. split; auto. split; auto.
    split; [intros s Hin; rewrite Hy3; apply U1; auto|].
    split. { exists p. split; [|symmetry; apply nth_error_nth; auto]. split; auto. intros j Hj. rewrite !Hy3, <- !Hcd by auto. apply Np'. lia. }
    split; auto. intros s Hin. apply In_nth with (d := []) in Hin. destruct Hin as (j & Hj & <-). rewrite Hy3, <- Hcd by auto.
    pose proof (Np' j ltac:(lia)). lra. }
  destruct Hy as [Hy|Hy].
  - destruct (G None sn1 o1 N1 O1 Hy) as (c & G1 & G2 & G3 & G4 & G5 & G6 & G7 & G8). exists i, None, sn1, c. repeat (split; auto).
  - destruct (G (Some sn1) sn2 o2 N2 O2 Hy) as (c & G1 & G2 & G3 & G4 & G5 & G6 & G7 & G8). exists i, (Some sn1), sn2, c.
    split; auto. split; auto. split; [right; exists sn1; auto|]. repeat (split; auto).
Qed.

(** *** What goes wrong *)
(** A single edge sphere: the search for its neighbour finds nothing, iclosest is the number
    of edge spheres and not SIZE_MAX, and old_index is read outside its bounds. *)
Theorem C74_one_edge_sphere_refuted L seeds regs surf s corner dir2 :
  edge_setting L seeds regs surf [s] corner dir2 -> (length corner <= length surf)%nat ->
  exists m, forall fuel lfuel dir3, (m <= lfuel)%nat ->
    ensure_edge_seeds fuel lfuel L seeds regs surf [s] corner [] dir3 dir2 = UB.
Proof.
  intros [H1 (H2 & H3 & H4) H5 H6 H7 H8 H9] Hc.
  unfold ensure_edge_seeds. destruct (@index_tree_ok seeds H2) as (t & Et & HI).
  destruct (@lip_seeds_ok L seeds t (proj1 H1) HI H3) as (m & Hm). exists m. intros fuel lfuel dir3 Hf. rewrite Et. cbn [bind].
  destruct (Hm lfuel Hf) as (seeds1 & E1 & _). rewrite E1. cbn [bind].
  destruct (make_family_ok surf) as (sf & Es & Hsf). rewrite Es. cbn [bind].
  destruct (make_family_ok [s]) as (ef & Ee & Hef). rewrite Ee. cbn [bind].
  destruct (@undersized_ok surf corner Hc) as (cf & Ec & Hcf). rewrite Ec. cbn [bind].
  unfold undersized_family. cbn [length Nat.ltb Nat.leb]. replace (length surf <? 0)%nat with false by (symmetry; apply Nat.ltb_ge; lia).
  cbn [make_family bind for_res]. unfold edge_sphere at 1. rewrite (proj1 Hef). cbn [get nth_error bind].
  unfold side. pose proof Hef as (El & Ht). unfold edge_neighbour at 1. rewrite El.
  destruct (snd ef) as [[[[lk root] old] sorted]|]; [|discriminate Ht]. destruct Ht as (_ & Ht).
  assert (Hs3 : (3 <= length s)%nat). { pose proof (Forall_inv H6) as (Hs4 & _). lia. }
  destruct (@edge_search [s] 0 None ltac:(cbn; lia) Hs3 ltac:(discriminate) lk root old sorted Ht) as (b & Eb & N).
  cbn [dir_of option_map length] in Eb. cbn [length]. rewrite Eb. destruct b as [ic h]. cbn [bind fst snd] in *.
  destruct N as [(j & _ & (Hj & Hj0 & _) & _)|(Eu & _)]; [cbn in Hj; lia|]. rewrite Eu. reflexivity.
Qed.

(** In general a run can only end normally when every edge sphere has, on both sides, a
    neighbour that it meets. *)
Theorem C74_needs_neighbours fuel lfuel L seeds regs surf edge corner sizing dir3 dir2 out i :
  edge_setting L seeds regs surf edge corner dir2 ->
  ensure_edge_seeds fuel lfuel L seeds regs surf edge corner sizing dir3 dir2 = Ok out ->
  (i < length edge)%nat ->
  exists sn1 sn2, neighbour edge corner i None sn1 /\ cdist (nth i edge []) sn1 <= rad (nth i edge []) + rad sn1
    /\ neighbour edge corner i (Some sn1) sn2 /\ cdist (nth i edge []) sn2 <= rad (nth i edge []) + rad sn2.
Proof.
  intros Hs E Hi. destruct out as [seeds' regs']. destruct (@C74_outcome _ _ _ _ _ _ _ _ _ _ _ _ _ Hs E) as (seeds1 & outs & _ & _ & _ & El & Ho & _).
  destruct (Ho i Hi) as (sn1 & sn2 & o1 & o2 & N1 & (c1 & (_ & _ & _ & A1 & B1) & _) & N2 & (c2 & (_ & _ & _ & A2 & B2) & _) & _).
  assert (Hso : sphere (nth i edge [])) by (apply (proj1 (Forall_forall _ _) (es_edge Hs)), nth_In; auto).
  assert (G : forall so sn c, sphere so -> sphere sn -> cdist c so * cdist c so + rad c * rad c = rad so * rad so ->
    cdist c sn * cdist c sn + rad c * rad c = rad sn * rad sn -> cdist so sn <= rad so + rad sn).
  { intros so sn c (_ & H1) (_ & H2) A B. pose proof (cdist_triangle so c sn) as T. rewrite (cdist_sym so c) in T.
    pose proof (cdist_nonneg c so). pose proof (cdist_nonneg c sn).
    assert (cdist c so <= rad so) by (apply Rsqr_incr_0_var; auto; unfold Rsqr; pose proof (Rle_0_sqr (rad c)) as Q; unfold Rsqr in Q; lra).
    assert (cdist c sn <= rad sn) by (apply Rsqr_incr_0_var; auto; unfold Rsqr; pose proof (Rle_0_sqr (rad c)) as Q; unfold Rsqr in Q; lra).
    lra. }
  exists sn1, sn2. split; auto. split; [apply (G _ _ c1); auto; exact (neighbour_sphere (es_edge Hs) (es_corner Hs) N1)|].
  split; auto. apply (G _ _ c2); auto. exact (neighbour_sphere (es_edge Hs) (es_corner Hs) N2).
Qed.

(** Two edge spheres that overlap, and none beside: the second search of each finds nothing.
    The run never ends normally. *)
Theorem C74_two_edge_spheres_refuted fuel lfuel L seeds regs surf a b corner sizing dir3 dir2 out :
  edge_setting L seeds regs surf [a; b] corner dir2 -> 0 < cdist a b < rad a + rad b ->
  ensure_edge_seeds fuel lfuel L seeds regs surf [a; b] corner sizing dir3 dir2 <> Ok out.
Proof.
  intros Hs Hd E. destruct (@C74_needs_neighbours _ _ _ _ _ _ _ _ _ _ _ _ 0%nat Hs E ltac:(cbn; lia)) as (sn1 & sn2 & N1 & _ & N2 & _).
  destruct N1 as (j & (Hj & Hj0 & _) & D). assert (j = 1%nat) by (cbn in Hj; lia). subst j. cbn [nth] in D.
  destruct D as [(_ & ->)|(Hf & _)]; [|lra].
  destruct N2 as (j & (Hj' & Hj0' & Ha & _) & _). assert (j = 1%nat) by (cbn in Hj'; lia). subst j. cbn [nth allowed] in Ha.
  unfold beyond in Ha. pose proof (cdist_sq a b) as Q. rewrite dot3 in Ha. nra.
Qed.
(** So does a run with more corner spheres (or sizing points) than surface spheres. *)
Theorem C74_undersized_refuted fuel lfuel L seeds regs surf edge corner sizing dir3 dir2 out :
  (length surf < length corner)%nat \/ (length surf < length sizing)%nat ->
  ensure_edge_seeds fuel lfuel L seeds regs surf edge corner sizing dir3 dir2 <> Ok (out : list (list R) * list nat).
Proof.
  intros H. unfold ensure_edge_seeds. destruct (index_tree seeds) as [t| |]; cbn [bind]; try discriminate.
  destruct (lip_seeds _ _ _ _); cbn [bind]; try discriminate. destruct (make_family surf); cbn [bind]; try discriminate.
  destruct (make_family edge); cbn [bind]; try discriminate. unfold undersized_family.
  destruct (length surf <? length corner)%nat eqn:E1; cbn [bind]; try discriminate. destruct (make_family corner); cbn [bind]; try discriminate.
  destruct (length surf <? length sizing)%nat eqn:E2; cbn [bind]; try discriminate. apply Nat.ltb_ge in E1, E2. lia.
Qed.

(** *** A square of four edge spheres *)
Definition sq_edges : list (list R) := [[0;0;0;5]; [6;0;0;5]; [6;6;0;5]; [0;6;0;5]].
Definition sq_seeds : list (list R) := [[3;3;20;1]; [3;3;-20;1]].
Definition sq_surf : list (list R) := [[3;0;4;1]].
Lemma sq_dist a b : cdist a b * cdist a b =
  (nth 0 a 0 - nth 0 b 0) * (nth 0 a 0 - nth 0 b 0) + (nth 1 a 0 - nth 1 b 0) * (nth 1 a 0 - nth 1 b 0) + (nth 2 a 0 - nth 2 b 0) * (nth 2 a 0 - nth 2 b 0).
Proof. apply cdist_sq. Qed.
Lemma sq_side i j : (i < 4)%nat -> (j < 4)%nat -> j = ((i + 1) mod 4)%nat \/ j = ((i + 3) mod 4)%nat ->
  cdist (nth i sq_edges []) (nth j sq_edges []) = 6.
Proof.
  intros Hi Hj H. apply sq_eq; [apply cdist_nonneg|lra|]. rewrite sq_dist.
  destruct i as [|[|[|[|i]]]]; try lia; cbn in H; destruct H as [->| ->]; cbn [nth sq_edges]; lra.
Qed.
Lemma sq_diagonal i : (i < 4)%nat -> 8 < cdist (nth i sq_edges []) (nth ((i + 2) mod 4) sq_edges []).
Proof.
  intros Hi. apply Rsqr_incrst_0; [|lra|apply cdist_nonneg]. unfold Rsqr. rewrite sq_dist.
  destruct i as [|[|[|[|i]]]]; try lia; cbn; lra.
Qed.
Lemma sq_cases i j : (i < 4)%nat -> (j < 4)%nat -> j <> i ->
  (j = ((i + 1) mod 4)%nat \/ j = ((i + 3) mod 4)%nat) \/ j = ((i + 2) mod 4)%nat.
Proof. intros. destruct i as [|[|[|[|i]]]]; try lia; destruct j as [|[|[|[|j]]]]; try lia; cbn; auto. Qed.
Lemma sq_beyond i j k : (i < 4)%nat -> j = ((i + 1) mod 4)%nat \/ j = ((i + 3) mod 4)%nat -> (k < 4)%nat -> k <> i ->
  (beyond (nth i sq_edges []) (nth j sq_edges []) (nth k sq_edges []) <-> k <> j /\ k <> ((i + 2) mod 4)%nat).
Proof.
  intros Hi Hj Hk Hki. unfold beyond. rewrite dot3.
  destruct i as [|[|[|[|i]]]]; try lia; cbn in Hj; destruct Hj as [->| ->]; destruct k as [|[|[|[|k]]]]; try lia; cbn; split; intros; try lra; try lia.
Qed.
(** The two sides and the diagonal at corner i. *)
Lemma sq_around i : (i < 4)%nat -> exists p q d, (p < 4)%nat /\ (q < 4)%nat /\ (d < 4)%nat
  /\ (p <> i /\ q <> i /\ d <> i /\ p <> q /\ p <> d /\ q <> d)%nat
  /\ (forall j, (j < 4)%nat -> j <> i -> (j = p \/ j = q) \/ j = d)
  /\ (forall j, j = p \/ j = q -> cdist (nth i sq_edges []) (nth j sq_edges []) = 6)
  /\ 8 < cdist (nth i sq_edges []) (nth d sq_edges [])
  /\ (forall j k, j = p \/ j = q -> (k < 4)%nat -> k <> i ->
       (beyond (nth i sq_edges []) (nth j sq_edges []) (nth k sq_edges []) <-> k <> j /\ k <> d)).
Proof.
  intros Hi. assert (Hm4 : forall a, (a mod 4 < 4)%nat) by (intros a; apply Nat.mod_upper_bound; discriminate).
  exists ((i + 1) mod 4)%nat, ((i + 3) mod 4)%nat, ((i + 2) mod 4)%nat. split; [apply Hm4|]. split; [apply Hm4|]. split; [apply Hm4|]. split.
  { clear Hm4. destruct i as [|[|[|[|i]]]]; [cbn; repeat split; discriminate..|exfalso; lia]. }
  split; [intros j Hj Hji; apply sq_cases; assumption|]. split.
  { intros j Hj. apply sq_side; [assumption| |assumption]. destruct Hj as [->| ->]; apply Hm4. }
  split; [apply sq_diagonal; assumption|]. intros j k Hj Hk Hki. apply sq_beyond; assumption.
Qed.
Lemma sq_linked : linked sq_edges [].
Proof.
  intros i Hi. change (length sq_edges) with 4%nat in Hi.
  assert (Hrad : forall a, (a < 4)%nat -> rad (nth a sq_edges []) = 5).
  { intros a Ha. destruct a as [|[|[|[|a]]]]; try lia; reflexivity. }
  destruct (sq_around Hi) as (p & q & d & Hp & Hq & Hd & Hmi & Hcases & Hside & Hdiag & Hbey).
  assert (Hnone : forall j, next_edge sq_edges i None j -> j = p \/ j = q).
  { intros j (Hj & Hji & _ & Hmin). change (length sq_edges) with 4%nat in *. destruct (Hcases j Hj Hji) as [|E]; auto. exfalso.
    pose proof (Hmin p Hp ltac:(tauto) Logic.I) as H.
    rewrite (Hside p ltac:(auto)) in H. pose proof Hdiag. subst j. lra. }
  assert (Hmeet : forall j, (j < 4)%nat -> j = p \/ j = q -> meet (nth i sq_edges []) (nth j sq_edges [])).
  { intros j Hj H. unfold meet. rewrite (Hside j H), !Hrad by auto. rewrite Rminus_eq_0, Rabs_R0. lra. }
  assert (Hnb : forall first sn, neighbour sq_edges [] i first sn -> exists j, next_edge sq_edges i first j /\ sn = nth j sq_edges []).
  { intros first sn (j & Hj & [(_ & ->)|(_ & k & (Hk & _) & _)]); [exists j; auto|cbn in Hk; lia]. }
  assert (Hov : forall j, (j < 4)%nat -> j = p \/ j = q ->
    cdist (nth i sq_edges []) (nth j sq_edges []) < rad (nth i sq_edges []) + rad (nth j sq_edges [])).
  { intros j Hj H. rewrite (Hside j H), !Hrad by auto. lra. }
  split.
  - split.
    + exists p. split; [assumption|]. split; [tauto|]. split; [exact Logic.I|]. intros k Hk Hki _.
      rewrite (Hside p ltac:(auto)). change (length sq_edges) with 4%nat in Hk.
      destruct (Hcases k Hk Hki) as [H|H]; [rewrite (Hside k H); lra|subst k; pose proof Hdiag; lra].
    + intros j Hj. left. apply Hov; [apply Hj|auto].
  - intros sn Hn. destruct (Hnb _ _ Hn) as (j & Hj & ->). pose proof (Hnone j Hj) as Hjc. pose proof (proj1 Hj) as Hj4. change (length sq_edges) with 4%nat in Hj4.
    split; [apply Hmeet; auto|].
    set (o := if (j =? p)%nat then q else p).
    assert (Ho : (o < 4)%nat /\ o <> i /\ o <> j /\ o <> d /\ (o = p \/ o = q)).
    { unfold o. destruct (j =? p)%nat eqn:E; [apply Nat.eqb_eq in E|apply Nat.eqb_neq in E]; repeat split; auto; try assumption; try tauto; lia. }
    destruct Ho as (O1 & O2 & O3 & O4 & O5).
    assert (Hall : forall k, (k < 4)%nat -> k <> i -> allowed (nth i sq_edges []) (Some (nth j sq_edges [])) (nth k sq_edges []) -> k = o).
    { intros k Hk Hki Ha. cbn [allowed] in Ha. apply (Hbey j k Hjc Hk Hki) in Ha. destruct (Hcases k Hk Hki) as [H|H]; [|tauto].
      destruct H, O5, Hjc; lia. }
    assert (Hsome : forall k, next_edge sq_edges i (Some (nth j sq_edges [])) k -> k = o).
    { intros k (Hk & Hki & Ha & _). apply Hall; auto. }
    split.
    + split.
      * exists o. split; [exact O1|]. split; auto. split; [apply (Hbey j o Hjc O1 O2); auto|]. intros k Hk Hki Ha. rewrite (Hall k Hk Hki Ha). lra.
      * intros k Hk. rewrite (Hsome k Hk). left. apply Hov; auto.
    + intros sn' Hn'. destruct (Hnb _ _ Hn') as (k & Hk & ->). rewrite (Hsome k Hk). apply Hmeet; auto.
Qed.

Lemma near_big' x : x <= 100 -> x < @dbl_max R _.
Proof. intros H. apply Rle_lt_trans with 100; auto. unfold dbl_max. cbn [nofZ RNum]. apply IZR_lt. reflexivity. Qed.
Lemma sq_bound a b : cdist a b * cdist a b <= 50 * 50 -> cdist a b <= 50.
Proof. intros H. apply Rsqr_incr_0_var; [exact H|lra]. Qed.
Example C74_hypotheses : edge_setting (1/4) sq_seeds [1; 0]%nat sq_surf sq_edges [] (fun _ => [3/5; 4/5]) /\ linked sq_edges [].
Proof.
  split; [|exact sq_linked]. constructor.
  - lra.
  - split; [discriminate|]. split; [|reflexivity]. repeat constructor; unfold rad; cbn; lra.
  - intros a b [<-|[]] [<-|[]]. pose proof (cdist_nonneg [3;0;4;1] [3;0;4;1]). lra.
  - repeat constructor; unfold rad; cbn; lra.
  - constructor.
  - assert (Hin : forall so l, In so sq_edges -> (l = sq_edges \/ l = sq_seeds \/ l = sq_surf) -> forall s, In s l -> cdist so s <= 50).
    { intros so l Hso Hl s Hs. apply sq_bound. rewrite sq_dist.
      unfold sq_edges, sq_seeds, sq_surf in *. cbn [In] in Hso.
      destruct Hl as [->|[->| ->]]; cbn [In] in Hs; repeat (destruct Hso as [<-|Hso]); try contradiction;
        repeat (destruct Hs as [<-|Hs]); try contradiction; cbn [nth]; lra. }
    assert (Hr : forall so, In so sq_edges -> rad so = 5) by (intros so Hso; repeat (destruct Hso as [<-|Hso]; [reflexivity|]); contradiction).
    intros so Hso. split; [|split].
    + intros s Hs. apply near_big'. pose proof (Hin so sq_edges Hso ltac:(auto) s Hs). lra.
    + intros s [].
    + intros y Hy. rewrite (Hr so Hso) in Hy. split; intros s Hs; apply near_big'; pose proof (cdist_triangle y so s).
      * pose proof (Hin so sq_seeds Hso ltac:(auto) s Hs). lra.
      * pose proof (Hin so sq_surf Hso ltac:(auto) s Hs). lra.
  - intros k. cbn. lra.
Qed.

Notation fl := FloatInst.of_Z.
Definition f_edges : list (list PrimFloat.float) :=
  [[fl 0; fl 0; fl 0; fl 5]; [fl 6; fl 0; fl 0; fl 5]; [fl 6; fl 6; fl 0; fl 5]; [fl 0; fl 6; fl 0; fl 5]]%Z.
Definition f_dir (k : nat) : list PrimFloat.float := if Nat.even k then [fl 1; fl 0]%Z else [fl (-1); fl 0]%Z.
(** The square runs: the circle near the surface sphere gets no seed, the others get one from
    each of their two edge spheres (here at the same place, because added seeds are not
    searched), always in the interior region. *)
Example C74_run :
  ensure_edge_seeds 5 10 (PrimFloat.div (fl 1) (fl 4)) [[fl 3; fl 3; fl 20; fl 1]; [fl 3; fl 3; fl (-20); fl 1]]%Z [1; 0]%nat
    [[fl 3; fl 0; fl 4; fl 1]]%Z f_edges [] [] (fun _ => [fl 0; fl 0; fl 1]%Z) f_dir
  = Ok ([[3; 3; 20; 1]; [3; 3; -20; 1];
         [0; 3; 4; 4]; [6; 3; 4; 4]; [6; 3; 4; 4]; [3; 6; 4; 4]; [3; 6; 4; 4]; [0; 3; 4; 4]]%float, [1; 0; 1; 1; 1; 1; 1; 1]%nat).
Proof. vm_compute. reflexivity. Qed.
(** So added seeds need not be apart from each other: two of them are at one point. *)
Theorem C74_added_apart_refuted : exists seeds' regs',
  ensure_edge_seeds 5 10 (PrimFloat.div (fl 1) (fl 4)) [[fl 3; fl 3; fl 20; fl 1]; [fl 3; fl 3; fl (-20); fl 1]]%Z [1; 0]%nat
    [[fl 3; fl 0; fl 4; fl 1]]%Z f_edges [] [] (fun _ => [fl 0; fl 0; fl 1]%Z) f_dir = Ok (seeds', regs')
  /\ (3 < 4 < length seeds')%nat /\ nth 3 seeds' [] = nth 4 seeds' [].
Proof. eexists _, _. split; [exact C74_run|]. split; [cbn; lia|reflexivity]. Qed.
(** One edge sphere, as in the refutation. *)
Example C74_one_run :
  ensure_edge_seeds 5 10 (PrimFloat.div (fl 1) (fl 4)) [[fl 3; fl 3; fl 20; fl 1]; [fl 3; fl 3; fl (-20); fl 1]]%Z [1; 0]%nat
    [[fl 3; fl 0; fl 4; fl 1]]%Z [[fl 0; fl 0; fl 0; fl 5]]%Z [] [] (fun _ => [fl 0; fl 0; fl 1]%Z) f_dir = UB.
Proof. vm_compute. reflexivity. Qed.

Print Assumptions C74_outcome.
Print Assumptions C74_no_undefined.
Print Assumptions C74_at_most_two.
Print Assumptions C74_added.
Print Assumptions C74_one_edge_sphere_refuted.
Print Assumptions C74_needs_neighbours.
Print Assumptions C74_two_edge_spheres_refuted.
Print Assumptions C74_undersized_refuted.
Print Assumptions C74_added_apart_refuted.
