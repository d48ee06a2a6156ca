(** C07-C11, C56-C59: the spatial search trees. *)
From Verif Require Import Base Num MemoryHandler KdTree SamplingSpec SamplingProofs Vec KdSpec
  KdTreeProofs KdBuildProofs KdQueryProofs KdSpokeProofs KdReenumProofs SmartTree SmartTreeSpec
  SmartTreeProofs SmartQueryProofs SpokeFlatProofs.
From Coq Require Import Reals Lra.
Local Open Scope R_scope.

(** ** C07: every sequence of calls leaves a kd-tree of exactly the given points *)
Theorem C07_any_history (need : nat -> nat -> bool) nd x nv av ops :
  (0 < nd)%nat -> good_args nd x nv av -> Forall (good_op nd) ops ->
  let calls := OpAdd x nv av :: ops in
  exists s items, run need (st_new nd) calls = Ok s
    /\ ready s /\ st_nd s = nd /\ holds s items
    /\ Permutation items (added nd calls)
    /\ (~ In OpReenumerate ops -> items = added nd calls).
Proof.
  intros Hnd Hg Hops calls. destruct (@history_ok nd Hnd need x nv av ops Hg Hops) as (s & l & E & [I1 I2 I3 I4 I5] & _ & Pm & Ex).
  exists s, l. split; [exact E|]. split; [|split; [auto|split; [auto|split; [auto|]]]].
  - split; [rewrite I1; auto|]. split; [|split; [rewrite I1; exact I3|auto]].
    destruct I2 as (-> & _). intros He. apply map_eq_nil in He. subst l.
    apply Permutation_nil in Pm. discriminate.
  - intros Hn. apply Ex. apply Forall_forall. intros o Ho. destruct o; simpl; auto.
Qed.

Theorem C07_from_array nd pts :
  (0 < nd)%nat -> pts <> [] -> (forall p, In p pts -> (nd <= length p)%nat) ->
  exists s, st_of_points nd pts = Ok s /\ ready s /\ st_nd s = nd /\ st_pts s = pts.
Proof.
  intros Hnd Hp Hr. destruct (@of_points_ok nd Hnd pts Hr Hp) as (s & E & End & Ep & V & _).
  exists s. split; auto. split; auto. unfold ready. rewrite End, Ep. auto.
Qed.

Theorem C07_mesher_tree nd n pts :
  (0 < nd)%nat -> (0 < n)%nat -> (n * nd <= length pts)%nat ->
  exists lf rt root h t, flat_build nd pts n = Ok ((lf, rt), root, h)
    /\ kd_tree Rltb (flat_coord nd pts) nd n lf rt root t.
Proof. intros. apply flat_build_ok; auto. Qed.

(** Building a tree without points runs off the arrays, and a tree made from an
    array has no room for, and no normal of, another point. *)
Theorem C07_empty_build_refuted nd (pts : list R) (s : stree R) :
  flat_build nd pts 0 = UB /\ (st_pts s = [] -> st_build s = UB).
Proof.
  split; [reflexivity|]. intros H. unfold st_build, st_n. rewrite H. reflexivity.
Qed.
Theorem C07_insert_after_array_refuted need nd pts s x nv av :
  (0 < nd)%nat -> pts <> [] -> (forall p, In p pts -> (nd <= length p)%nat) -> good_args nd x nv av ->
  st_of_points nd pts = Ok s -> add_point need s x nv av = UB /\ st_reenumerate s = UB.
Proof.
  intros Hnd Hp Hr (Hx & Hnv & Hav) E.
  destruct (@of_points_ok nd Hnd pts Hr Hp) as (s' & E' & End & Ep & _ & (L1 & L2 & _)).
  assert (s' = s) by congruence. subst s'.
  assert (Hn : st_nrm s = None).
  { unfold st_of_points in E.
    apply bind_Ok_inv in E as (mn & _ & E). apply bind_Ok_inv in E as (mx & _ & E).
    unfold st_build in E. apply bind_Ok_inv in E as ([[lk o] h] & _ & E). injection E as <-. reflexivity. }
  split; [|unfold st_reenumerate; now rewrite Hn].
  unfold add_point. rewrite End.
  destruct (@zip_box_ok nmin (st_min s) x) as (mn & -> & _); [lia|].
  destruct (@zip_box_ok nmax (st_max s) x) as (mx & -> & _); [lia|]. cbn [bind].
  rewrite (@copy_normal_ok nd nv Hnv), (copy_attrib_ok Hav). cbn [bind].
  unfold st_n. rewrite Ep. destruct (length pts =? 0)%nat eqn:E0.
  - apply Nat.eqb_eq in E0. destruct pts; [congruence|discriminate].
  - now rewrite Hn.
Qed.

Definition example_ops : list (op R) :=
  [OpAdd [5; 1] None None; OpAdd [2; 4] (Some [0; 1]) (Some [3; 7; 8]%nat); OpBuild; OpReenumerate;
   OpAdd [5; 1] None (Some [1]%nat)].
Example C07_hypotheses : Forall (good_op 2) example_ops
  /\ (forall p, In p [[1; 2]; [3; 4]; [1; 2]] -> (2 <= length p)%nat).
Proof.
  split.
  - unfold example_ops.
    repeat match goal with |- Forall _ (_ :: _) => constructor | |- Forall _ [] => constructor end;
      try exact I; (split; [reflexivity|]); split; intros l Hl; try discriminate; injection Hl as <-; cbn;
      try lia; (split; [discriminate|lia]).
  - intros p [<-|[<-|[<-|[]]]]; reflexivity.
Qed.
(** The same object on binary64: five points, two of them equal, rebuilt. *)
Example C07_run :
  let fl := FloatInst.of_Z in
  (s <- run auto_balance (st_new 2)
     [OpAdd [fl 5; fl 1] None None; OpAdd [fl 2; fl 4] None None; OpAdd [fl 9; fl 0] None None;
      OpAdd [fl 5; fl 1] None None; OpAdd [fl 7; fl 3] None None; OpBuild; OpReenumerate]%Z ;;
   Ok (st_lk s, st_org s, st_h s, fst (snd (match closest s (fun _ => true) [fl 6; fl 1]%Z dbl_max with
                                            | Ok r => r | _ => (9%nat, (9%nat, fl 0%Z)) end))))
  = Ok (([3; 1; 2; 3; 4], [1; 2; 2; 4; 4])%nat, 0%nat, 3%nat, 0%nat).
Proof. vm_compute. reflexivity. Qed.

(** ** C08: nearest stored point *)
Theorem C08_closest_point s marked x d0 :
  ready s -> (st_nd s <= length x)%nat -> 0 <= d0 ->
  exists b, closest s marked x d0 = Ok (0%nat, b)
    /\ nearest (dist_to s x) (fun j => marked j = true) (all_points s) (length (st_pts s), d0) b.
Proof. intros Hs. exact (@closest_ok s Hs marked x d0). Qed.

Theorem C08_closest_other_point s marked q d0 :
  ready s -> (q < length (st_pts s))%nat -> 0 <= d0 ->
  exists b, closest_to s marked q d0 = Ok b
    /\ nearest (dist_to s (nth q (st_pts s) [])) (fun j => marked j = true /\ j <> q) (all_points s)
         (length (st_pts s), d0) b.
Proof. intros Hs. exact (@closest_to_ok s Hs marked q d0). Qed.

Theorem C08_closest_not_excluded s marked ex x d0 :
  ready s -> (st_nd s <= length x)%nat -> 0 <= d0 ->
  exists b, closest_except s marked ex x d0 = Ok b
    /\ nearest (dist_to s x) (fun j => marked j = true /\ ~ In j ex) (all_points s) (length (st_pts s), d0) b.
Proof. intros Hs. exact (@closest_except_ok s Hs marked ex x d0). Qed.

Theorem C08_closest_among_first s m x d0 :
  ready s -> (st_nd s <= length x)%nat -> 0 <= d0 ->
  exists b, closest_upto s m x d0 = Ok b
    /\ nearest (dist_to s x) (fun j => (j <= m)%nat) (all_points s) (length (st_pts s), d0) b.
Proof. intros Hs. exact (@closest_upto_ok s Hs m x d0). Qed.

(** With an initial distance that some point beats, the answer is a point at the
    least distance. *)
Theorem C08_is_minimum s x d0 :
  ready s -> (st_nd s <= length x)%nat -> (exists j, In j (all_points s) /\ dist_to s x j < d0) -> 0 <= d0 ->
  exists i, closest s (fun _ => true) x d0 = Ok (0%nat, (i, dist_to s x i))
    /\ (i < length (st_pts s))%nat /\ forall j, (j < length (st_pts s))%nat -> dist_to s x i <= dist_to s x j.
Proof.
  intros Hs Hx (j & Hj & Hd) H0. destruct (@closest_ok s Hs (fun _ => true) x d0 Hx H0) as (b & E & N).
  destruct N as [(-> & N)|(i & Hi & _ & -> & _ & N)].
  - specialize (N j Hj eq_refl). simpl in N. lra.
  - exists i. split; auto. apply in_seq in Hi. split; [lia|]. intros k Hk. apply N; auto. apply in_seq. lia.
Qed.

(** An empty tree answers "none" to one of the overloads only; the others read
    arrays that do not exist. *)
Theorem C08_empty_tree (s : stree R) marked q x d0 :
  st_pts s = [] -> st_lk s = ([], []) ->
  closest s marked x d0 = Ok (1%nat, (0%nat, d0))
  /\ closest_to s marked q d0 = UB.
Proof.
  intros H1 H2. unfold closest, closest_to, st_n. rewrite H1. split; auto. destruct q; reflexivity.
Qed.

Definition two_points : stree R :=
  ST 2 2 [[0; 0]; [3; 4]] (Some [[0; 0]; [0; 1]]) (Some [None; None]) ([0; 1], [1; 1])%nat 0 2 [0; 0] [3; 4].
Lemma two_points_ready : ready two_points.
Proof.
  split; [simpl; lia|]. split; [discriminate|]. split.
  - intros p [<-|[<-|[]]]; reflexivity.
  - exists (Node 0 Leaf (Node 1 Leaf Leaf)). split; [|reflexivity].
    split; auto. split; auto. split; [eauto|]. split; [simpl; auto 10|]. split; [reflexivity|].
    cbn. unfold coord. cbn. split; [intros j []|]. split.
    + intros j [<-|[]]. cbn. apply Rltb_true. lra.
    + split; [exact I|]. split; [intros j []|]. split; [intros j []|]. split; exact I.
Qed.
Example C08_hypotheses : ready two_points /\ exists j, In j (all_points two_points) /\ dist_to two_points [1; 1] j < 2.
Proof.
  split; [apply two_points_ready|]. exists 0%nat. split; [simpl; auto 10|].
  unfold dist_to, edist, sqdist, coord, two_points. cbn [st_nd st_pts seq map nth]. rs.
  replace 2 with (sqrt 4) at 1 by (replace 4 with (2 * 2) by lra; apply sqrt_square; lra).
  apply sqrt_lt_1; lra.
Qed.

(** ** C09: nearest seed in the mesher, on one side of a point *)
Theorem C09_closest_seed nd n pts lf rt root t x d0 :
  (0 < nd)%nat -> (n * nd <= length pts)%nat -> kd_tree Rltb (flat_coord nd pts) nd n lf rt root t ->
  (nd <= length x)%nat ->
  exists b, flat_closest nd pts n (lf, rt) root x d0 = Ok (0%nat, b)
    /\ nearest (edist nd (flat_coord nd pts) x) (fun _ => True) (seq 0 n) (n, d0) b.
Proof. intros H1 H2 K Hx. exact (@flat_closest_ok nd n pts H1 H2 lf rt root t K x d0 Hx). Qed.

Theorem C09_closest_seed_ahead nd n pts lf rt root t x dir d0 :
  (0 < nd)%nat -> (n * nd <= length pts)%nat -> kd_tree Rltb (flat_coord nd pts) nd n lf rt root t ->
  (nd <= length x)%nat -> (forall e, dir = Some e -> (nd <= length e)%nat) ->
  exists b, flat_closest_dir nd pts n (lf, rt) root x dir d0 = Ok (0%nat, b)
    /\ nearest (edist nd (flat_coord nd pts) x) (on_side nd pts x dir) (seq 0 n) (n, d0) b.
Proof. intros H1 H2 K Hx. exact (@flat_closest_dir_ok nd n pts H1 H2 lf rt root t K x dir d0 Hx). Qed.

Theorem C09_closest_other_seed_ahead nd n pts lf rt root t q dir d0 :
  (0 < nd)%nat -> (n * nd <= length pts)%nat -> kd_tree Rltb (flat_coord nd pts) nd n lf rt root t ->
  (q < n)%nat -> (forall e, dir = Some e -> (nd <= length e)%nat) ->
  exists b, flat_closest_to nd pts n (lf, rt) root q dir d0 = Ok (0%nat, b)
    /\ nearest (edist nd (flat_coord nd pts) (flat_row nd pts q))
         (fun j => on_side nd pts (flat_row nd pts q) dir j /\ j <> q) (seq 0 n) (n, d0) b.
Proof. intros H1 H2 K Hq. exact (@flat_closest_to_ok nd n pts H1 H2 lf rt root t K q dir d0 Hq). Qed.

Example C09_hypotheses : kd_tree Rltb (flat_coord 2 [0; 0; 3; 4]) 2 2 [0; 1]%nat [1; 1]%nat 0 (Node 0 Leaf (Node 1 Leaf Leaf)).
Proof.
  split; auto. split; auto. split; [eauto|]. split; [simpl; auto 10|]. split; [reflexivity|].
  cbn. unfold flat_coord. cbn. split; [intros j []|]. split.
  - intros j [<-|[]]. cbn. apply Rltb_true. lra.
  - split; [exact I|]. split; [intros j []|]. split; [intros j []|]. split; exact I.
Qed.

(** ** C10: all points in a ball *)
Theorem C10_points_in_ball s marked x r :
  ready s -> (st_nd s <= length x)%nat ->
  exists out, points_in_sphere s marked x r = Ok out
    /\ collects (fun j => marked j = true)
         (fun j => sqdist (st_nd s) (coord (st_pts s)) x j < (1 + 2 / 10 ^ 6) * r * r)
         (fun j => dist_to s x j < r) (all_points s) [] out.
Proof. intros Hs. exact (@points_in_sphere_ok s Hs marked x r). Qed.

Theorem C10_points_in_ball_among_first s m x r :
  ready s -> (st_nd s <= length x)%nat ->
  exists out, points_in_sphere_upto s m x r = Ok out
    /\ collects (fun j => (j <= m)%nat)
         (fun j => sqdist (st_nd s) (coord (st_pts s)) x j < r * r + 1 / 10 ^ 6)
         (fun j => dist_to s x j < r) (all_points s) [] out.
Proof. intros Hs. exact (@points_in_sphere_upto_ok s Hs m x r). Qed.

Theorem C10_seeds_in_ball nd n pts lf rt root t x r :
  (0 < nd)%nat -> (n * nd <= length pts)%nat -> kd_tree Rltb (flat_coord nd pts) nd n lf rt root t ->
  (nd <= length x)%nat ->
  exists out, flat_in_sphere nd pts n (lf, rt) root x r = Ok out
    /\ collects (fun _ => True) (fun j => sqdist nd (flat_coord nd pts) x j < (1 + 2 / 10 ^ 6) * r * r)
         (fun j => edist nd (flat_coord nd pts) x j < r) (seq 0 n) [] out.
Proof. intros H1 H2 K Hx. exact (@flat_in_sphere_ok nd n pts H1 H2 lf rt root t K x r Hx). Qed.

(** Points in the tolerance shell r <= d < r sqrt(1+2e-6) may or may not be
    returned: the query uses the bound for the points but not for pruning. *)
Definition shell_tree : stree R :=
  ST 2 2 [[1; 5]; [1 + 5 / 10 ^ 7; 0]] None None ([0; 1], [1; 1])%nat 0 2 [1; 0] [1 + 5 / 10 ^ 7; 5].
Theorem C10_shell_refuted :
  ready shell_tree
  /\ sqdist 2 (coord (st_pts shell_tree)) [0; 0] 1 < (1 + 2 / 10 ^ 6) * 1 * 1
  /\ points_in_sphere shell_tree (fun _ => true) [0; 0] 1 = Ok [].
Proof.
  split; [|split].
  - split; [simpl; lia|]. split; [discriminate|]. split.
    + intros p [<-|[<-|[]]]; reflexivity.
    + exists (Node 0 Leaf (Node 1 Leaf Leaf)). split; [|reflexivity].
      split; auto. split; auto. split; [eauto|]. split; [simpl; auto 10|]. split; [reflexivity|].
      cbn. unfold coord. cbn. split; [intros j []|]. split.
      * intros j [<-|[]]. cbn. apply Rltb_true. lra.
      * split; [exact I|]. split; [intros j []|]. split; [intros j []|]. split; exact I.
  - unfold sqdist, coord, shell_tree. cbn [st_pts seq map nth]. rs. lra.
  - unfold points_in_sphere, st_n, shell_tree. cbn [st_pts st_nd st_lk st_org length in_sphere wrap].
    rewrite sphere_bound_R. unfold dst_sq. cbn [dst_sq_from get nth_error row_crd bind].
    unfold get. cbn. unfold n0. cbn.
    rcase; [lra|]. cbn. rcase; [lra|]. reflexivity.
Qed.

(** ** C11: re-enumeration keeps the points and their data, and the tree *)
Theorem C11_reenumerate s items :
  ready s -> (length (st_pts s) < st_cap s)%nat -> holds s items ->
  exists s' items', st_reenumerate s = Ok s' /\ ready s' /\ st_nd s' = st_nd s
    /\ holds s' items' /\ Permutation items' items
    /\ st_min s' = st_min s /\ st_max s' = st_max s /\ st_org s' = 0%nat.
Proof.
  intros (H1 & H2 & H3 & H4) Hc Hh.
  assert (Hne : items <> []).
  { intros ->. destruct Hh as (E & _). now rewrite E in H2. }
  destruct (@reenumerate_ok (st_nd s) H1 s items) as (s' & l' & E & [I1 I2 I3 I4 I5] & Pm & M1 & M2 & O & _); auto.
  { split; auto. }
  exists s', l'. split; auto. split; [|auto 10].
  split; [rewrite I1; auto|]. split; [|split; [rewrite I1; exact I3|auto]].
  destruct I2 as (-> & _). intros He. apply map_eq_nil in He. subst l'. apply Permutation_nil in Pm. auto.
Qed.

(** Queries give the same distance before and after. *)
Theorem C11_same_answers s items s' x d0 :
  ready s -> (length (st_pts s) < st_cap s)%nat -> holds s items -> st_reenumerate s = Ok s' ->
  (st_nd s <= length x)%nat -> 0 <= d0 ->
  exists i i' d, closest s (fun _ => true) x d0 = Ok (0%nat, (i, d))
    /\ closest s' (fun _ => true) x d0 = Ok (0%nat, (i', d))
    /\ ((i < length (st_pts s))%nat <-> (i' < length (st_pts s'))%nat).
Proof.
  intros Hs Hc Hh E Hx H0.
  destruct (C11_reenumerate Hs Hc Hh) as (s1 & it' & E1 & Hs' & End & Hh' & Pm & _).
  rewrite E in E1. injection E1 as <-.
  assert (PP : Permutation (st_pts s') (st_pts s)).
  { destruct Hh as (-> & _). destruct Hh' as (-> & _). now apply Permutation_map. }
  assert (Go : forall (a b : stree R), Permutation (st_pts a) (st_pts b) -> st_nd a = st_nd b ->
            forall j, In j (all_points a) -> exists k, In k (all_points b) /\ dist_to b x k = dist_to a x j).
  { intros a b P En j Hj. apply in_seq in Hj.
    assert (In (nth j (st_pts a) []) (st_pts b)) as Hin by (eapply Permutation_in; [exact P|apply nth_In; lia]).
    destruct (@In_nth _ _ _ [] Hin) as (k & Hk & Ek). exists k. split; [apply in_seq; lia|].
    unfold dist_to, edist, sqdist, coord. now rewrite En, Ek. }
  pose proof (Go _ _ PP End) as G1. pose proof (Go _ _ (Permutation_sym PP) (eq_sym End)) as G2.
  assert (Hx' : (st_nd s' <= length x)%nat) by lia.
  destruct (@closest_ok s Hs (fun _ => true) x d0 Hx H0) as (b & Eb & Nb).
  destruct (@closest_ok s' Hs' (fun _ => true) x d0 Hx' H0) as (b' & Eb' & Nb').
  rewrite Eb, Eb'.
  destruct Nb as [(-> & N)|(i & Hi & _ & -> & Hlt & N)]; destruct Nb' as [(-> & N')|(i' & Hi' & _ & -> & Hlt' & N')]; cbn [snd] in *.
  - exists (length (st_pts s)), (length (st_pts s')), d0. repeat split; auto; lia.
  - destruct (G1 i' Hi') as (k & Hk & Ek). specialize (N k Hk eq_refl). lra.
  - destruct (G2 i Hi) as (k & Hk & Ek). specialize (N' k Hk eq_refl). lra.
  - exists i, i', (dist_to s x i). apply in_seq in Hi as Hi2. apply in_seq in Hi' as Hi2'.
    repeat split; auto; try lia. f_equal. f_equal. f_equal.
    destruct (G1 i' Hi') as (k & Hk & Ek). specialize (N k Hk eq_refl).
    destruct (G2 i Hi) as (k' & Hk' & Ek'). specialize (N' k' Hk' eq_refl). lra.
Qed.

(** The new numbering follows the traversal of the tree: node, right, left. *)
Theorem C11_order {F} (ltb : F -> F -> bool) P nd n lf rt root t :
  kd_tree ltb P nd n lf rt root t ->
  exists lf' rt' t', re_enumerate n (lf, rt) root = Ok ((lf', rt'), 0%nat, elements t)
    /\ kd_tree ltb (fun i => P (nth i (elements t) 0%nat)) nd n lf' rt' 0 t'
    /\ elements t' = seq 0 n /\ height t' = height t.
Proof. exact (@re_enumerate_ok F ltb P nd n lf rt root t). Qed.

Theorem C11_mesher pts n lf rt root t :
  (n * 3 <= length pts)%nat -> kd_tree Rltb (flat_coord 3 pts) 3 n lf rt root t ->
  exists lf' rt' ord sorted t', flat_reenumerate 3 pts n (lf, rt) root = Ok ((lf', rt'), 0%nat, ord, sorted)
    /\ Permutation ord (seq 0 n) /\ length sorted = (n * 3)%nat
    /\ (forall i d, (i < n)%nat -> (d < 3)%nat -> flat_coord 3 sorted i d = flat_coord 3 pts (nth i ord 0%nat) d)
    /\ kd_tree Rltb (flat_coord 3 sorted) 3 n lf' rt' 0 t' /\ elements t' = seq 0 n.
Proof. exact (@flat_reenumerate_ok pts n lf rt root t). Qed.

Definition two_points_big : stree R :=
  ST 2 100 (st_pts two_points) (st_nrm two_points) (st_att two_points) (st_lk two_points) 0 2 [0; 0] [3; 4].
Example C11_hypotheses : ready two_points_big /\ (length (st_pts two_points_big) < st_cap two_points_big)%nat
  /\ holds two_points_big [It [0; 0] [0; 0] None; It [3; 4] [0; 1] None].
Proof.
  split; [exact two_points_ready|]. split; [|split; [|split]; reflexivity].
  apply Nat.ltb_lt. reflexivity.
Qed.

(** ** C56: trimming a spoke *)
Theorem C56_trim_spoke s marked involved c o dir len nb :
  ready s ->
  (st_nd s <= length c)%nat -> (st_nd s <= length o)%nat -> (st_nd s <= length dir)%nat ->
  norm (st_nd s) (vec dir) = 1 -> 0 <= len -> involved = [] \/ len = dbl_max ->
  exists b, trim_spoke s marked involved c o dir len nb = Ok b
    /\ nearest (cut (st_nd s) (coord (st_pts s)) c o dir)
         (fun j => (marked j = true /\ ~ In j involved) /\ heads_to (st_nd s) (coord (st_pts s)) c dir j)
         (all_points s) (nb, len) b.
Proof.
  intros Hs Hc Ho Hd Hu Hl Hcase.
  exact (@trim_spoke_ok s Hs c o dir Hc Ho Hd Hu marked involved len nb Hl Hcase).
Qed.

(** What the cut is: where the spoke meets the bisector of the two seeds. *)
Theorem C56_cut_is_bisector nd P c o dir j :
  heads_to nd P c dir j ->
  let y := fun k => vec o k + cut nd P c o dir j * vec dir k in
  vdist nd (vec o) (vec c) <= vdist nd (vec o) (P j) ->
  vdist nd y (vec c) = vdist nd y (P j).
Proof.
  intros Hh y Ho. unfold cut in y. unfold heads_to in Hh.
  set (e := dot nd (vec dir) (fun k => P j k - vec c k)) in *.
  assert (He : 0 < e) by (assert (0 < 1 / 10 ^ 8) by (apply Rdiv_lt_0_compat; [lra|apply pow_lt; lra]); lra).
  set (g := dot nd (fun k => (P j k + vec c k) / 2 - vec o k) (fun k => P j k - vec c k)) in *.
  (* |z - c|^2 - |z - p|^2 = 2 (z - mid).(p - c) *)
  assert (Q : forall z, dot nd (fun k => z k - vec c k) (fun k => z k - vec c k)
                        - dot nd (fun k => z k - P j k) (fun k => z k - P j k)
                      = 2 * dot nd (fun k => z k - (P j k + vec c k) / 2) (fun k => P j k - vec c k)).
  { intros z. unfold dot. rewrite <- sumn_minus, <- sumn_scal. apply sumn_ext. intros; lra. }
  assert (Hg : dot nd (fun k => vec o k - (P j k + vec c k) / 2) (fun k => P j k - vec c k) = - g).
  { unfold g, dot. replace (- sumn nd (fun k : nat => ((P j k + vec c k) / 2 - vec o k) * (P j k - vec c k)))
      with ((-1) * sumn nd (fun k : nat => ((P j k + vec c k) / 2 - vec o k) * (P j k - vec c k))) by lra.
    rewrite <- sumn_scal. apply sumn_ext. intros; lra. }
  assert (Hg0 : 0 <= g).
  { specialize (Q (vec o)). rewrite Hg in Q. unfold vdist, norm in Ho.
    apply sqrt_le_0 in Ho; [lra| |]; apply sumn_nonneg; intros; apply Rle_0_sqr. }
  assert (Hy : dot nd (fun k => y k - (P j k + vec c k) / 2) (fun k => P j k - vec c k) = - g + (g / e) * e).
  { rewrite <- Hg. unfold e at 2, dot. rewrite <- sumn_scal, <- sumn_plus. apply sumn_ext. intros k _.
    unfold y. rewrite Rmax_right by exact Hg0. unfold Rdiv. ring. }
  specialize (Q y). rewrite Hy in Q. unfold vdist, norm. f_equal.
  replace (g / e * e) with g in Q by (field; lra). lra.
Qed.

Example C56_hypotheses : norm 2 (vec [3 / 5; 4 / 5]) = 1
  /\ heads_to 2 (coord (st_pts two_points)) [0; 0] [3 / 5; 4 / 5] 1
  /\ cut 2 (coord (st_pts two_points)) [0; 0] [0; 0] [3 / 5; 4 / 5] 1 = 5 / 2.
Proof.
  unfold norm, heads_to, cut, coord, vec, dot, sumn. cbn [seq map st_pts two_points nth]. rs.
  split; [|split; [lra|]].
  - replace (_ + _) with (1 * 1) by field. apply sqrt_square. lra.
  - rewrite Rmax_right by lra. field.
Qed.

(** ** C57: a balanced tree is balanced when no two points share a coordinate *)
Theorem C57_balanced {F} (ltb : F -> F -> bool) P nd crd n right_first :
  strict_weak ltb -> (0 < nd)%nat -> (0 < n)%nat ->
  (forall i d, (i < n)%nat -> (d < nd)%nat -> crd i d = Ok (P i d)) ->
  (forall i j d, (i < n)%nat -> (j < n)%nat -> i <> j -> (d < nd)%nat ->
      ltb (P i d) (P j d) = true \/ ltb (P j d) (P i d) = true) ->
  exists lf rt root h t, build ltb crd nd right_first n = Ok ((lf, rt), root, h)
    /\ kd_tree ltb P nd n lf rt root t
    /\ Nat.max 1 h = height t /\ (height t <= Nat.log2 n + 1)%nat.
Proof.
  intros SW Hnd Hn Hc Hd.
  destruct (@build_ok F ltb SW P nd Hnd crd n Hc right_first Hn) as (lf & rt & root & h & t & E & K & Hh & B & _).
  exists lf, rt, root, h, t. split; auto. split; auto. split; auto. apply B.
  intros i j d Hi Hj Hij Hdn. apply in_seq in Hi. apply in_seq in Hj. apply Hd; auto; lia.
Qed.

(** With equal coordinates the "balanced" tree is a list. *)
Theorem C57_duplicates_refuted {F} (ltb : F -> F -> bool) P nd crd n right_first :
  strict_weak ltb -> (0 < nd)%nat -> (0 < n)%nat ->
  (forall i d, (i < n)%nat -> (d < nd)%nat -> crd i d = Ok (P i d)) ->
  (forall i j d, ltb (P i d) (P j d) = false) ->
  exists lf rt root h t, build ltb crd nd right_first n = Ok ((lf, rt), root, h)
    /\ kd_tree ltb P nd n lf rt root t /\ height t = n.
Proof.
  intros SW Hnd Hn Hc Hd. exact (@build_equal_height F ltb SW P nd Hnd crd n Hc right_first Hn Hd).
Qed.

Example C57_hypotheses : forall i j d, (i < 3)%nat -> (j < 3)%nat -> i <> j -> (d < 2)%nat ->
  let P := coord [[1; 9]; [4; 2]; [0; 5]] in Rltb (P i d) (P j d) = true \/ Rltb (P j d) (P i d) = true.
Proof.
  intros i j d Hi Hj Hij Hd. cbv zeta. rewrite !Rltb_true.
  destruct i as [|[|[|i]]]; try lia; destruct j as [|[|[|j]]]; try lia; destruct d as [|[|d]]; try lia;
    unfold coord; cbn [nth]; lra.
Qed.

(** ** C58: the bounding box is exact *)
Theorem C58_bounding_box (need : nat -> nat -> bool) nd x nv av ops :
  (0 < nd)%nat -> good_args nd x nv av -> Forall (good_op nd) ops ->
  let calls := OpAdd x nv av :: ops in
  (forall a d, In a (added nd calls) -> Rabs (nth d (it_x a) 0) <= dbl_max) ->
  exists s, run need (st_new nd) calls = Ok s /\ length (st_min s) = nd /\ length (st_max s) = nd
    /\ forall d, (d < nd)%nat ->
         least (nth d (st_min s) 0) (fun a => nth d (it_x a) 0) (added nd calls)
         /\ greatest (nth d (st_max s) 0) (fun a => nth d (it_x a) 0) (added nd calls).
Proof.
  intros Hnd Hg Hops calls Hb. destruct (@history_ok nd Hnd need x nv av ops Hg Hops) as (s & l & E & _ & B & Pm & _).
  exists s. split; [exact E|]. split; [apply B|]. split; [apply B|].
  intros d Hd. apply (@box_exact nd s); auto; [discriminate|].
  eapply box_perm; [reflexivity|reflexivity|symmetry; exact Pm|exact B].
Qed.

(** ** C59: nearest point across a sharp feature *)
Theorem C59_closest_nonsmooth s nrm x tol thr d0 :
  ready s -> st_nrm s = Some nrm -> length nrm = length (st_pts s) ->
  (forall v, In v nrm -> (st_nd s <= length v)%nat) ->
  (st_nd s <= length x)%nat -> 0 <= d0 ->
  exists b, closest_nonsmooth s x tol thr d0 = Ok b
    /\ nearest (dist_to s x) (fun j => ~ smooth_from s nrm x tol thr j) (all_points s) (length (st_pts s), d0) b.
Proof. intros Hs H1 H2 H3. exact (@closest_nonsmooth_ok s Hs nrm H1 H2 H3 x tol thr d0). Qed.

Theorem C59_closest_nonsmooth_edge s nrm x tol thr d0 :
  ready s -> st_nrm s = Some nrm -> length nrm = length (st_pts s) ->
  (forall v, In v nrm -> (st_nd s <= length v)%nat) ->
  (st_nd s <= length x)%nat -> 0 <= d0 ->
  exists b, closest_nonsmooth_edge s x tol thr d0 = Ok b
    /\ nearest (dist_to s x) (fun j => ~ smooth_edge s nrm x tol thr j) (all_points s) (length (st_pts s), d0) b.
Proof. intros Hs H1 H2 H3. exact (@closest_nonsmooth_edge_ok s Hs nrm H1 H2 H3 x tol thr d0). Qed.

Theorem C59_closest_nonsmooth_normal s nrm x xn thr d0 :
  ready s -> st_nrm s = Some nrm -> length nrm = length (st_pts s) ->
  (forall v, In v nrm -> (st_nd s <= length v)%nat) ->
  (st_nd s <= length x)%nat -> (st_nd s <= length xn)%nat -> 0 <= d0 ->
  exists b, closest_nonsmooth_normal s x xn thr d0 = Ok b
    /\ nearest (dist_to s x) (fun j => ~ smooth_both s nrm x xn thr j) (all_points s) (length (st_pts s), d0) b.
Proof. intros Hs H1 H2 H3. exact (@closest_nonsmooth_normal_ok s Hs nrm H1 H2 H3 x xn thr d0). Qed.

Theorem C59_closest_nonsmooth_normals s nrm x ns thr d0 :
  ready s -> st_nrm s = Some nrm -> length nrm = length (st_pts s) ->
  (forall v, In v nrm -> (st_nd s <= length v)%nat) ->
  (st_nd s <= length x)%nat -> (forall u, In u ns -> (st_nd s <= length u)%nat) -> 0 <= d0 ->
  exists b, closest_nonsmooth_normals s x ns thr d0 = Ok b
    /\ nearest (dist_to s x) (fun j => ~ smooth_some s nrm x ns thr j) (all_points s) (length (st_pts s), d0) b.
Proof. intros Hs H1 H2 H3. exact (@closest_nonsmooth_normals_ok s Hs nrm H1 H2 H3 x ns thr d0). Qed.

Example C59_hypotheses : ready two_points /\ st_nrm two_points = Some [[0; 0]; [0; 1]]
  /\ ~ smooth_edge two_points [[0; 0]; [0; 1]] [0; 0] 0 (9 / 10) 1.
Proof.
  split; [apply two_points_ready|]. split; [reflexivity|].
  assert (N : norm 2 (offset two_points [0; 0] 1) = 5).
  { unfold norm, dot, sumn, offset, coord, vec. cbn. rs. replace (_ + _) with (5 * 5) by field. apply sqrt_square. lra. }
  unfold smooth_edge. cbn [st_nd two_points]. fold two_points. rewrite N. intros [(_ & H)|(H & _)]; [|lra].
  unfold cosine in H. rewrite N in H. unfold dot, sumn, offset, coord, normal_at, vec in H. cbn in H. rs.
  unfold Rabs in H. destruct (Rcase_abs _) in H; lra.
Qed.

Print Assumptions C07_any_history.
Print Assumptions C07_from_array.
Print Assumptions C07_mesher_tree.
Print Assumptions C07_empty_build_refuted.
Print Assumptions C07_insert_after_array_refuted.
Print Assumptions C08_closest_point.
Print Assumptions C08_closest_other_point.
Print Assumptions C08_closest_not_excluded.
Print Assumptions C08_closest_among_first.
Print Assumptions C08_is_minimum.
Print Assumptions C08_empty_tree.
Print Assumptions C09_closest_seed.
Print Assumptions C09_closest_seed_ahead.
Print Assumptions C09_closest_other_seed_ahead.
Print Assumptions C10_points_in_ball.
Print Assumptions C10_points_in_ball_among_first.
Print Assumptions C10_seeds_in_ball.
Print Assumptions C10_shell_refuted.
Print Assumptions C11_reenumerate.
Print Assumptions C11_same_answers.
Print Assumptions C11_order.
Print Assumptions C11_mesher.
Print Assumptions C56_trim_spoke.
Print Assumptions C56_cut_is_bisector.
Print Assumptions C57_balanced.
Print Assumptions C57_duplicates_refuted.
Print Assumptions C58_bounding_box.
Print Assumptions C59_closest_nonsmooth.
Print Assumptions C59_closest_nonsmooth_edge.
Print Assumptions C59_closest_nonsmooth_normal.
Print Assumptions C59_closest_nonsmooth_normals.
