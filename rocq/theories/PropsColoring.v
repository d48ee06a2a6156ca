(** C36: the regions given to the seeds. *)
From Coq Require Import Reals Lra.
From Verif Require Import Base Num SmartTree KdSpec SmartTreeSpec KdTree Graph GraphSpec GraphProofs Spheres Coloring ColoringSpec ColoringProofs SpheresSpec SpheresProofs PropsKdTree PropsSpheres.

(** For every set of pairs of seeds that are connected, the regions are the connected
    components; they are numbered 0 .. k with k the number of regions reported; region 0 is the
    component of the seed nearest to a corner outside the seeds; the others are numbered
    in the order of their first seeds. *)
Theorem C36_regions (s : stree R) cap (pairs : list (nat * nat)) :
  let n := length (st_pts s) in
  ready s -> st_nd s = 3 -> n <= cap ->
  pairs <> [] -> (forall i j, In (i, j) pairs -> i < n /\ j < n) ->
  (forall j d, j < n -> d < 3 -> (- dbl_max < coord (st_pts s) j d < dbl_max)%R) ->
  (forall x, pushed_corner s x -> exists j, j < n /\ (dist_to s x j < dbl_max)%R) ->
  exists g regions k far outer,
    grun (g_new n cap) (map (fun e => GConnectNodes (fst e) (snd e)) pairs) = Ok g
    /\ color_seeds any s g (repeat 0 n) = Ok (Some k, regions, false)
    /\ length regions = n
    /\ pushed_corner s far /\ outer < n /\ (forall j, j < n -> (dist_to s far outer <= dist_to s far j)%R)
    /\ let region i := nth i regions 0 in
       (forall i j, i < n -> j < n -> (region i = region j <-> linked pairs i j))
       /\ (forall i, i < n -> region i <= k) /\ (forall c, c <= k -> exists i, i < n /\ region i = c)
       /\ (forall i, i < n -> (region i = 0 <-> linked pairs outer i))
       /\ (forall i j fi fj, i < n -> j < n -> region i <> 0 -> region j <> 0 ->
             first_linked n pairs i fi -> first_linked n pairs j fj -> (region i < region j <-> fi < fj)).
Proof.
  intros n Hs Hnd Hcap Hne Hrange Hbox Hdist.
  destruct (@connect_all_alloc n cap Hcap pairs (g_new n cap) [] eq_refl eq_refl eq_refl Hrange (or_introl Hne))
    as (g & E & Eg & HG & (gr & Egr & Lgr) & HE).
  set (nb := successors E).
  assert (HEin : forall a b, In (a, b) E <-> In (a, b) pairs \/ In (b, a) pairs).
  { intros a b. rewrite HE. cbn [In]. tauto. }
  assert (Hgood : good_graph n nb).
  { split; intros i j Hi Hj; apply successors_in, HEin in Hj.
    - destruct Hj as [Hj|Hj]; apply Hrange in Hj; tauto.
    - apply successors_in, HEin. tauto. }
  assert (Hnb : forall i, i < n -> exists o, graph_neighbors g i = Ok o /\ match o with None => [] | Some l => l end = nb i).
  { intros i Hi. pose proof (@neighbors_ok g E i HG) as HN. rewrite Egr in HN. destruct HN as (o & Eo & Ho); [lia|]. exists o. auto. }
  assert (HJ : forall i j, joined nb i j <-> linked pairs i j).
  { intros i j. split; induction 1 as [|i j m H1 IH H2]; try constructor.
    - econstructor; [exact IH|]. apply successors_in, HEin in H2. exact H2.
    - econstructor; [exact IH|]. apply successors_in, HEin. exact H2. }
  assert (Hn : 0 < n).
  { destruct Hs as (_ & Hp & _). unfold n. destruct (st_pts s); [congruence|cbn; lia]. }
  assert (HC0 : components n nb 0 (repeat 0 n)).
  { assert (Z : forall i c, nth_error (repeat 0 n) i = Some c -> c = 0).
    { intros i c Ei. apply nth_error_In, repeat_spec in Ei. auto. }
    split; [split; [apply repeat_length|split]|].
    - intros i c Ei. rewrite (Z _ _ Ei). lia.
    - intros i c Ei Hc. elim Hc. eauto.
    - exists []. split; auto. intros; lia. }
  destruct (@color_regions_ok n g nb Hnb Hgood (S n) 0 (repeat 0 n) HC0) as (r & col & Er & HC & HZ).
  { pose proof (zeros_le (repeat 0 n)). rewrite repeat_length in H. lia. }
  pose proof HC as ((Lc & Hb & Hcl) & firsts & Lf & Hf).
  assert (Hpos : forall i c, nth_error col i = Some c -> 0 < c).
  { intros i c Ei. destruct c; [apply zeros_pos in Ei|]; lia. }
  pose proof (@corner_ok s (proj1 (proj2 Hs)) Hbox) as Hfar.
  destruct (@C08_is_minimum s (far_corner (st_pts s)) dbl_max Hs) as (outer & Eo & Ho & Hmin).
  { rewrite Hnd. destruct Hfar as (-> & _). auto. }
  { destruct (Hdist _ Hfar) as (j & Hj & Hd). exists j. split; auto. apply in_seq. lia. }
  { left. apply dbl_max_pos. }
  destruct (nth_error_lt col (i := outer)) as (ghost & Egh); [fold n in Ho; lia|].
  assert (Hgh : 0 < ghost) by eauto.
  destruct (nth_error_lt col (i := 0)) as (c0 & Ec0); [lia|].
  assert (Hr : 0 < r) by (pose proof (Hb _ _ Ec0); pose proof (Hpos _ _ Ec0); lia).
  exists g, (map (shifted ghost) col), (r - 1), (far_corner (st_pts s)), outer.
  split; [exact Eg|]. split.
  { unfold color_seeds, st_n. fold n. rewrite Er. cbn [bind].
    replace (closest s any (far_corner (st_pts s)) dbl_max) with (closest s (fun _ => true) (far_corner (st_pts s)) dbl_max) by reflexivity.
    rewrite Eo. cbn [bind]. unfold get at 1. rewrite Egh. cbn [bind]. rewrite <- Lc, mark_ghost_ok. cbn [bind].
    destruct r; [lia|]. cbn [Nat.sub]. rewrite Nat.sub_0_r. reflexivity. }
  split; [now rewrite map_length|]. split; auto. split; auto. split; auto.
  cbv zeta.
  assert (Hreg : forall i, i < n -> exists c, nth_error col i = Some c /\ nth i (map (shifted ghost) col) 0 = shifted ghost c).
  { intros i Hi. destruct (nth_error_lt col (i := i) ltac:(lia)) as (c & Ec). exists c. split; auto.
    apply nth_error_nth. apply map_nth_error. exact Ec. }
  assert (Hsh : forall c, 0 < c -> c <= r -> shifted ghost c <= r - 1).
  { intros c H1 H2. unfold shifted. pose proof (Hb _ _ Egh). destruct (Nat.eqb_spec c ghost), (Nat.ltb_spec ghost c); lia. }
  assert (Hinj : forall c c', 0 < c -> 0 < c' -> shifted ghost c = shifted ghost c' -> c = c').
  { intros c c' H1 H2. unfold shifted. destruct (Nat.eqb_spec c ghost), (Nat.ltb_spec ghost c), (Nat.eqb_spec c' ghost), (Nat.ltb_spec ghost c'); lia. }
  assert (Hsame : forall i j c, i < n -> j < n -> nth_error col i = Some c -> (nth_error col j = Some c <-> linked pairs i j)).
  { intros i j c Hi Hj Ei. pose proof (Hpos _ _ Ei) as Hc. pose proof (Hb _ _ Ei) as Hcr. split.
    - intros Ej. apply HJ. destruct c as [|k]; [lia|]. destruct (Hf k ltac:(lia)) as (f & _ & Ef & Hcomp & _).
      destruct (Hcomp _ Ei) as (_ & J1). destruct (Hcomp _ Ej) as (_ & J2).
      eapply joined_trans; [|exact J2]. eapply (@joined_sym n nb Hgood); auto. apply nth_error_Some_lt in Ef. lia.
    - intros HL. apply HJ in HL. eapply (@closed_joined n nb r); eauto; [split; auto|lia]. }
  split; [|split; [|split; [|split]]].
  - intros i j Hi Hj. destruct (Hreg i Hi) as (ci & Ei & ->). destruct (Hreg j Hj) as (cj & Ej & ->).
    rewrite <- (Hsame i j ci Hi Hj Ei). rewrite Ej. split.
    + intros H. apply Hinj in H; eauto.
    + intros [= ->]. reflexivity.
  - intros i Hi. destruct (Hreg i Hi) as (ci & Ei & ->). apply Hsh; eauto.
  - intros c Hc.
    assert (exists c', 0 < c' <= r /\ shifted ghost c' = c) as (c' & Hc' & <-).
    { pose proof (Hb _ _ Egh). destruct (Nat.eq_dec c 0) as [->|].
      - exists ghost. split; [lia|]. unfold shifted. now rewrite Nat.eqb_refl.
      - destruct (Nat.lt_ge_cases c ghost); [exists c|exists (S c)]; (split; [lia|]); unfold shifted.
        + destruct (Nat.eqb_spec c ghost), (Nat.ltb_spec ghost c); lia.
        + destruct (Nat.eqb_spec (S c) ghost), (Nat.ltb_spec ghost (S c)); lia. }
    destruct c' as [|k]; [lia|]. destruct (Hf k ltac:(lia)) as (f & _ & Ef & _). assert (Hfn : f < n) by (apply nth_error_Some_lt in Ef; lia).
    exists f. split; auto. destruct (Hreg f Hfn) as (cf & Ef' & ->). congruence.
  - intros i Hi. destruct (Hreg i Hi) as (ci & Ei & ->). rewrite <- (Hsame outer i ghost Ho Hi Egh), Ei.
    pose proof (Hpos _ _ Ei). unfold shifted. destruct (Nat.eqb_spec ci ghost) as [->|]; [tauto|].
    split; [|congruence]. destruct (Nat.ltb_spec ghost ci); lia.
  - intros i j fi fj Hi Hj. destruct (Hreg i Hi) as (ci & Ei & ->). destruct (Hreg j Hj) as (cj & Ej & ->).
    intros Hni Hnj (Hfi & Lfi & Mfi) (Hfj & Lfj & Mfj).
    pose proof (Hpos _ _ Ei) as Pi. pose proof (Hpos _ _ Ej) as Pj. pose proof (Hb _ _ Ei) as Bi. pose proof (Hb _ _ Ej) as Bj.
    destruct ci as [|ki]; [lia|]. destruct cj as [|kj]; [lia|].
    destruct (Hf ki ltac:(lia)) as (f1 & _ & Ef1 & Hc1 & Hb1). destruct (Hf kj ltac:(lia)) as (f2 & _ & Ef2 & Hc2 & Hb2).
    assert (F1 : f1 < n) by (apply nth_error_Some_lt in Ef1; lia). assert (F2 : f2 < n) by (apply nth_error_Some_lt in Ef2; lia).
    assert (fi = f1) as ->.
    { apply (Hsame i fi _ Hi Hfi Ei) in Lfi. apply Hc1 in Lfi as (G1 & _).
      apply (Hsame i f1 _ Hi F1 Ei) in Ef1. specialize (Mfi _ F1 Ef1). lia. }
    assert (fj = f2) as ->.
    { apply (Hsame j fj _ Hj Hfj Ej) in Lfj. apply Hc2 in Lfj as (G1 & _).
      apply (Hsame j f2 _ Hj F2 Ej) in Ef2. specialize (Mfj _ F2 Ef2). lia. }
    assert (HA : ki < kj <-> f1 < f2).
    { split; intros HH.
      - destruct (Nat.lt_ge_cases f1 f2) as [|Hge]; auto. exfalso.
        destruct (Nat.eq_dec f1 f2) as [->|]; [rewrite Ef1 in Ef2; injection Ef2; lia|].
        destruct (Hb1 f2 ltac:(lia)) as (c & Ec & Hc). rewrite Ef2 in Ec. injection Ec as <-. lia.
      - destruct (Hb2 f1 HH) as (c & Ec & Hc). rewrite Ef1 in Ec. injection Ec as <-. lia. }
    rewrite <- HA. revert Hni Hnj. unfold shifted.
    destruct (Nat.eqb_spec (S ki) ghost), (Nat.ltb_spec ghost (S ki)), (Nat.eqb_spec (S kj) ghost), (Nat.ltb_spec ghost (S kj)); lia.
Qed.

(** If no two seeds are connected there is no graph, and reading it is undefined. *)
Theorem C36_no_pairs_refuted (s : stree R) cap :
  st_pts s <> [] -> color_seeds any s (g_new (length (st_pts s)) cap) (repeat 0 (length (st_pts s))) = UB.
Proof.
  intros H. unfold color_seeds, st_n. destruct (st_pts s) as [|p l]; [congruence|]. reflexivity.
Qed.
(** Without seeds the exterior is read from an empty array. *)
Theorem C36_no_seeds_refuted (s : stree R) g : st_pts s = [] -> color_seeds any s g [] = UB.
Proof. intros H. unfold color_seeds, closest, st_n. rewrite H. reflexivity. Qed.

(** Seven seeds, three components: numbered by their first seeds. *)
Example C36_executed :
  (g <- grun (g_new 7 100) (map (fun e => GConnectNodes (fst e) (snd e)) [(5, 1); (2, 3); (6, 0); (6, 4)]) ;;
   '(r, col, bad) <- color_regions 8 g 7 0 (repeat 0 7) false ;; l <- mark_ghost 7 2 col ;; Ok (r, col, l, bad))
  = Ok (3, [1; 2; 3; 3; 1; 2; 1], [1; 0; 2; 2; 1; 0; 1], false).
Proof. vm_compute. reflexivity. Qed.

Example C36_hypotheses :
  let s := two_spheres 1 (1/2) (6/10) in
  ready s /\ st_nd s = 3 /\ length (st_pts s) <= 100
  /\ [(0, 1)] <> [] /\ (forall i j, In (i, j) [(0, 1)] -> i < length (st_pts s) /\ j < length (st_pts s))
  /\ (forall j d, j < length (st_pts s) -> d < 3 -> (- dbl_max < coord (st_pts s) j d < dbl_max)%R)
  /\ (forall x, pushed_corner s x -> exists j, j < length (st_pts s) /\ (dist_to s x j < dbl_max)%R).
Proof.
  intros s. pose proof dbl_max_big as HB. assert (Hs : spheres s) by (apply two_spheres_ok; lra).
  split; [apply Hs|]. split; [reflexivity|]. split; [cbn; lia|]. split; [discriminate|]. split.
  { intros i j [[= <- <-]|[]]. cbn. lia. }
  split.
  - intros [|[|j]] d Hj Hd; [| |cbn in Hj; lia]; destruct d as [|[|[|d]]]; try lia; unfold coord; simpl; lra.
  - intros x (Lx & Hx). exists 1. split; [cbn; lia|].
    assert (C : forall d, d < 3 -> nth d x 0%R = (3 * coord (st_pts s) 1 d)%R).
    { intros d Hd. destruct (Hx d Hd) as (lo & hi & Hr & (jl & Hjl & El) & (jh & Hjh & Eh) & ->).
      pose proof (Hr 0 ltac:(cbn; lia)) as R0. pose proof (Hr 1 ltac:(cbn; lia)) as R1.
      assert (Z0 : coord (st_pts s) 0 d = 0%R) by (destruct d as [|[|[|d]]]; try lia; reflexivity).
      assert (Z1 : (0 <= coord (st_pts s) 1 d)%R) by (destruct d as [|[|[|d]]]; try lia; unfold coord; simpl; lra).
      assert (Hh : forall j, j < length (st_pts s) -> j = 0 \/ j = 1) by (intros j Hj; cbn in Hj; lia).
      destruct (Hh _ Hjl) as [-> | ->], (Hh _ Hjh) as [-> | ->]; lra. }
    rewrite (@dist_to_vdist s x 1) by apply Hs; rewrite axis_dist.
    + unfold vec, center. rewrite (C 0) by lia. unfold coord. simpl. rewrite Rabs_pos_eq; lra.
    + unfold vec, center. rewrite (C 1) by lia. unfold coord. simpl. lra.
    + unfold vec, center. rewrite (C 2) by lia. unfold coord. simpl. lra.
Qed.

Print Assumptions C36_regions.
Print Assumptions C36_no_pairs_refuted.
Print Assumptions C36_no_seeds_refuted.
