(** C43: the cells of the volume mesh have the Voronoi property. *)
From Coq Require Import Reals Lra.
From Verif Require Import Base Num SamplingSpec Vec KdSpec KdTree SmartTree DenseQR Geometry GeometryProofs Spheres
  PolyMesh PolyMeshProofs Regions RegionsProofs MonitorProofs KdQueryProofs SpokeFlatProofs Interior InteriorSpec InteriorTreeProofs
  InteriorProofs InteriorRunProofs SurfaceShrinkProofs Voro VoroSpec VoroProofs.
Local Open Scope R_scope.
Notation fl := FloatInst.of_Z.

(** Whatever the seeds, when the cells are found: there is one for each seed that is not a
    ghost (region 0) and none for a ghost, and no seed of the whole set, near or far, is
    nearer to a vertex of the cell of x than x itself, up to the stated tolerance.  The
    neighbours of a vertex are vertices of the cell, its seeds are other seeds, a
    seed is as far from it as x and is one of those recorded with it, and it is owned by a
    seed that is not a ghost and is as far as x. *)
Theorem C43_no_closer_seed d fuel cfuel seeds regs sizing cells :
  0 < d -> separated d seeds -> seeds <> [] ->
  length regs = length seeds -> length sizing = length seeds -> Forall (fun r => 0 < r) sizing ->
  voronoi_cells fuel cfuel seeds regs sizing = Ok cells ->
  length cells = length seeds
  /\ forall k, (k < length seeds)%nat ->
       (nth k regs 0%nat = 0%nat -> nth k cells None = None)
       /\ (nth k regs 0%nat <> 0%nat -> exists vs, nth k cells None = Some vs
            /\ forall v, In v vs ->
                 voronoi_vertex d (nth k seeds []) seeds (v_pt v)
                 /\ (forall j, In j (v_nb v) -> (j < length vs)%nat)
                 /\ (forall j, In j (v_sd v) -> (j < length seeds)%nat /\ 0 < cdist (nth k seeds []) (nth j seeds []))
                 /\ (exists j, In j (v_sd v) /\ equidistant (nth k seeds []) (nth j seeds []) (v_pt v))
                 /\ exists o, v_own v = Some o /\ owned_by seeds regs (nth k seeds []) (v_pt v) o).
Proof.
  intros H1 H2 H3 H4 H5 H6 E. destruct (@voronoi_cells_Ok d fuel cfuel seeds regs sizing cells H1 H2 H3 H4 H5 H6 E) as (L & rank & _ & _ & G).
  split; [exact L|]. intros k Hk. destruct (G k Hk) as (G1 & G2). split; [exact G1|]. intros Hr. destruct (G2 Hr) as (vs & Ev & _ & G3).
  exists vs. split; [exact Ev|]. intros v Hv. destruct (G3 v Hv) as (V1 & V2 & V3 & V4 & (o & Eo & Ho & _) & _ & _ & V5).
  split; [exact V1|]. split; [exact V2|]. split; [auto|]. split; [exact V4|]. exists o. auto.
Qed.

(** Clipping forgets a corner only when some local seed is strictly nearer to it than x: no
    point of the cell is cut off with it.  Corners keep their coordinates otherwise. *)
Theorem C43_removed fuel x pts p p' : clip fuel x pts 0 p = Ok p' ->
  (length p <= length p')%nat
  /\ forall i c, nth_error p i = Some c -> exists c', nth_error p' i = Some c'
       /\ (c_pt c' = c_pt c \/ is_deleted c' = true /\ exists s, In s pts /\ cdist (c_pt c) s < cdist (c_pt c) x).
Proof.
  intros E. destruct (@clip_Ok x pts fuel 0 p p' ltac:(intros j c Hj; lia) E) as (_ & K1 & K2). split; auto.
  intros i c Ec. destruct (K2 i c Ec) as (c' & E' & [D|(D & D')]); exists c'; split; auto. right. split; [now apply deleted_is|exact D'].
Qed.

(** The cell of a seed without neighbours is unbounded, and the search for it never ends:
    the sphere is doubled again and again. *)
Lemma first_cut_lone (x v : list R) : first_cut x v [x] = (dbl_max, 1%nat).
Proof.
  unfold first_cut. cbn [numbered length seq combine fold_left].
  match goal with |- (if ?b then _ else _) = _ => assert (E : b = true) end; [|now rewrite E].
  rewrite tol_eq. cbn [nltb RNum]. destruct (Rltb _ _) eqn:E; auto. apply Rltb_false in E. rewrite range3 in E. cbn [nmul nsub RNum] in E.
  pose proof tol_pos. replace (_ + _) with 0 in E by ring. lra.
Qed.
Lemma two_lt_max : nltb n2 (@dbl_max R _) = true.
Proof.
  destruct (nltb n2 dbl_max) eqn:E; auto. apply Rltb_false in E. exfalso. revert E. unfold dbl_max. apply Rlt_not_le.
  change (@n2 R _) with 2. change (@nofZ R _) with IZR. apply IZR_lt. vm_compute. reflexivity.
Qed.
Lemma clip_lone (x : list R) : forall fuel i p p', clip fuel x [x] i p = Ok p' -> p' = p.
Proof.
  induction fuel as [|fuel IH]; intros i p p' E; cbn [clip] in E; [discriminate|].
  destruct (Nat.ltb_spec i (length p)) as [Hi|Hi]; [|congruence].
  apply bind_Ok_inv in E. destruct E as (q & Eq & E). apply IH in E. subst p'.
  unfold clip_corner in Eq. apply bind_Ok_inv in Eq. destruct Eq as (c & _ & Eq). destruct (is_deleted c); [congruence|].
  rewrite first_cut_lone, two_lt_max in Eq. congruence.
Qed.
Lemma box_far (x : list R) r : 0 < r -> r <= farthest x (initial_polytope x r).
Proof.
  intros Hr. set (p := initial_polytope x r).
  assert (H : exists c, In c p /\ is_deleted c = false /\ r <= cdist (c_pt c) x).
  { assert (B : forall s nb sd, r <= cdist (c_pt (box_corner x r s nb sd)) x).
    { intros [[a b] c] [[? ?] ?] [[? ?] ?]. apply Rsqr_incr_0_var; [|apply cdist_nonneg]. unfold Rsqr. rewrite cdist_sq.
      cbn [box_corner c_pt box_pt]. rewrite gv_0, gv_1, gv_2.
      set (u := gv x 0%nat). set (v := gv x 1%nat). set (w := gv x 2%nat). 
      assert (S2 : forall u, 0 <= u * u) by (intros; apply Rle_0_sqr).
      assert (A : forall (t : bool) u, ((if t then u + r else u - r)%num - u) * ((if t then u + r else u - r)%num - u) = r * r).
      { intros [] t; cbn [nadd nsub RNum]; ring. }
      rewrite !A. pose proof (S2 r). lra. }
    destruct (is_deleted (box_corner x r (true, false, true) (1, 2, 4)%nat (0, 4, 3)%nat)) eqn:E.
    - exists (box_corner x r (false, false, true) (0, 6, 5)%nat (4, 2, 3)%nat). split; [right; right; right; right; left; reflexivity|]. split; [|apply B].
      unfold is_deleted, box_corner, box_pt, c_pt in *. rewrite gv_0 in *. cbn [neqb nadd nsub RNum] in *. unfold Reqb in *.
      destruct (Req_EM_T (gv x 0%nat - r) dbl_max) as [E2|E2]; auto. destruct (Req_EM_T (gv x 0%nat + r) dbl_max) as [E1|E1]; [lra|discriminate].
    - exists (box_corner x r (true, false, true) (1, 2, 4)%nat (0, 4, 3)%nat). split; [left; reflexivity|]. split; [exact E|apply B]. }
  destruct H as (c & H1 & H2 & H3). pose proof (@farthest_ok x p c H1 H2). lra.
Qed.
Theorem C43_unbounded_refuted fuel cfuel (x : list R) s : 1 <= s ->
  forall cells, voronoi_cells fuel cfuel [x] [1%nat] [s] <> Ok cells.
Proof.
  intros Hs cells E. unfold voronoi_cells in E.
  destruct (@index_tree_ok [x] ltac:(discriminate)) as (t & Et & HI). rewrite Et in E. cbn [bind] in E.
  destruct t as [[[[lf rt] root] old] sorted].
  apply bind_Ok_inv in E. destruct E as (ghost & Eg & E). apply mapr_Ok in Eg.
  assert (old = [0%nat]). { destruct HI as (? & ? & ? & _ & P & _). apply Permutation_sym, Permutation_length_1_inv in P. exact P. }
  subst old. inversion Eg as [|a b la lb Hab Hr]; subst. inversion Hr; subst. injection Hab as <-.
  cbn [length seq fold_res bind get nth_error] in E.
  apply bind_Ok_inv in E. destruct E as (c1 & E & _). apply bind_Ok_inv in E. destruct E as (vs & Ev & _).
  revert Ev. cbn [Nat.eqb]. assert (Hr1 : 1 <= (n2 * s)%num) by (cbn; lra). revert Hr1. generalize (n2 * s)%num as r. clear c1 cells Eg Hr. induction fuel as [|fuel IH]; intros r Hr Ev; cbn [voronoi_cell] in Ev; [discriminate|].
  set (y := sorted_row sorted 0) in *. set (r2 := (r * n2)%num) in *. assert (Hr2 : 1 <= r2). { unfold r2. cbn. lra. }
  apply bind_Ok_inv in Ev. destruct Ev as (local & El & Ev).
  destruct HI as (lf' & rt' & tr & Elk & P & Ls & C & K). injection Elk as <- <-. cbn [length] in Ls.
  destruct (@flat_in_sphere_ok 3 1 sorted ltac:(lia) ltac:(lia) lf rt root tr K y r2 ltac:(cbn; lia)) as (out & Eo & S0).
  cbn [length] in El. assert (out = local) by congruence. subst out. destruct S0 as (q & Eq & ND & Hin & _). cbn [app] in Eq. subst q.
  assert (Hl : local = [] \/ local = [0%nat]).
  { destruct local as [|a [|b t]]; auto.
    - right. f_equal. assert (In a (seq 0 1)) by (apply Hin; now left). apply in_seq in H. lia.
    - exfalso. assert (In a (seq 0 1)) by (apply Hin; now left). assert (In b (seq 0 1)) by (apply Hin; right; now left).
      apply in_seq in H, H0. inversion ND as [|? ? Hn]; subst. apply Hn. left. lia. }
  destruct Hl as [->| ->]; cbn [length Nat.eqb] in Ev; [eapply IH; eauto|].
  apply bind_Ok_inv in Ev. destruct Ev as (p & Ep & Ev). cbn [map] in Ep. fold y in Ep. apply clip_lone in Ep. subst p.
  match type of Ev with (if ?b then _ else _) = _ => destruct b eqn:Eb end; [|eapply IH; eauto].
  rewrite tol_eq in Eb. apply Rltb_true in Eb. cbn [nadd nmul RNum] in Eb.
  change (nofZ 10 * r2)%num with (10 * r2) in *.
  assert (Hb : 0 < 10 * r2) by (clear - Hr2; lra). pose proof (@box_far y (10 * r2) Hb) as Hf. cbn [nmul nofZ RNum] in Hf. change (@n2 R _) with 2 in Eb.
  assert (1 / 10 ^ 10 < 1) by lra.
  change (nofZ 10) with 10 in Eb. lra.
Qed.

(** Eight seeds around the origin. *)
Definition ex_vor : list (list Z) := [[0;0;0];[3;1;0];[-2;1;0];[0;3;1];[1;-3;1];[0;1;4];[1;0;-3];[-2;-1;2]]%Z.
Example C43_hypotheses : separated 1 (map (map IZR) ex_vor) /\ Forall (fun r => 0 < r) (repeat 1 8).
Proof.
  split.
  - intros i j Hi Hj Hij. apply Rsqr_incr_0_var; [|apply cdist_nonneg]. unfold Rsqr. rewrite cdist_sq.
    unfold ex_vor in *. cbn [map length] in *.
    do 8 (destruct i as [|i]; [do 8 (destruct j as [|j]; [try congruence; cbn [nth]; rewrite !gv_0, !gv_1, !gv_2; lra|]); lia|]). lia.
  - repeat constructor; lra.
Qed.
(** Their Voronoi cells in floating point: the cell of the first one has ten vertices, each
    with three neighbours. *)
Example C43_run :
  match voronoi_cells 10 200 (map (map fl) ex_vor) [1;0;0;0;0;0;0;0]%nat (repeat (fl 1) 8) with
  | Ok (Some vs :: rest) => length vs = 10%nat /\ forallb (fun v => length (v_nb v) =? 3) vs = true /\ rest = repeat None 7
  | _ => False
  end.
Proof. vm_compute. auto. Qed.

Print Assumptions C43_no_closer_seed.
Print Assumptions C43_removed.
Print Assumptions C43_unbounded_refuted.
