(** Proofs about EdgeSeeds.v. *)
From Coq Require Import Reals Lra.
From Verif Require Import Base Num SamplingSpec Vec KdSpec KdTree SmartTree SmartTreeSpec DenseQR Geometry GeometryProofs Spheres
  PolyMesh PolyMeshProofs Regions RegionsProofs KdQueryProofs KdReenumProofs SpokeFlatProofs SmartQueryProofs Interior InteriorSpec
  InteriorTreeProofs InteriorProofs SurfaceShrinkProofs EdgeSeeds EdgeSeedsSpec.
Local Open Scope R_scope.

(** ** Geometry of the circle *)
Lemma dotp_R (a b : list R) : dotp a b = dot 3 (vec a) (vec b).
Proof. unfold dotp. rewrite range0_R. apply sumn_ext. intros. reflexivity. Qed.
Lemma row3_nth (f : nat -> R) d : (d < 3)%nat -> nth d (row3 f) 0 = f d.
Proof. destruct d as [|[|[|d]]]; intros; try lia; reflexivity. Qed.
Lemma vec_row3 (f : nat -> R) d : (d < 3)%nat -> vec (row3 f) d = f d.
Proof. apply row3_nth. Qed.
Lemma row3_app_nth (f : nat -> R) r d : (d < 3)%nat -> nth d (row3 f ++ [r]) 0 = f d.
Proof. destruct d as [|[|[|d]]]; intros; try lia; reflexivity. Qed.
Lemma row3_app_rad (f : nat -> R) r : rad (row3 f ++ [r]) = r. Proof. reflexivity. Qed.
Lemma row3_length (f : nat -> R) : length (row3 f) = 3%nat. Proof. reflexivity. Qed.
Lemma cdist_sq a b : cdist a b * cdist a b
  = (vec a 0%nat - vec b 0%nat) * (vec a 0%nat - vec b 0%nat) + (vec a 1%nat - vec b 1%nat) * (vec a 1%nat - vec b 1%nat)
    + (vec a 2%nat - vec b 2%nat) * (vec a 2%nat - vec b 2%nat).
Proof. unfold cdist. rewrite vdist_sq, dot3. reflexivity. Qed.
Lemma sq_eq x y : 0 <= x -> 0 <= y -> x * x = y * y -> x = y.
Proof. intros. apply Rsqr_inj; auto. Qed.

(** A unit vector, orthogonal to another one. *)
Definition unit3 (a : list R) : Prop := dot 3 (vec a) (vec a) = 1.
Definition frame (a b : list R) : Prop := unit3 a /\ unit3 b /\ dot 3 (vec a) (vec b) = 0.

Lemma axis_of_R (so sn : list R) : axis_of so sn =
  if Req_EM_T (cdist so sn) 0 then UB else Ok (row3 (fun d => (vec so d - vec sn d) / cdist so sn)).
Proof.
  unfold axis_of.
  assert (E : @nsqrt R _ (dotp (row3 (fun d => gv so d - gv sn d)%num) (row3 (fun d => gv so d - gv sn d)%num)) = cdist so sn).
  { rewrite dotp_R. unfold cdist, vdist, norm. cbn [nsqrt RNum]. reflexivity. }
  rewrite E. change neqb with Reqb. unfold Reqb. change n0 with 0. destruct (Req_EM_T (cdist so sn) 0); [reflexivity|].
  f_equal.
Qed.
Lemma axis_unit (so sn : list R) : cdist so sn <> 0 -> unit3 (row3 (fun d => (vec so d - vec sn d) / cdist so sn)).
Proof.
  intros H. unfold unit3. rewrite dot3. rewrite !vec_row3 by lia.
  pose proof (cdist_sq so sn) as E. set (N := cdist so sn) in *.
  transitivity (N * N / (N * N)); [rewrite E at 1; field; auto|field; auto].
Qed.
Lemma axis_beyond so sn s : 0 < cdist so sn ->
  (0 <= dot 3 (fun d => vec s d - vec so d) (vec (row3 (fun d => (vec so d - vec sn d) / cdist so sn))) <-> beyond so sn s).
Proof.
  intros H. unfold beyond.
  replace (dot 3 (fun d => vec s d - vec so d) (vec (row3 (fun d => (vec so d - vec sn d) / cdist so sn))))
    with (/ cdist so sn * dot 3 (fun d => vec s d - vec so d) (fun d => vec so d - vec sn d)).
  2:{ rewrite !dot3. rewrite !vec_row3 by lia. field. lra. }
  assert (0 < / cdist so sn) by now apply Rinv_0_lt_compat.
  split; intros H1; [|apply Rmult_le_pos; lra].
  destruct (Rle_lt_dec 0 (dot 3 (fun d => vec s d - vec so d) (fun d => vec so d - vec sn d))); auto. nra.
Qed.

Lemma tangent_Ok : forall fuel eo dir3 k e1 k', unit3 eo -> tangent fuel eo dir3 k = Ok (e1, k') -> frame eo e1.
Proof.
  induction fuel as [|f IH]; intros eo dir3 k e1 k' Hu E; [discriminate|].
  cbn [tangent] in E. revert E. set (e := dir3 k). set (v := row3 _). rewrite !dotp_R.
  change nltb with Rltb. change (@nlit R _ 1 3) with (1 / 1000).
  destruct (Rltb (nsqrt (dot 3 (vec v) (vec v))) (1 / 1000)) eqn:Ec; intros E; [eapply IH; eauto|].
  injection E as <- <-. apply Rltb_false in Ec. cbn [nsqrt RNum] in Ec.
  assert (Hs : 0 < sqrt (dot 3 (vec v) (vec v))) by lra.
  assert (Hq : sqrt (dot 3 (vec v) (vec v)) * sqrt (dot 3 (vec v) (vec v)) = dot 3 (vec v) (vec v)) by apply sqrt_def, dot_self_nonneg.
  set (N := sqrt (dot 3 (vec v) (vec v))) in *. cbn [nsqrt RNum]. fold N.
  change ndiv with Rdiv. split; auto. split.
  - unfold unit3. rewrite dot3. rewrite !vec_row3 by lia. change (gv v) with (vec v).
    rewrite dot3 in Hq. transitivity (N * N / (N * N)); [rewrite Hq at 1; field; lra|field; lra].
  - assert (Hv : dot 3 (vec eo) (vec v) = 0).
    { unfold unit3 in Hu. rewrite dot3 in *. unfold v. rewrite !vec_row3 by lia.
      rewrite dotp_R, dot3. change (gv e) with (vec e). change (gv eo) with (vec eo). change nsub with Rminus. change nmul with Rmult.
      set (p := vec eo 0%nat) in *. set (q := vec eo 1%nat) in *. set (r := vec eo 2%nat) in *.
      transitivity ((vec e 0%nat * p + vec e 1%nat * q + vec e 2%nat * r) * (1 - (p * p + q * q + r * r))); [ring|rewrite Hu; ring]. }
    rewrite dot3 in *. rewrite !vec_row3 by lia. change (gv v) with (vec v).
    transitivity ((vec eo 0%nat * vec v 0%nat + vec eo 1%nat * vec v 1%nat + vec eo 2%nat * vec v 2%nat) / N); [field; lra|rewrite Hv; field; lra].
Qed.

Lemma cross_frame a b : frame a b -> let c := cross3 a b in unit3 c /\ dot 3 (vec a) (vec c) = 0 /\ dot 3 (vec b) (vec c) = 0.
Proof.
  intros (Ha & Hb & Hab). unfold unit3 in *. rewrite !dot3 in *. cbn zeta. unfold cross3.
  change (@gv R _) with (fun (l : list R) d => vec l d). cbn beta.
  set (c := [_; _; _]).
  change (vec c 0%nat) with (vec a 1%nat * vec b 2%nat - vec a 2%nat * vec b 1%nat).
  change (vec c 1%nat) with (vec a 2%nat * vec b 0%nat - vec a 0%nat * vec b 2%nat).
  change (vec c 2%nat) with (vec a 0%nat * vec b 1%nat - vec a 1%nat * vec b 0%nat). clear c. change nmul with Rmult. change nsub with Rminus.
  set (a0 := vec a 0%nat) in *. set (a1 := vec a 1%nat) in *. set (a2 := vec a 2%nat) in *.
  set (b0 := vec b 0%nat) in *. set (b1 := vec b 1%nat) in *. set (b2 := vec b 2%nat) in *.
  split; [|split; ring].
  transitivity ((a0 * a0 + a1 * a1 + a2 * a2) * (b0 * b0 + b1 * b1 + b2 * b2) - (a0 * b0 + a1 * b1 + a2 * b2) * (a0 * b0 + a1 * b1 + a2 * b2));
    [ring|rewrite Ha, Hb, Hab; ring].
Qed.

Definition foot (so sn : list R) : R := (rad so * rad so - rad sn * rad sn + cdist so sn * cdist so sn) / (2 * cdist so sn).
Lemma circle_of_R (so sn : list R) : circle_of so sn (cdist so sn) =
  if Rltb (rad so * rad so - foot so sn * foot so sn) 0 then UB
  else Ok (row3 (fun d => vec so d + foot so sn / cdist so sn * (vec sn d - vec so d)) ++ [sqrt (rad so * rad so - foot so sn * foot so sn)]).
Proof. reflexivity. Qed.
(** Spheres that meet have a circle. *)
Lemma meet_circle so sn : 0 <= rad so -> 0 <= rad sn -> meet so sn -> 0 <= rad so * rad so - foot so sn * foot so sn.
Proof.
  intros H1 H2 (Hd & Ha & Hb). unfold foot. set (a := rad so) in *. set (b := rad sn) in *. set (D := cdist so sn) in *.
  assert (Hab : - D <= a - b <= D) by (apply Rabs_def2_le || (unfold Rabs in Ha; destruct (Rcase_abs (a - b)); lra)).
  replace (a * a - (a * a - b * b + D * D) / (2 * D) * ((a * a - b * b + D * D) / (2 * D)))
    with (((a + b - D) * (a + b + D)) * ((D + b - a) * (D + a - b)) / (4 * (D * D))) by (field; lra).
  apply Rmult_le_pos; [|apply Rlt_le, Rinv_0_lt_compat; nra].
  apply Rmult_le_pos; apply Rmult_le_pos; lra.
Qed.

Lemma circle_of_Ok so sn c : 0 <= rad so -> 0 <= rad sn -> 0 < cdist so sn -> circle_of so sn (cdist so sn) = Ok c ->
  common_circle so sn c
  /\ (forall d, (d < 3)%nat -> vec c d = vec so d + foot so sn / cdist so sn * (vec sn d - vec so d))
  /\ rad c = sqrt (rad so * rad so - foot so sn * foot so sn) /\ 0 <= rad so * rad so - foot so sn * foot so sn.
Proof.
  intros Ho Hn Hd E. rewrite circle_of_R in E. destruct (Rltb _ 0) eqn:Ec; [discriminate|]. apply Rltb_false in Ec. injection E as E.
  assert (Hc : forall d, (d < 3)%nat -> vec c d = vec so d + foot so sn / cdist so sn * (vec sn d - vec so d)).
  { intros d H. rewrite <- E. destruct d as [|[|[|d]]]; try lia; reflexivity. }
  assert (Hr : rad c = sqrt (rad so * rad so - foot so sn * foot so sn)) by (rewrite <- E; reflexivity).
  assert (Hq : rad c * rad c = rad so * rad so - foot so sn * foot so sn) by (rewrite Hr; apply sqrt_def; auto).
  split; [|auto]. split; [rewrite <- E; reflexivity|]. split; [rewrite Hr; apply sqrt_pos|]. split; [exists (foot so sn / cdist so sn); auto|].
  pose proof (cdist_sq so sn) as E0. rewrite !cdist_sq, !Hc by lia.
  assert (Hf : foot so sn * (2 * cdist so sn) = rad so * rad so - rad sn * rad sn + cdist so sn * cdist so sn) by (unfold foot; field; lra).
  set (N := cdist so sn) in *. set (f := foot so sn) in *.
  set (x0 := vec so 0%nat) in *. set (x1 := vec so 1%nat) in *. set (x2 := vec so 2%nat) in *.
  set (y0 := vec sn 0%nat) in *. set (y1 := vec sn 1%nat) in *. set (y2 := vec sn 2%nat) in *.
  split.
  - transitivity (f * f / (N * N) * (N * N) + rad c * rad c); [rewrite E0 at 2; field; lra|]. rewrite Hq. field. lra.
  - transitivity ((N - f) * (N - f) / (N * N) * (N * N) + rad c * rad c); [rewrite E0 at 2; field; lra|]. rewrite Hq.
    transitivity ((N - f) * (N - f) + (rad so * rad so - f * f)); [field; lra|]. lra.
Qed.

Lemma circle_point_ok so sn c e1 y : 0 <= rad so -> 0 <= rad sn -> 0 < cdist so sn -> circle_of so sn (cdist so sn) = Ok c ->
  let eo := row3 (fun d => (vec so d - vec sn d) / cdist so sn) in
  frame eo e1 -> nth 0 y 0 * nth 0 y 0 + nth 1 y 0 * nth 1 y 0 = 1 ->
  on_circle so sn c (circle_point c e1 (cross3 eo e1) y).
Proof.
  intros Ho Hn Hd E eo Hf Hy. pose proof Hf as (Hu & Hu1 & H01). destruct (cross_frame Hf) as (Hu2 & H02 & H12).
  destruct (@circle_of_Ok so sn c Ho Hn Hd E) as ((_ & Hrc & _ & Co & Cn) & Hc & _ & _).
  set (e2 := cross3 eo e1) in *. set (x := circle_point c e1 e2 y).
  assert (Hx : forall d, (d < 3)%nat -> vec x d = vec c d + rad c * (nth 0 y 0 * vec e1 d + nth 1 y 0 * vec e2 d)).
  { intros d H. unfold x, circle_point. rewrite vec_row3 by auto. reflexivity. }
  assert (He : forall d, (d < 3)%nat -> vec so d - vec sn d = cdist so sn * vec eo d).
  { intros d H. unfold eo. rewrite vec_row3 by auto. field. lra. }
  unfold unit3 in *. rewrite dot3 in Hu, Hu1, H01, Hu2, H02, H12.
  set (N := cdist so sn) in *. set (f := foot so sn) in *.
  set (p0 := vec eo 0%nat) in *. set (p1 := vec eo 1%nat) in *. set (p2 := vec eo 2%nat) in *.
  set (q0 := vec e1 0%nat) in *. set (q1 := vec e1 1%nat) in *. set (q2 := vec e1 2%nat) in *.
  set (r0 := vec e2 0%nat) in *. set (r1 := vec e2 1%nat) in *. set (r2 := vec e2 2%nat) in *.
  set (s := nth 0 y 0) in *. set (t := nth 1 y 0) in *.
  (* the part in the plane of the circle *)
  assert (Hw : (s * q0 + t * r0) * (s * q0 + t * r0) + (s * q1 + t * r1) * (s * q1 + t * r1) + (s * q2 + t * r2) * (s * q2 + t * r2) = 1).
  { transitivity (s * s * (q0 * q0 + q1 * q1 + q2 * q2) + t * t * (r0 * r0 + r1 * r1 + r2 * r2) + 2 * s * t * (q0 * r0 + q1 * r1 + q2 * r2));
      [ring|rewrite Hu1, Hu2, H12; lra]. }
  assert (Hpw : p0 * (s * q0 + t * r0) + p1 * (s * q1 + t * r1) + p2 * (s * q2 + t * r2) = 0).
  { transitivity (s * (p0 * q0 + p1 * q1 + p2 * q2) + t * (p0 * r0 + p1 * r1 + p2 * r2)); [ring|rewrite H01, H02; ring]. }
  assert (Hgen : forall z u, (forall d, (d < 3)%nat -> vec c d - vec z d = u * vec eo d) -> cdist x z * cdist x z = cdist c z * cdist c z + rad c * rad c).
  { intros z u Hz. rewrite !cdist_sq, !Hx by lia. fold q0 q1 q2 r0 r1 r2.
    pose proof (Hz 0%nat ltac:(lia)) as Z0. pose proof (Hz 1%nat ltac:(lia)) as Z1. pose proof (Hz 2%nat ltac:(lia)) as Z2.
    fold p0 in Z0. fold p1 in Z1. fold p2 in Z2.
    replace (vec c 0%nat) with (vec z 0%nat + u * p0) by lra. replace (vec c 1%nat) with (vec z 1%nat + u * p1) by lra.
    replace (vec c 2%nat) with (vec z 2%nat + u * p2) by lra.
    transitivity (u * u * (p0 * p0 + p1 * p1 + p2 * p2) + rad c * rad c * ((s * q0 + t * r0) * (s * q0 + t * r0) + (s * q1 + t * r1) * (s * q1 + t * r1) + (s * q2 + t * r2) * (s * q2 + t * r2))
      + 2 * u * rad c * (p0 * (s * q0 + t * r0) + p1 * (s * q1 + t * r1) + p2 * (s * q2 + t * r2))); [ring|rewrite Hw, Hpw; ring]. }
  split; [reflexivity|]. split; [|split]; apply sq_eq; auto using cdist_nonneg.
  - rewrite (Hgen so (- f)); [lra|]. intros d H. rewrite Hc by auto. fold N f.
    pose proof (He d H) as G. fold N in G. replace (vec sn d - vec so d) with (- (N * vec eo d)) by lra. field. lra.
  - rewrite (Hgen sn (N - f)); [lra|]. intros d H. rewrite Hc by auto. fold N f.
    pose proof (He d H) as G. fold N in G. replace (vec sn d) with (vec so d - N * vec eo d) by lra. field. lra.
  - rewrite (Hgen c 0); [|intros d H; ring]. rewrite cdist_sq. ring.
Qed.

(** ** The neighbour *)
Lemma new_index_ok : forall old i, In i old -> (new_index old i < length old)%nat /\ nth (new_index old i) old 0%nat = i.
Proof.
  induction old as [|j t IH]; intros i []; cbn [new_index length nth].
  - subst. rewrite Nat.eqb_refl. split; auto. lia.
  - destruct (j =? i)%nat eqn:E; [apply Nat.eqb_eq in E; split; [lia|auto]|]. destruct (IH i H). split; [lia|auto].
Qed.

Definition dir_of (so : list R) (first : option (list R)) : option (list R) :=
  option_map (fun sn => row3 (fun d => (vec so d - vec sn d) / cdist so sn)) first.
Lemma dir_of_length so first e : dir_of so first = Some e -> (3 <= length e)%nat.
Proof. destruct first; cbn [dir_of option_map]; intros E; [|discriminate]. injection E as <-. rewrite ?row3_length. cbn. lia. Qed.
Lemma on_side_allowed sorted x so first j s : (forall sn, first = Some sn -> 0 < cdist so sn) ->
  (forall d, (d < 3)%nat -> vec x d = vec so d) -> (forall d, (d < 3)%nat -> flat_coord 3 sorted j d = vec s d) ->
  (on_side 3 sorted x (dir_of so first) j <-> allowed so first s).
Proof.
  intros Hf Hx Hs. destruct first as [sn|]; cbn [dir_of option_map on_side allowed]; [|tauto].
  rewrite <- (axis_beyond so sn s) by auto.
  rewrite (@dot_ext 3 (fun k => flat_coord 3 sorted j k - vec x k) (fun d => vec s d - vec so d)
    (vec (row3 (fun d => (vec so d - vec sn d) / cdist so sn))) (vec (row3 (fun d => (vec so d - vec sn d) / cdist so sn)))); [reflexivity| |auto].
  intros k Hk. rewrite Hx, Hs by auto. reflexivity.
Qed.

Section Search.
  Variables (edge corner : list (list R)) (ef cf : @family R) (i : nat) (first : option (list R)).
  Hypothesis (Hef : family_ok edge ef) (Hcf : family_ok corner cf) (Hi : (i < length edge)%nat).
  Let so := nth i edge [].
  Hypothesis (Hso : (3 <= length so)%nat) (Hfirst : forall sn, first = Some sn -> 0 < cdist so sn).

  Lemma edge_search lk root old sorted : indexes edge (lk, root, old, sorted) ->
    exists b, flat_closest_to 3 sorted (length edge) lk root (new_index old i) (dir_of so first) dbl_max = Ok (0%nat, b)
      /\ ((exists j, get old (fst b) = Ok j /\ next_edge edge i first j /\ snd b = cdist so (nth j edge []))
          \/ (get old (fst b) = UB /\ (in_range so edge -> forall j, ~ next_edge edge i first j))).
  Proof.
    intros H. pose proof H as H'. destruct H' as (lf & rt & tr & -> & P & Ls & C & K).
    assert (Hl : length old = length edge) by (rewrite (Permutation_length P), seq_length; auto).
    destruct (@new_index_ok old i) as (Hq & Eq). { apply (Permutation_in _ (Permutation_sym P)), in_seq. lia. }
    set (q := new_index old i) in *. rewrite Hl in Hq.
    destruct (@flat_closest_to_ok 3 (length edge) sorted ltac:(lia) ltac:(lia) lf rt root tr K q (dir_of so first) dbl_max Hq
      (fun e He => @dir_of_length so first e He)) as (b & E & N).
    exists b. split; auto.
    assert (Hrow : forall d, (d < 3)%nat -> vec (flat_row 3 sorted q) d = vec so d).
    { intros d Hd. transitivity (flat_coord 3 sorted q d); [|rewrite C, Eq by auto; reflexivity].
      unfold vec, flat_row. destruct d as [|[|[|d]]]; try lia; reflexivity. }
    assert (Ed : forall j, (j < length edge)%nat -> edist 3 (flat_coord 3 sorted) (flat_row 3 sorted q) j = cdist so (nth (nth j old 0%nat) edge [])).
    { intros j Hj. rewrite (@edist_cdist _ _ _ (nth (nth j old 0%nat) edge [])); [|intros; now rewrite C].
      apply cdist_ext; [exact Hrow|auto]. }
    assert (Hs : forall j, (j < length edge)%nat ->
      (on_side 3 sorted (flat_row 3 sorted q) (dir_of so first) j <-> allowed so first (nth (nth j old 0%nat) edge []))).
    { intros j Hj. apply on_side_allowed; auto. intros d Hd. rewrite C by auto. reflexivity. }
    assert (Hnd : NoDup old) by (eapply Permutation_NoDup; [apply Permutation_sym; eassumption|apply seq_NoDup]).
    assert (Hne : forall j, (j < length edge)%nat -> (j <> q <-> nth j old 0%nat <> i)).
    { intros j Hj. split; intros Hjq Hc; apply Hjq; [|subst j; auto].
      apply (proj1 (NoDup_nth old 0%nat) Hnd); try lia. }
    destruct N as [(-> & N)|(j & Hj & (Hj1 & Hj2) & -> & Hd & N)]; cbn [fst snd] in *.
    - right. split. { unfold get. rewrite (proj2 (nth_error_None old (length edge))) by lia. reflexivity. }
      intros Hr j (Hj & Hji & Ha & _). destruct (indexes_surj H Hj) as (j' & Hj' & <-).
      assert (dbl_max <= edist 3 (flat_coord 3 sorted) (flat_row 3 sorted q) j').
      { apply N; [apply in_seq; lia|]. split; [apply Hs; auto|apply Hne; auto]. }
      rewrite Ed in H0 by auto. pose proof (Hr _ (nth_In edge [] Hj)). lra.
    - left. apply in_seq in Hj. pose proof (@indexes_old edge ((lf, rt), root, old, sorted) j H ltac:(lia)) as G. cbn beta iota in G.
      destruct G as (k & Ek & Hk & Ek'). exists k. split; auto. rewrite Ed by lia. rewrite <- Ek'. split; auto.
      split; auto. split; [rewrite Ek'; apply Hne; auto; lia|]. split; [rewrite Ek'; apply Hs; auto; lia|].
      intros m Hm Hmi Ha. destruct (indexes_surj H Hm) as (m' & Hm' & <-).
      fold so. rewrite Ek', <- !Ed by lia. apply N; [apply in_seq; lia|]. split; [apply Hs; auto|apply Hne; auto].
  Qed.

  Lemma corner_search lk root old sorted : indexes corner (lk, root, old, sorted) -> corner <> [] ->
    exists b, flat_closest_dir 3 sorted (length corner) lk root so (dir_of so first) dbl_max = Ok (0%nat, b)
      /\ ((exists j, get old (fst b) = Ok j /\ next_corner edge corner i first j /\ snd b = cdist so (nth j corner []))
          \/ (get old (fst b) = UB /\ (in_range so corner -> forall j, ~ next_corner edge corner i first j))).
  Proof.
    intros H Hne0. pose proof H as H'. destruct H' as (lf & rt & tr & -> & P & Ls & C & K).
    assert (Hl : length old = length corner) by (rewrite (Permutation_length P), seq_length; auto).
    destruct (@flat_closest_dir_ok 3 (length corner) sorted ltac:(lia) ltac:(lia) lf rt root tr K so (dir_of so first) dbl_max Hso
      (fun e He => @dir_of_length so first e He)) as (b & E & N).
    exists b. split; auto.
    assert (Ed : forall j, (j < length corner)%nat -> edist 3 (flat_coord 3 sorted) so j = cdist so (nth (nth j old 0%nat) corner [])).
    { intros j Hj. apply edist_cdist. intros; now rewrite C. }
    assert (Hs : forall j, (j < length corner)%nat ->
      (on_side 3 sorted so (dir_of so first) j <-> allowed so first (nth (nth j old 0%nat) corner []))).
    { intros j Hj. apply on_side_allowed; auto. intros d Hd. rewrite C by auto. reflexivity. }
    destruct N as [(-> & N)|(j & Hj & Hj1 & -> & Hd & N)]; cbn [fst snd] in *.
    - right. split. { unfold get. rewrite (proj2 (nth_error_None old (length corner))) by lia. reflexivity. }
      intros Hr j (Hj & Ha & _). destruct (indexes_surj H Hj) as (j' & Hj' & <-).
      assert (dbl_max <= edist 3 (flat_coord 3 sorted) so j') by (apply N; [apply in_seq; lia|apply Hs; auto]).
      rewrite Ed in H0 by auto. pose proof (Hr _ (nth_In corner [] Hj)). lra.
    - left. apply in_seq in Hj. pose proof (@indexes_old corner ((lf, rt), root, old, sorted) j H ltac:(lia)) as G. cbn beta iota in G.
      destruct G as (k & Ek & Hk & Ek'). exists k. split; auto. rewrite Ed by lia. rewrite <- Ek'. split; auto.
      split; auto. split; [rewrite Ek'; apply Hs; auto; lia|].
      intros m Hm Ha. destruct (indexes_surj H Hm) as (m' & Hm' & <-).
      fold so. rewrite Ek', <- !Ed by lia. apply N; [apply in_seq; lia|apply Hs; auto].
  Qed.

  (** Two nearest edge spheres are at the same distance. *)
  Lemma next_edge_dist j j' : next_edge edge i first j -> next_edge edge i first j' -> cdist so (nth j edge []) = cdist so (nth j' edge []).
  Proof. intros (H1 & H2 & H3 & H4) (H1' & H2' & H3' & H4'). apply Rle_antisym; [apply H4|apply H4']; auto. Qed.

  Lemma edge_neighbour_spec :
    match edge_neighbour ef cf i so (dir_of so first) with
    | Ok (sn, h) => neighbour edge corner i first sn /\ h = cdist so sn
    | UB => in_range so edge -> in_range so corner -> ~ has_neighbour edge corner i first
    | Fuel => False
    end.
  Proof.
    unfold edge_neighbour. destruct Hef as (El & Ht). destruct Hcf as (Ecl & Hct).
    rewrite El, Ecl. destruct (snd ef) as [[[[lk root] old] sorted]|]; [|exfalso; rewrite Ht in Hi; cbn in Hi; lia].
    destruct Ht as (_ & Ht). destruct (@edge_search lk root old sorted Ht) as ([ic h] & E & N). rewrite E. cbn [bind fst snd] in *.
    destruct N as [(j & Ej & Hj & Eh)|(Eu & N)]; [|rewrite Eu; cbn [bind]; intros Hr _ ((j & Hj) & _); exact (N Hr j Hj)].
    rewrite Ej. cbn [bind]. rewrite (get_nth _ []) by apply Hj. cbn [bind]. rewrite Eh.
    change nltb with Rltb. change (gv so 3%nat + gv (nth j edge []) 3%nat)%num with (rad so + rad (nth j edge [])).
    destruct (Rltb _ _) eqn:Ec.
    - apply Rltb_true in Ec. split; auto. exists j. split; auto.
    - apply Rltb_false in Ec. destruct (snd cf) as [[[[lk' root'] old'] sorted']|].
      2:{ intros Hr Hr' (_ & G). destruct (G j Hj) as [G1|(k & Hk & _)]; [apply (Rlt_not_le _ _ G1 Ec)|]. rewrite Hct in Hk. cbn in Hk. lia. }
      destruct Hct as (Hcne & Hct). destruct (@corner_search lk' root' old' sorted' Hct Hcne) as ([jc h'] & E' & N'). rewrite E'. cbn [bind fst snd] in *.
      destruct N' as [(k & Ek & Hk & Eh')|(Eu & N')].
      + rewrite Ek. cbn [bind]. rewrite (get_nth _ []) by apply Hk. cbn [bind]. split; auto. exists j. split; auto. right. split; auto. exists k. auto.
      + rewrite Eu. cbn [bind]. intros Hr Hr' (_ & G). destruct (G j Hj) as [G1|(k & Hk)]; [apply (Rlt_not_le _ _ G1 Ec)|]. exact (N' Hr' k Hk).
  Qed.
End Search.

(** ** Loops that may end in any way *)
Lemma for_res_any {St} (P : nat -> St -> Prop) (Q : Prop) body : forall n lo s,
  (forall k st, (lo <= k < lo + n)%nat -> P k st -> match body k st with Ok st' => P (S k) st' | UB => Q | Fuel => True end) ->
  P lo s -> match for_res n lo body s with Ok s' => P (lo + n)%nat s' | UB => Q | Fuel => True end.
Proof.
  induction n as [|n IH]; intros lo s Hb Hs; cbn [for_res]; [rewrite Nat.add_0_r; auto|].
  pose proof (Hb lo s ltac:(lia) Hs) as H0. destruct (body lo s) as [s1| |]; cbn [bind]; auto.
  pose proof (IH (S lo) s1 (fun k st Hk => Hb k st ltac:(lia)) H0) as H1.
  replace (lo + S n)%nat with (S lo + n)%nat by lia. exact H1.
Qed.

Lemma tree_in_sphere_full l t x r : indexes l t -> (3 <= length x)%nat ->
  exists out, tree_in_sphere (length l) t x r = Ok out /\ NoDup out
    /\ (forall j, In j out -> (j < length l)%nat /\ cdist x (nth j l []) * cdist x (nth j l []) < (1 + 2 / 10 ^ 6) * r * r)
    /\ forall j, (j < length l)%nat -> cdist x (nth j l []) < r -> In j out.
Proof.
  destruct t as [[[lk root] old] sorted]. intros H Hx. pose proof H as H'.
  destruct H' as (lf & rt & tr & -> & P & Ls & C & K). unfold tree_in_sphere.
  destruct (@flat_in_sphere_ok 3 (length l) sorted ltac:(lia) ltac:(lia) lf rt root tr K x r Hx) as (out & E & S0).
  rewrite E. cbn [bind]. destruct S0 as (o & Eo & Hnd & Hin & Hok & Hmust). cbn [app] in Eo. subst out.
  assert (Hlt : forall i, In i o -> (i < length l)%nat) by (intros i Hi; apply Hin, in_seq in Hi; lia).
  assert (Hl : length old = length l) by (rewrite (Permutation_length P), seq_length; auto).
  assert (Hno : NoDup old) by (eapply Permutation_NoDup; [apply Permutation_sym; eassumption|apply seq_NoDup]).
  assert (Ed : forall i, (i < length l)%nat -> edist 3 (flat_coord 3 sorted) x i = cdist x (nth (nth i old 0%nat) l [])).
  { intros i Hi. apply edist_cdist. intros. now rewrite C. }
  rewrite (@mapr_ok _ _ _ (fun i => nth i old 0%nat)).
  2:{ intros i Hi. pose proof (@indexes_old l ((lf, rt), root, old, sorted) i H (Hlt i Hi)) as G. cbn beta iota in G.
      destruct G as (k & Ek & _ & <-). auto. }
  eexists. split; [reflexivity|]. split; [|split].
  - clear Hmust Hok E Hin. induction o as [|a o IH]; cbn [map]; [constructor|]. inversion Hnd; subst. constructor.
    + intros Hc. apply in_map_iff in Hc. destruct Hc as (b & Eb & Hb). apply H2.
      replace a with b; auto. apply (proj1 (NoDup_nth old 0%nat) Hno); auto; rewrite Hl; apply Hlt; [right|left]; auto.
    + apply IH; auto. intros. apply Hlt. right. auto.
  - intros j Hj. apply in_map_iff in Hj. destruct Hj as (i & <- & Hi).
    pose proof (@indexes_old l ((lf, rt), root, old, sorted) i H (Hlt i Hi)) as G. cbn beta iota in G.
    destruct G as (k & _ & Hk & Ek). split; [rewrite <- Ek; auto|].
    destruct (Hok i Hi) as (_ & G). rewrite <- Ed by auto. rewrite dist_sq. exact G.
  - intros j Hj Hd. destruct (indexes_surj H Hj) as (i & Hi & <-).
    apply (in_map (fun i => nth i old 0%nat)). apply Hmust; auto.
    + apply in_seq. lia.
    + rewrite Ed; auto.
Qed.

(** ** One side of one edge sphere *)
Lemma small_tol : 0 < 1 / 10 ^ 10. Proof. apply tol_pos. Qed.
Section Side.
  Variables (fuel : nat) (L : R) (seeds : list (list R)) (t : @ptree R) (regs : list nat) (surf edge corner : list (list R))
    (sf ef cf : @family R) (dir3 dir2 : nat -> list R).
  Hypothesis (HL : 0 <= L < 1) (HI : indexes seeds t) (Hne : seeds <> []) (Hregs : length regs = length seeds).
  Hypothesis (Hsf : family_ok surf sf) (Hslope : slope L surf) (Hef : family_ok edge ef) (Hcf : family_ok corner cf).
  Hypothesis (Hedge : Forall sphere edge) (Hcorner : Forall sphere corner) (Hsmall : small_setting seeds surf edge corner).
  Hypothesis (Hdir : forall k, nth 0 (dir2 k) 0 * nth 0 (dir2 k) 0 + nth 1 (dir2 k) 0 * nth 1 (dir2 k) 0 = 1).

  Definition bad_place (x : list R) : Prop := ~ outside (1 / 10 ^ 10) x surf \/ exists h, seed_near seeds regs x h 0%nat.
  Definition good_place (x : list R) (h : R) (r : nat) : Prop :=
    outside (1 / 10 ^ 10) x surf /\ seed_near seeds regs x h r /\ r <> 0%nat.

  Lemma trial_ok pv x best : (3 <= length x)%nat -> in_range x seeds -> in_range x surf ->
    exists best', trial L (length seeds) t regs sf pv x best = Ok best'
      /\ ((bad_place x /\ best' = best)
          \/ exists h r, good_place x h r /\ ((h <= fst best /\ best' = best) \/ (fst best < h /\ best' = (h, (x ++ [rad pv], r))))).
  Proof.
    intros Hx Hr Hr'. unfold trial.
    destruct (@outside_family_ok L surf sf x HL Hsf Hslope Hx Hr') as (b & Eb & Hb). rewrite Eb. cbn [bind].
    destruct b; cbn [negb]; [|exists best; split; auto; left; split; auto; left; intros Ho; apply Hb in Ho; discriminate].
    destruct (@tree_closest_ok seeds t x HI Hx Hne Hr) as (c & Ec & Hc). rewrite Ec. cbn [bind].
    rewrite (get_nth _ 0%nat) by (rewrite Hregs; apply Hc). cbn [bind].
    assert (Hnear : seed_near seeds regs x (cdist x (nth c seeds [])) (nth c regs 0%nat)).
    { exists c. split; auto. split; auto. apply nth_error_nth'. rewrite Hregs. apply Hc. }
    destruct (nth c regs 0 =? 0)%nat eqn:E0.
    { apply Nat.eqb_eq in E0. rewrite E0 in Hnear. exists best. split; auto. left. split; auto. right. eauto. }
    apply Nat.eqb_neq in E0. assert (Hg : good_place x (cdist x (nth c seeds [])) (nth c regs 0%nat)) by (split; [tauto|split; auto]).
    change nltb with Rltb. destruct (Rltb (fst best) (cdist x (nth c seeds []))) eqn:El.
    - apply Rltb_true in El. eexists. split; [reflexivity|]. right. exists (cdist x (nth c seeds [])), (nth c regs 0%nat). split; auto.
    - apply Rltb_false in El. eexists. split; [reflexivity|]. right. exists (cdist x (nth c seeds [])), (nth c regs 0%nat). split; auto.
  Qed.

  Definition tried (pv : list R) (p : nat -> list R) (m : nat) (best : R * (list R * nat)) : Prop :=
    0 <= fst best
    /\ (forall k, (k < m)%nat -> bad_place (p k) \/ exists h r, good_place (p k) h r /\ h <= fst best)
    /\ (0 < fst best -> exists k r, (k < m)%nat /\ good_place (p k) (fst best) r /\ snd best = (p k ++ [rad pv], r)).
  Lemma trials_ok pv p : (forall k, (3 <= length (p k))%nat /\ in_range (p k) seeds /\ in_range (p k) surf) ->
    exists best, for_res 10 0 (fun m best => trial L (length seeds) t regs sf pv (p m) best) (@n0 R _, ([], 0%nat)) = Ok best
      /\ tried pv p 10 best.
  Proof.
    intros Hp.
    assert (G0 : tried pv p 0 (@n0 R _, ([], 0%nat))).
    { split; [cbn; lra|]. split; [intros; lia|]. cbn. intros. lra. }
    assert (Gs : forall k st, (0 <= k < 0 + 10)%nat -> tried pv p k st ->
      exists st', trial L (length seeds) t regs sf pv (p k) st = Ok st' /\ tried pv p (S k) st').
    { intros k st _ (H1 & H2 & H3). destruct (Hp k) as (Hx & Hr & Hr').
      destruct (@trial_ok pv (p k) st Hx Hr Hr') as (b & E & D). exists b. split; auto.
      destruct D as [(Hb & ->)|(h & r & Hg & [(Hle & ->)|(Hlt & ->)])].
      - split; auto. split.
        + intros m Hm. destruct (Nat.eq_dec m k) as [->|]; [left; auto|apply H2; lia].
        + intros H. destruct (H3 H) as (m & r & Hm & Q). exists m, r. split; [lia|auto].
      - split; auto. split.
        + intros m Hm. destruct (Nat.eq_dec m k) as [->|]; [right; eauto|apply H2; lia].
        + intros H. destruct (H3 H) as (m & r' & Hm & Q). exists m, r'. split; [lia|auto].
      - split; [cbn; lra|]. cbn [fst snd]. split.
        + intros m Hm. destruct (Nat.eq_dec m k) as [->|]; [right; exists h, r; split; auto; lra|].
          destruct (H2 m ltac:(lia)) as [|(h' & r' & Q & Q')]; [left; auto|right; exists h', r'; split; auto; lra].
        + intros _. exists k, r. split; [lia|]. split; auto. }

    assert (G : forall n lo st, (lo + n <= 10)%nat -> tried pv p lo st ->
      exists b, for_res n lo (fun m best => trial L (length seeds) t regs sf pv (p m) best) st = Ok b /\ tried pv p (lo + n) b).
    { induction n as [|n IH]; intros lo st Hl Ht; cbn [for_res]; [exists st; rewrite Nat.add_0_r; auto|].
      destruct (Gs lo st ltac:(lia) Ht) as (s1 & E1 & T1). rewrite E1. cbn [bind].
      destruct (IH (S lo) s1 ltac:(lia) T1) as (b & Eb & Tb). exists b. split; auto.
      replace (lo + S n)%nat with (S lo + n)%nat by lia. auto. }
    exact (G 10%nat 0%nat _ ltac:(lia) G0).
  Qed.

  Lemma sphere_len s : sphere s -> (3 <= length s)%nat. Proof. intros (-> & _). lia. Qed.
  Lemma neighbour_sphere i first sn : neighbour edge corner i first sn -> sphere sn.
  Proof.
    intros (j & (Hj & _) & [(_ & ->)|(_ & k & (Hk & _) & ->)]).
    - apply (proj1 (Forall_forall _ _) Hedge), nth_In; auto.
    - apply (proj1 (Forall_forall _ _) Hcorner), nth_In; auto.
  Qed.

  Lemma side_spec i first k3 k2 : (i < length edge)%nat -> (forall sn, first = Some sn -> 0 < cdist (nth i edge []) sn) ->
    match side fuel L (length seeds) t regs sf ef cf dir3 dir2 i (nth i edge []) (dir_of (nth i edge []) first) k3 k2 with
    | Ok (out, eo, _, _) =>
        exists sn, neighbour edge corner i first sn /\ 0 < cdist (nth i edge []) sn
          /\ Some eo = dir_of (nth i edge []) (Some sn) /\ outcome seeds regs surf (nth i edge []) sn out
    | UB => ~ (has_neighbour edge corner i first /\ forall sn, neighbour edge corner i first sn -> meet (nth i edge []) sn)
    | Fuel => True
    end.
  Proof.
    intros Hi Hfirst. set (so := nth i edge []) in *.
    assert (Hin : In so edge) by (apply nth_In; auto).
    assert (Hso : sphere so) by (apply (proj1 (Forall_forall _ _) Hedge); auto).
    destruct (Hsmall so Hin) as (Hr1 & Hr2 & Hr3).
    unfold side. pose proof (@edge_neighbour_spec edge corner ef cf i first Hef Hcf Hi (sphere_len Hso) Hfirst) as G. fold so in G.
    destruct (edge_neighbour ef cf i so (dir_of so first)) as [[sn dst]| |]; cbn [bind]; [|intros (G1 & _); exact (G Hr1 Hr2 G1)|exact Logic.I].
    destruct G as (Hn & ->). pose proof (neighbour_sphere Hn) as Hsn.
    rewrite axis_of_R. destruct (Req_EM_T (cdist so sn) 0) as [Ez|Ez]; cbn [bind].
    { intros (_ & G). destruct (G sn Hn) as (G1 & _). lra. }
    assert (Hpos : 0 < cdist so sn) by (pose proof (cdist_nonneg so sn); lra).
    set (eo := row3 (fun d => (vec so d - vec sn d) / cdist so sn)).
    destruct (tangent fuel eo dir3 k3) as [[e1 k3']| |] eqn:Et; cbn [bind]; auto.
    2:{ exfalso. clear - Et. revert k3 Et. induction fuel as [|f IH]; intros k3 Et; cbn [tangent] in Et; [discriminate|].
        destruct (_ <? _)%num in Et; [eauto|discriminate]. }
    pose proof (@tangent_Ok fuel eo dir3 k3 e1 k3' (@axis_unit so sn Ez) Et) as Hfr.
    destruct (circle_of so sn (cdist so sn)) as [c| |] eqn:Ec; cbn [bind].
    3:{ rewrite circle_of_R in Ec. destruct (Rltb _ 0) in Ec; discriminate. }
    2:{ intros (_ & G). pose proof (@meet_circle so sn (proj2 Hso) (proj2 Hsn) (G sn Hn)) as Hq.
        rewrite circle_of_R in Ec. destruct (Rltb _ 0) eqn:El; [|discriminate]. apply Rltb_true in El. lra. }
    destruct (@circle_of_Ok so sn c (proj2 Hso) (proj2 Hsn) Hpos Ec) as (Hcc & _ & _ & _).
    assert (Hcl : (3 <= length c)%nat) by (destruct Hcc as (-> & _); lia).
    destruct (@tree_in_sphere_full seeds t c (gv c 3%nat) HI Hcl) as (l & El & Hnd & Hl & Hall). rewrite El. cbn [bind].
    change (gv c 3%nat) with (rad c) in *.
    destruct (2 <? length l)%nat eqn:E2.
    { apply Nat.ltb_lt in E2. exists sn. split; auto. split; auto. split; [reflexivity|]. exists c. split; auto. left. split; auto.
      destruct l as [|a [|b [|d l]]]; cbn in E2; try lia. exists [a; b; d]. split.
      - inversion Hnd as [|? ? N1 Hnd1]; subst. inversion Hnd1 as [|? ? N2 Hnd2]; subst. inversion Hnd2 as [|? ? N3 Hnd3]; subst.
        repeat constructor; cbn in *; tauto.
      - split; auto. apply Forall_forall. intros m Hm. apply Hl. cbn in *. tauto. }
    apply Nat.ltb_ge in E2.
    assert (Hns : ~ surely_crowded seeds c).
    { intros (l' & N' & E' & F'). assert (incl l' l). { intros m Hm. apply (proj1 (Forall_forall _ _) F') in Hm. apply Hall; tauto. }
      pose proof (NoDup_incl_length N' H). lia. }
    set (p := fun m => circle_point c e1 (cross3 eo e1) (dir2 (k2 + m)%nat)).
    assert (Hon : forall m, on_circle so sn c (p m)).
    { intros m. apply (@circle_point_ok so sn c e1 (dir2 (k2 + m)%nat) (proj2 Hso) (proj2 Hsn) Hpos Ec Hfr). apply Hdir. }
    destruct (@trials_ok c p) as ([h [y r]] & Eb & T1 & T2 & T3).
    { intros k. split; [unfold p, circle_point; rewrite row3_length; lia|]. apply Hr3. apply (Hon k). }
    change (for_res 10 0 _ _) with (for_res 10 0 (fun m best => trial L (length seeds) t regs sf c (p m) best) (@n0 R _, ([], 0%nat))).
    rewrite Eb. cbn [bind fst snd] in *. change nltb with Rltb. rewrite tol_eq.
    assert (Hcand : Forall (on_circle so sn c) (map p (seq 0 10))).
    { apply Forall_forall. intros x Hx. apply in_map_iff in Hx. destruct Hx as (m & <- & _). apply Hon. }
    destruct (Rltb h (1 / 10 ^ 10)) eqn:Eh.
    - apply Rltb_true in Eh. exists sn. split; auto. split; auto. split; [reflexivity|]. exists c. split; auto. right. split; auto.
      exists (map p (seq 0 10)). split; [now rewrite map_length, seq_length|]. split; auto. left. split; auto.
      apply Forall_forall. intros x Hx. apply in_map_iff in Hx. destruct Hx as (m & <- & Hm). apply in_seq in Hm.
      destruct (T2 m ltac:(lia)) as [[Hb|(h' & Hb)]|(h' & r' & (_ & Hg & _) & Hle)]; [left; auto| |].
      + right. exists h', 0%nat. auto.
      + right. exists h', r'. split; auto. right. lra.
    - apply Rltb_false in Eh. pose proof small_tol. destruct (T3 ltac:(lra)) as (m & r' & Hm & Hg & Es). injection Es as -> ->.
      exists sn. split; auto. split; auto. split; [reflexivity|]. exists c. split; auto. right. split; auto.
      exists (map p (seq 0 10)). split; [now rewrite map_length, seq_length|]. split; auto. right.
      exists (p m), h, r'. split; [apply in_map, in_seq; lia|]. split; [destruct Hg as (? & ? & ?); repeat split; auto|]. split; auto.
      apply Forall_forall. intros x Hx. apply in_map_iff in Hx. destruct Hx as (m' & <- & Hm'). apply in_seq in Hm'.
      destruct (T2 m' ltac:(lia)) as [[Hb|(h' & Hb)]|(h' & rr & (Ho & Hg' & Hrr) & Hle)]; [left; left; auto| |].
      + left. right. exists h', 0%nat. auto.
      + destruct (Rlt_le_dec h' h); [left; right; exists h', rr; split; auto|]. right. exists rr.
        assert (h' = h) by lra. subst h'. repeat split; auto.
  Qed.
End Side.

(** ** All edge spheres *)
(** More fuel does not change the result of the smoothing. *)
Lemma lip_passes_more L (sorted : list R) nbrs : forall f f' sz, (f <= f')%nat -> lip_passes f L sorted nbrs sz <> Fuel ->
  lip_passes f' L sorted nbrs sz = lip_passes f L sorted nbrs sz.
Proof.
  induction f as [|f IH]; intros [|f'] sz Hf E; try lia; try congruence; [contradiction E; reflexivity|].
  cbn [lip_passes] in *. destruct (lip_pass L sorted nbrs sz) as [[sz' ch]| |]; cbn [bind] in *; auto.
  destruct ch; auto. apply IH; auto. lia.
Qed.
Lemma lip_seeds_any L l t fuel : 0 <= L -> indexes l t -> Forall sphere l ->
  match lip_seeds fuel L t l with Ok l' => smoothed L l l' | UB => False | Fuel => True end.
Proof.
  intros HL HI Hs. destruct (lip_seeds fuel L t l) as [l'| |] eqn:E; auto; [eapply lip_seeds_Ok; eauto|].
  destruct (@lip_seeds_ok L l t HL HI Hs) as (m & Hm). destruct (Hm (Nat.max m fuel) ltac:(lia)) as (l' & E' & _).
  destruct t as [[[lk root] old] sorted]. unfold lip_seeds in *.
  destruct (mapr _ _) as [sz| |] in E, E'; cbn [bind] in *; try discriminate.
  unfold mesher_lipschitz in *. destruct (mapr _ _) as [nbrs| |] in E, E'; cbn [bind] in *; try discriminate.
  destruct (lip_passes fuel L sorted nbrs sz) as [sz'| |] eqn:Ep; cbn [bind] in *; try discriminate;
    rewrite (@lip_passes_more L sorted nbrs fuel (Nat.max m fuel) sz ltac:(lia)), Ep in E' by congruence; cbn [bind] in E'; congruence.
Qed.
Section Whole.
  Variables (fuel lfuel : nat) (L : R) (seeds : list (list R)) (regs : list nat) (surf edge corner sizing : list (list R))
    (dir3 dir2 : nat -> list R).
  Hypothesis (HL : 0 <= L < 1) (Hne : seeds <> []) (Hseeds : Forall sphere seeds) (Hregs : length regs = length seeds).
  Hypothesis (Hslope : slope L surf) (Hedge : Forall sphere edge) (Hcorner : Forall sphere corner) (Hsmall : small_setting seeds surf edge corner).
  Hypothesis (Hdir : forall k, nth 0 (dir2 k) 0 * nth 0 (dir2 k) 0 + nth 1 (dir2 k) 0 * nth 1 (dir2 k) 0 = 1).

  Lemma small_shrunk seeds1 : shrunk seeds seeds1 -> small_setting seeds1 surf edge corner.
  Proof.
    intros (El & Hs) so Hin. destruct (Hsmall so Hin) as (H1 & H2 & H3). split; auto. split; auto. intros y Hy. destruct (H3 y Hy) as (H4 & H5).
    split; auto. intros s Hs'. apply In_nth with (d := []) in Hs'. destruct Hs' as (k & Hk & <-). rewrite El in Hk.
    destruct (Hs k Hk) as (_ & Hc & _). rewrite (@cdist_ext y y (nth k seeds1 []) (nth k seeds [])); auto. apply H4, nth_In; auto.
  Qed.

  Definition all_out (seeds1 : list (list R)) (m : nat) (st : list (list R * nat) * nat * nat) : Prop :=
    exists outs, length outs = m /\ fst (fst st) = concat outs
      /\ forall i, (i < m)%nat -> edge_outcome seeds1 regs surf edge corner i (nth i outs []).

  Theorem ensure_spec :
    match ensure_edge_seeds fuel lfuel L seeds regs surf edge corner sizing dir3 dir2 with
    | Ok (seeds', regs') => exists seeds1 outs, smoothed L seeds seeds1
        /\ length outs = length edge
        /\ (forall i, (i < length edge)%nat -> edge_outcome seeds1 regs surf edge corner i (nth i outs []))
        /\ seeds' = seeds1 ++ map fst (concat outs) /\ regs' = regs ++ map snd (concat outs)
    | UB => (length surf < length corner)%nat \/ (length surf < length sizing)%nat \/ ~ linked edge corner
    | Fuel => True
    end.
  Proof.
    unfold ensure_edge_seeds. destruct (@index_tree_ok seeds Hne) as (t & Et & HI). rewrite Et. cbn [bind].
    pose proof (@lip_seeds_any L seeds t lfuel (proj1 HL) HI Hseeds) as Hlip.
    destruct (lip_seeds lfuel L t seeds) as [seeds1| |]; cbn [bind]; auto; try contradiction.
    pose proof (proj1 Hlip) as Hsh.
    destruct (make_family_ok surf) as (sf & Es & Hsf). rewrite Es. cbn [bind].
    destruct (make_family_ok edge) as (ef & Ee & Hef). rewrite Ee. cbn [bind].
    unfold undersized_family. destruct (length surf <? length corner)%nat eqn:Eu; cbn [bind]; [apply Nat.ltb_lt in Eu; auto|].
    destruct (make_family_ok corner) as (cf & Ec & Hcf). rewrite Ec. cbn [bind].
    destruct (length surf <? length sizing)%nat eqn:Eu'; cbn [bind]; [apply Nat.ltb_lt in Eu'; auto|].
    destruct (make_family_ok sizing) as (zf & Ez & _). rewrite Ez. cbn [bind].
    assert (HI1 : indexes seeds1 t). { destruct Hsh as (El & Hs). apply (@indexes_ext seeds seeds1 t); auto. intros i d Hi Hd. destruct (Hs i Hi) as (_ & Hc & _). auto. }
    assert (Hl1 : length regs = length seeds1) by (destruct Hsh as (El & _); congruence).
    assert (Hne1 : seeds1 <> []) by (intros ->; destruct Hsh as (El & _); destruct seeds; [congruence|discriminate]).
    pose proof (small_shrunk Hsh) as Hsm1.
    pose proof (@for_res_any _ (all_out seeds1) (~ linked edge corner)
      (edge_sphere fuel L (length seeds1) t regs sf ef cf dir3 dir2) (length edge) 0 ([], 0%nat, 0%nat)) as G.
    assert (G0 : all_out seeds1 0 ([], 0%nat, 0%nat)) by (exists []; split; [auto|split; [auto|intros; lia]]).
    assert (Gs : forall i st, (0 <= i < 0 + length edge)%nat -> all_out seeds1 i st ->
      match edge_sphere fuel L (length seeds1) t regs sf ef cf dir3 dir2 i st with
      | Ok st' => all_out seeds1 (S i) st' | UB => ~ linked edge corner | Fuel => True end).
    { intros i [[added k3] k2] Hi (outs & El & Ea & Ho). cbn [fst] in Ea. subst added. unfold edge_sphere.
      rewrite (proj1 Hef). rewrite (get_nth _ []) by lia. cbn [bind].
      pose proof (@side_spec fuel L seeds1 t regs surf edge corner sf ef cf dir3 dir2 HL HI1 Hne1 Hl1 Hsf Hslope Hef Hcf Hedge Hcorner Hsm1 Hdir
        i None k3 k2 ltac:(lia) ltac:(discriminate)) as S1. change (dir_of _ None) with (@None (list R)) in S1.
      destruct (side fuel L _ t regs sf ef cf dir3 dir2 i (nth i edge []) None k3 k2) as [[[[o1 eo] k3'] k2']| |]; cbn [bind]; auto.
      2:{ intros Hlk. apply S1. destruct (Hlk i ltac:(lia)) as (H1 & H2). split; auto. intros sn Hn. exact (proj1 (H2 sn Hn)). }
      destruct S1 as (sn1 & N1 & P1 & Eo & O1). rewrite Eo.
      pose proof (@side_spec fuel L seeds1 t regs surf edge corner sf ef cf dir3 dir2 HL HI1 Hne1 Hl1 Hsf Hslope Hef Hcf Hedge Hcorner Hsm1 Hdir
        i (Some sn1) k3' k2' ltac:(lia)) as S2. specialize (S2 ltac:(intros ? E; injection E as <-; exact P1)).
      destruct (side fuel L _ t regs sf ef cf dir3 dir2 i (nth i edge []) (dir_of _ _) k3' k2') as [[[[o2 eo2] k3''] k2'']| |]; cbn [bind]; auto.
      2:{ intros Hlk. apply S2. destruct (Hlk i ltac:(lia)) as (H1 & H2). destruct (H2 sn1 N1) as (_ & H3 & H4). split; auto. }
      destruct S2 as (sn2 & N2 & P2 & _ & O2).
      exists (outs ++ [o1 ++ o2]). split; [rewrite app_length; cbn; lia|]. cbn [fst].
      split; [rewrite concat_app; cbn [concat]; now rewrite app_nil_r|].
      intros k Hk. destruct (Nat.eq_dec k i) as [->|].
      - rewrite app_nth2 by lia. rewrite El, Nat.sub_diag. cbn [nth]. exists sn1, sn2, o1, o2. auto.
      - rewrite app_nth1 by lia. apply Ho. lia. }
    specialize (G Gs G0). cbn [Nat.add] in G.
    destruct (for_res (length edge) 0 _ _) as [[[added a] b]| |]; cbn [bind]; auto.
    destruct G as (outs & El & Ea & Ho). cbn [fst] in Ea. subst added. exists seeds1, outs. auto.
  Qed.
End Whole.
