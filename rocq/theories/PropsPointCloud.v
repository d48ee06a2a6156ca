(** C53, C71: the surface point cloud and the removal of degenerate faces. *)
From Coq Require Import Reals Lra.
From Verif Require Import Base Num Vec Geometry GeometrySpec GeometryProofs Sampling SamplingSpec PolyMeshProofs SparseCholProofs PointCloud PointCloudSpec PointCloudProofs.
Local Open Scope R_scope.

(** ** C71: without degenerate faces, the cloud holds for every face its corners, the
    midpoints of its edges and [extra] more of its points, then [budget] points each on the
    face that the cumulated areas give for its random number; every point carries the
    number of its face and the normal of that face. *)
Theorem C71_surface_cloud (points : list (list R)) recs (u : nat -> R) budget extra :
  Forall (fun p => length p = 3%nat) points -> Forall (valid_face points) recs ->
  Forall (fun f => ~ degenerate points f) recs -> recs <> [] -> (forall k, 0 <= u k < 1) ->
  let n := length recs in
  let areas := map (face_area points) recs in
  exists s r blocks l, surface_cloud points recs u budget extra = Ok (s, r)
    /\ pc_points s = concat blocks ++ l /\ length blocks = n /\ length l = budget
    /\ (forall j f, nth_error recs j = Some f -> exists v more,
          normal_to points f v
          /\ nth_error blocks j = Some (map (fun x => CPoint x v j) (landmarks points f) ++ more)
          /\ length more = extra n
          /\ Forall (fun e => cp_face e = j /\ cp_normal e = v /\ on_face points f (cp_x e)) more)
    /\ (forall t e, nth_error l t = Some e -> exists f,
          nth_error recs (cp_face e) = Some f
          /\ chosen areas (u (2 * n * extra n + 3 * t)%nat) (cp_face e)
          /\ on_face points f (cp_x e) /\ normal_to points f (cp_normal e))
    /\ (forall f x, In f recs -> In x (landmarks points f) -> on_face points f x)
    /\ r = sqrt (total areas / INR budget)
    /\ pc_num s = n /\ pc_ptr s = seq 0 n /\ pc_live s = repeat true n.
Proof.
  intros Hr Hv Hd Hn Hu. cbn zeta.
  assert (G : forall p, (p < length recs)%nat -> ~ degenerate points (nth p recs [])).
  { intros p L. eapply Forall_forall in Hd; [exact Hd|]. now apply nth_In. }
  destruct (@full_run points recs u Hr Hv Hu extra budget Hn G) as (s & r & bl & l & E & N & P & Lv & Pt & Lb & Ll & B & A & R & _).
  exists s, r, bl, l. split; [exact E|]. split; [exact Pt|]. split; [exact Lb|]. split; [exact Ll|]. split; [|split; [|split; [|split; [exact R|auto]]]].
  - intros j f Ej. assert (Lj := nth_error_Some_lt _ _ Ej). destruct (B j Lj) as (v & more & Nv & Lm & Eb & Am).
    rewrite (nth_error_nth _ _ [] Ej) in *. exists v, more. split; [exact Nv|]. split; [|auto].
    rewrite (nth_error_nth' bl [] (n := j)) by lia. now rewrite Eb.
  - intros t e Et. destruct (A t e Et) as (Pk & O & T). assert (Lf : (cp_face e < length recs)%nat) by (destruct Pk as (L & _); now rewrite map_length in L).
    exists (nth (cp_face e) recs []). split; [now apply nth_error_nth'|]. auto.
  - intros f x If Ix. eapply landmarks_on; eauto.
Qed.

(** ** C53: degenerate faces.  Whatever the faces, the loop ends, a face is removed only if
    it is degenerate, and every face before the last one left has its points and its
    normal.  Missing from the full statement: the last face that is left may be skipped
    (see below), so it may lack its normal, and it may be degenerate. *)
Theorem C53_removal_partial (points : list (list R)) recs (u : nat -> R) extra :
  Forall (fun p => length p = 3%nat) points -> Forall (valid_face points) recs -> (forall k, 0 <= u k < 1) ->
  let n := length recs in
  let face := fun p => nth p recs [] in
  exists s done blocks, face_loop points recs u (S n) extra (start recs) 0 false = Ok s
    /\ (done = pc_num s \/ (S done = pc_num s /\ (pc_num s < n)%nat))
    /\ (forall a b, (a < pc_num s)%nat -> (b < pc_num s)%nat -> nth a (pc_ptr s) 0%nat = nth b (pc_ptr s) 0%nat -> a = b)
    /\ (forall a, (a < pc_num s)%nat -> load recs s a = Ok (face (nth a (pc_ptr s) 0%nat)))
    /\ (forall p, (p < n)%nat -> (exists a, (a < pc_num s)%nat /\ nth a (pc_ptr s) 0%nat = p) \/ degenerate points (face p))
    /\ pc_points s = concat blocks /\ length blocks = done
    /\ (forall a, (a < done)%nat ->
          let f := face (nth a (pc_ptr s) 0%nat) in
          ~ degenerate points f /\ exists v more, normal_to points f v
          /\ nth a blocks [] = map (fun x => CPoint x v a) (landmarks points f) ++ more
          /\ Forall (fun e => cp_face e = a /\ cp_normal e = v /\ on_face points f (cp_x e)) more)
    /\ (done = pc_num s -> (0 < done)%nat -> forall budget, exists r, surface_cloud points recs u budget extra = Ok r).
Proof.
  intros Hr Hv Hu. cbn zeta. destruct (@any_run points recs u Hr Hv Hu extra) as (s & i & E & IV & O).
  destruct (iv_points IV) as (bl & Pt & Lb & B).
  exists s, i, bl. split; [exact E|]. split; [tauto|]. split; [exact (iv_nodup IV)|]. split; [intros a La; eapply load_ok; eauto|].
  split; [|split; [exact Pt|split; [exact Lb|split]]].
  - intros p Lp. destruct (iv_gone IV Lp) as [X|(_ & X)]; auto.
  - intros a La. split; [apply (iv_done IV La)|]. destruct (B a La) as (m & (v & more & Nv & _ & Eb & Am) & _). eauto 8.
  - intros Ei Li budget. exact (@all_done points recs u Hr Hv Hu extra s i IV Li Ei budget E).
Qed.

(** With exactly one degenerate face every other face is processed, unless the degenerate
    one is the last but one: then the last face takes its place, and the loop ends. *)
Theorem C53_one_degenerate (points : list (list R)) recs (u : nat -> R) extra d :
  Forall (fun p => length p = 3%nat) points -> Forall (valid_face points) recs -> (forall k, 0 <= u k < 1) ->
  let n := length recs in
  (d < n)%nat -> (forall p, (p < n)%nat -> degenerate points (nth p recs []) <-> p = d) -> (2 <= n)%nat ->
  ((d + 2)%nat <> n -> forall budget, exists r, surface_cloud points recs u budget extra = Ok r)
  /\ ((d + 2)%nat = n -> (3 <= n)%nat -> forall budget,
      let areas := map (face_area points) (firstn d recs ++ [nth (d + 1) recs []]) in
      total (firstn d areas) < u (d * (2 * extra n))%nat * total areas ->
      surface_cloud points recs u (S budget) extra = UB).
Proof.
  intros Hr Hv Hu. cbn zeta. intros Ld Hd Ln.
  destruct (@one_run points recs u Hr Hv Hu extra d Ld) as (s & i & E & IV & N & P & Good & Bad).
  { now apply Hd. } { intros p Lp Np D. apply Hd in D; auto. }
  split.
  - intros Nd budget. apply (@all_done points recs u Hr Hv Hu extra s i IV); auto. rewrite (Good Nd), N. lia.
  - intros Ed L3 budget. set (areas := map _ _). intros Hp. destruct (Bad Ed) as (-> & Z & K). unfold surface_cloud. rewrite E. cbn [bind].
    rewrite (@areas_ok points recs u Hv Hu extra s d IV). cbn [bind].
    destruct (@SamplingProofs.make_cdf_ok (kept_areas points recs s)) as (c & C & _). rewrite C. cbn [bind].
    assert (EA : kept_areas points recs s = areas).
    { unfold kept_areas, areas. rewrite N. apply list_ext. intros k. destruct (lt_dec k (length recs - 1)) as [L|L].
      - rewrite !map_nth_error'. rewrite (nth_error_nth' (seq 0 (length recs - 1)) 0%nat) by (rewrite seq_length; exact L).
        cbn [option_map]. rewrite (@seq_nth (length recs - 1) 0 k 0%nat L). cbn [Nat.add]. rewrite P.
        rewrite nth_upd by (rewrite seq_length; exact Ld). destruct (Nat.eqb_spec k d) as [->|Nk].
        + rewrite nth_error_app2, firstn_length, Nat.min_l, Nat.sub_diag by (rewrite ?firstn_length; lia). cbn [nth_error option_map].
          f_equal. f_equal. f_equal. lia.
        + rewrite nth_error_app1 by (rewrite firstn_length; lia). rewrite (@seq_nth (length recs) 0 k 0%nat) by lia. cbn [Nat.add].
          rewrite SparseCholProofs.nth_error_firstn_lt by lia. rewrite (nth_error_nth' recs []) by (lia). reflexivity.
      - rewrite !(proj2 (nth_error_None _ _)); [reflexivity| |]; rewrite map_length, ?app_length, ?firstn_length, ?seq_length; cbn; lia. }
    rewrite (@missing_normal points recs u Hr Hv Hu extra s d c (u (pc_draws s)) IV); auto; try lia.
    rewrite EA, K. exact Hp.
Qed.

(** The function works on its own copy of the number of faces: if there was a degenerate
    face, the caller ends by deleting a record twice. *)
Theorem C53_caller_refuted (points : list (list R)) recs (u : nat -> R) extra budget s r :
  Forall (fun p => length p = 3%nat) points -> Forall (valid_face points) recs -> (forall k, 0 <= u k < 1) ->
  Exists (degenerate points) recs ->
  surface_cloud points recs u budget extra = Ok (s, r) -> delete_all recs s = UB.
Proof.
  intros Hr Hv Hu (f & If & Df)%Exists_exists E.
  apply In_nth with (d := []) in If as (p & Lp & <-).
  destruct (@any_run points recs u Hr Hv Hu extra) as (s0 & i & E0 & IV & O).
  unfold surface_cloud in E. rewrite E0 in E. cbn [bind] in E.
  apply bind_Ok_inv in E as (a & _ & E). apply bind_Ok_inv in E as (c & _ & E). apply bind_Ok_inv in E as (l & _ & E).
  injection E as <- _. unfold delete_all. cbn [pc_ptr pc_live]. eapply delete_twice; [eassumption..|].
  eapply some_removed; [eassumption..|]. eauto.
Qed.

(** Cases that meet the hypotheses. *)
Definition cube_corner : list (list R) := [[0; 0; 0]; [1; 0; 0]; [0; 1; 0]; [0; 0; 1]].
Definition good1 : list nat := [3; 0; 1; 2]%nat.
Definition good2 : list nat := [3; 0; 2; 3]%nat.
Definition flat : list nat := [3; 0; 1; 1]%nat.

Lemma small : 0 < 1 / 10 ^ 10 < 1.
Proof.
  assert (H : 1 < 10 ^ 10) by (apply Rlt_pow_R1; [lra|lia]). unfold Rdiv. rewrite Rmult_1_l. split; [apply Rinv_0_lt_compat; lra|].
  rewrite <- Rinv_1. apply Rinv_lt_contravar; lra.
Qed.
Lemma norm_of v s : dot 3 v v = s * s -> 0 <= s -> norm 3 v = s.
Proof. intros E P. unfold norm. rewrite E. now apply sqrt_square. Qed.

Lemma good1_ok : valid_face cube_corner good1 /\ ~ degenerate cube_corner good1.
Proof.
  split; [split; [cbn; lia|intros i L; destruct i as [|[|[|[|]]]]; cbn; lia]|].
  unfold degenerate, sliver. cbn zeta. rewrite !(@norm_of _ 1) by (try lra; rewrite dot3; unfold vprod, sub, tri; cbn; ring).
  pose proof small. lra.
Qed.
Lemma good2_ok : valid_face cube_corner good2 /\ ~ degenerate cube_corner good2.
Proof.
  split; [split; [cbn; lia|intros i L; destruct i as [|[|[|[|]]]]; cbn; lia]|].
  unfold degenerate, sliver. cbn zeta. rewrite !(@norm_of _ 1) by (try lra; rewrite dot3; unfold vprod, sub, tri; cbn; ring).
  pose proof small. lra.
Qed.
Lemma flat_ok : valid_face cube_corner flat /\ degenerate cube_corner flat.
Proof.
  split; [split; [cbn; lia|intros i L; destruct i as [|[|[|[|]]]]; cbn; lia]|].
  unfold degenerate, sliver. cbn zeta. right. right.
  rewrite (@norm_of (vprod _ _) 0), !(@norm_of _ 1) by (try lra; rewrite dot3; unfold vprod, sub, tri; cbn; ring).
  pose proof small. lra.
Qed.
Lemma area1 : face_area cube_corner good1 = / 2.
Proof. unfold face_area. cbn zeta. rewrite (@norm_of _ 1) by (try lra; rewrite dot3; unfold vprod, sub, tri; cbn; ring). ring. Qed.
Lemma area2 : face_area cube_corner good2 = / 2.
Proof. unfold face_area. cbn zeta. rewrite (@norm_of _ 1) by (try lra; rewrite dot3; unfold vprod, sub, tri; cbn; ring). ring. Qed.

Example C71_hypotheses :
  Forall (fun p => length p = 3%nat) cube_corner /\ Forall (valid_face cube_corner) [good1; good2]
  /\ Forall (fun f => ~ degenerate cube_corner f) [good1; good2].
Proof. pose proof good1_ok. pose proof good2_ok. split; [repeat constructor|]. split; repeat (apply Forall_cons; [tauto|]); constructor. Qed.

(** The full statement of C53 is false: faces good, flat, good; the third one takes the place
    of the second one and never gets a normal.  A first random number of 3/4 falls on it. *)
Theorem C53_last_but_one_refuted :
  surface_cloud cube_corner [good1; flat; good2] (fun _ => 3 / 4) 1 (fun _ => 0%nat) = UB.
Proof.
  pose proof good1_ok as (V1 & D1). pose proof good2_ok as (V2 & D2). pose proof flat_ok as (V3 & D3).
  destruct (@C53_one_degenerate cube_corner [good1; flat; good2] (fun _ => 3 / 4) (fun _ => 0%nat) 1) as (_ & H).
  - repeat constructor.
  - repeat (apply Forall_cons; [assumption|]). constructor.
  - intros _. lra.
  - cbn. lia.
  - intros p L. destruct p as [|[|[|]]]; cbn [nth length] in *; split; intros; try lia; tauto.
  - cbn. lia.
  - apply (H eq_refl ltac:(cbn; lia) 0%nat). cbn [firstn app nth Nat.add map]. rewrite area1, area2. unfold total. cbn [fold_right firstn]. lra.
Qed.

(** The model runs: a tetrahedron, two points thrown on its faces. *)
Definition tet_points : list (list PrimFloat.float) := map (map (fun z => @nofZ _ FNum z)) [[0;0;0];[1;0;0];[0;1;0];[0;0;1]]%Z.
Example C71_run :
  match surface_cloud tet_points [[3;0;2;1];[3;0;1;3];[3;0;3;2];[3;1;2;3]]%nat
          (fun k => if Nat.even k then @nlit _ FNum 75 2 else @nlit _ FNum 125 3) 2 (fun _ => 1%nat) with
  | Ok (s, _) => (length (pc_points s), map (fun e => cp_face e) (skipn 28 (pc_points s)))
  | _ => (0%nat, [])
  end = (30%nat, [3; 0]%nat).
Proof. vm_compute. reflexivity. Qed.

Print Assumptions C71_surface_cloud.
Print Assumptions C53_removal_partial.
Print Assumptions C53_one_degenerate.
Print Assumptions C53_caller_refuted.
Print Assumptions C53_last_but_one_refuted.
