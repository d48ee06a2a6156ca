(** Proofs about the feature detection: the searches, the normals at the points and the sharp edges. *)
From Coq Require Import Reals Lra.
From Verif Require Import Base Num Vec MemoryHandler KdSpec KdTree SamplingSpec Sampling SamplingProofs Geometry GeometrySpec GeometryProofs GeometryTriProofs
  SmartTree SmartTreeSpec SmartTreeProofs SmartQueryProofs Spheres SpheresSpec PolyMesh Regions InteriorProofs SurfaceShrinkProofs SurfaceLoop SpheresProofs
  PointCloud PointCloudSpec PointCloudProofs PropsKdTree FeatureDetect DetectSpec.
Local Open Scope R_scope.

(** The value satisfies [P], or the run is undefined and [Q] holds; never out of fuel. *)
Definition outcome {A} (r : res A) (P : A -> Prop) (Q : Prop) : Prop :=
  match r with Ok v => P v | UB => Q | Fuel => False end.
Lemma outcome_bind {A B} (r : res A) (f : A -> res B) P P' Q :
  outcome r P Q -> (forall v, P v -> outcome (f v) P' Q) -> outcome (bind r f) P' Q.
Proof. intros H G. destruct r; cbn in *; auto. Qed.
Lemma outcome_weaken {A} (r : res A) (P P' : A -> Prop) (Q Q' : Prop) :
  outcome r P Q -> (forall v, P v -> P' v) -> (Q -> Q') -> outcome r P' Q'.
Proof. intros H G K. destruct r; cbn in *; auto. Qed.
Lemma fold_outcome {A St} (f : A -> St -> res St) (I : nat -> St -> Prop) (Q : Prop) : forall l i s0,
  I i s0 -> (forall k a s, nth_error l k = Some a -> I (i + k)%nat s -> outcome (f a s) (I (S (i + k))) Q) ->
  outcome (fold_res f l s0) (I (i + length l)%nat) Q.
Proof.
  induction l as [|a l IH]; intros i s0 H0 Hs; cbn [fold_res].
  - cbn. now rewrite Nat.add_0_r.
  - eapply outcome_bind.
    + specialize (Hs 0%nat a s0 eq_refl). rewrite Nat.add_0_r in Hs. apply Hs. exact H0.
    + intros s1 H1. cbn [length]. replace (i + S (length l))%nat with (S i + length l)%nat by lia. apply IH; [exact H1|].
      intros k b s E Hk. replace (S i + k)%nat with (i + S k)%nat in * by lia. apply Hs; auto.
Qed.

(** Coordinates within a quarter of DBL_MAX. *)
Definition small (x : nat -> R) : Prop := forall d, (d < 3)%nat -> Rabs (x d) <= @dbl_max R _ / 4.
Lemma dblmax_pos : 0 < @dbl_max R _.
Proof. apply dbl_max_pos. Qed.

Lemma dot3_nonneg v : 0 <= dot 3 v v.
Proof. rewrite dot3. pose proof (Rle_0_sqr (v 0%nat)). pose proof (Rle_0_sqr (v 1%nat)). pose proof (Rle_0_sqr (v 2%nat)). unfold Rsqr in *. lra. Qed.
Lemma small_dist a b : small a -> small b -> vdist 3 a b < @dbl_max R _.
Proof.
  intros A B. pose proof dbl_max_pos as P. set (M := @dbl_max R _) in *.
  assert (D : forall d, (d < 3)%nat -> (a d - b d) * (a d - b d) <= (M / 2) * (M / 2)).
  { intros d L. specialize (A d L). specialize (B d L). fold M in A, B.
    assert (H : Rabs (a d - b d) <= M / 2) by (unfold Rabs in *; repeat destruct (Rcase_abs _); lra).
    rewrite <- (Rabs_Rabsolu (a d - b d)) in H. change ((a d - b d) * (a d - b d)) with (Rsqr (a d - b d)). change (M / 2 * (M / 2)) with (Rsqr (M / 2)).
    rewrite (Rsqr_abs (a d - b d)). apply Rsqr_incr_1; [now rewrite Rabs_Rabsolu in H|apply Rabs_pos|lra]. }
  unfold vdist, norm. rewrite dot3. apply Rsqr_incrst_0; [|apply sqrt_pos|lra]. unfold Rsqr. rewrite sqrt_sqrt.
  - pose proof (D 0%nat ltac:(lia)). pose proof (D 1%nat ltac:(lia)). pose proof (D 2%nat ltac:(lia)). nra.
  - pose proof (Rle_0_sqr (a 0%nat - b 0%nat)). pose proof (Rle_0_sqr (a 1%nat - b 1%nat)). pose proof (Rle_0_sqr (a 2%nat - b 2%nat)). unfold Rsqr in *. lra.
Qed.

(** * A tree that holds a cloud *)
Definition item_of_c (e : cpt) : item := It (cp_x e) (cp_normal e) (Some [2%nat; cp_face e]).
Definition well (e : cpt) : Prop := length (cp_x e) = 3%nat /\ length (cp_normal e) = 3%nat /\ small (vec (cp_x e)).
Definition tree_for (C : list cpt) (t : stree R) : Prop :=
  ready t /\ st_nd t = 3%nat /\ holds t (map item_of_c C).

Lemma tree_of_ok C : Forall well C -> C <> [] -> exists t, tree_of C = Ok t /\ tree_for C t.
Proof.
  intros W Ne. destruct C as [|e C]; [congruence|]. clear Ne. unfold tree_of. cbn [map app].
  set (ops := map (fun e => OpAdd (cp_x e) (Some (cp_normal e)) (Some [2%nat; cp_face e])) C ++ [OpBuild]).
  assert (G : forall e', well e' -> good_args 3 (cp_x e') (Some (cp_normal e')) (Some [2%nat; cp_face e'])).
  { intros e' (L1 & L2 & _). split; [lia|]. split; intros l [= <-]; [lia|]. split; [discriminate|cbn; lia]. }
  destruct (@C07_any_history (fun _ _ => false) 3 (cp_x e) (Some (cp_normal e)) (Some [2%nat; cp_face e]) ops) as (t & items & E & Rd & Nd & Ho & _ & Ex).
  - lia.
  - apply G. now inversion W.
  - apply Forall_app. split; [|repeat constructor]. apply Forall_map. eapply Forall_impl; [|exact (Forall_inv_tail W)]. intros a Wa. apply G. exact Wa.
  - exists t. split; [exact E|]. split; [exact Rd|]. split; [exact Nd|]. rewrite Ex in Ho.
    + assert (A : forall l, Forall well l -> added 3 (map (fun e => OpAdd (cp_x e) (Some (cp_normal e)) (Some [2%nat; cp_face e])) l ++ [OpBuild]) = map item_of_c l).
      { induction l as [|a l IH]; intros Wl; [reflexivity|]. cbn [map app added]. f_equal; [|apply IH; now inversion Wl].
        assert (Wa := Forall_inv Wl). destruct Wa as (_ & La & _). unfold item_of, item_of_c. rewrite (firstn_all2 (cp_normal a)) by lia. reflexivity. }
      cbn [added] in Ho. rewrite <- (A (e :: C) W). exact Ho.
    + intros H. apply in_app_iff in H as [H|[H|[]]]; [|discriminate]. apply in_map_iff in H as (a & Ha & _). discriminate.
Qed.

Section Search.
  Variables (C : list cpt) (t : stree R) (thr : R).
  Hypothesis W : Forall well C.
  Hypothesis T : tree_for C t.
  Notation nrm := (map (@cp_normal R) C).
  Let Rd : ready t. Proof. apply T. Qed.
  Let Nd : st_nd t = 3%nat. Proof. apply T. Qed.
  Lemma t_pts : st_pts t = map (@cp_x R) C.
  Proof. destruct T as (_ & _ & H & _). rewrite H, map_map. reflexivity. Qed.
  Lemma t_nrm : st_nrm t = Some nrm.
  Proof. destruct T as (_ & _ & _ & H & _). rewrite H, map_map. reflexivity. Qed.
  Lemma t_att : st_att t = Some (map (fun e => Some [2%nat; cp_face e]) C).
  Proof. destruct T as (_ & _ & _ & _ & H). rewrite H, map_map. reflexivity. Qed.
  Lemma t_len : length (st_pts t) = length C.
  Proof. rewrite t_pts. apply map_length. Qed.
  Lemma nrm_len : length nrm = length (st_pts t).
  Proof. now rewrite t_len, map_length. Qed.
  Lemma nrm_rows : forall v, In v nrm -> (st_nd t <= length v)%nat.
  Proof. intros v (e & <- & I)%in_map_iff. eapply Forall_forall in W; [|exact I]. destruct W as (_ & L & _). rewrite Nd. lia. Qed.

  Lemma coord_at j e k : nth_error C j = Some e -> coord (st_pts t) j k = vec (cp_x e) k.
  Proof. intros E. unfold coord. rewrite t_pts. rewrite (nth_error_nth (map (@cp_x R) C) j [] (map_nth_error _ _ _ E)). reflexivity. Qed.
  Lemma normal_at_c j e : nth_error C j = Some e -> normal_at nrm j = vec (cp_normal e).
  Proof. intros E. unfold normal_at. rewrite (nth_error_nth nrm j [] (map_nth_error _ _ _ E)). reflexivity. Qed.
  Lemma offset_at j e y : nth_error C j = Some e -> forall k, offset t y j k = view y e k.
  Proof. intros E k. unfold offset, view. now rewrite (@coord_at j e k E). Qed.
  Lemma norm_offset j e y : nth_error C j = Some e -> norm (st_nd t) (offset t y j) = away y e.
  Proof. intros E. rewrite Nd. unfold away, norm. f_equal. apply dot_ext; intros k _; now apply offset_at. Qed.
  Lemma dist_at j e y : nth_error C j = Some e -> dist_to t y j = away y e.
  Proof. intros E. rewrite (@dist_to_vdist t y j Nd). unfold vdist, away, norm. f_equal. apply dot_ext; intros k _; apply (@offset_at _ _ y E). Qed.
  Lemma cos_at j e y : nth_error C j = Some e -> cosine (st_nd t) (offset t y j) (normal_at nrm j) = cos_to y e.
  Proof.
    intros E. unfold cosine, cos_to. rewrite (@norm_offset _ _ y E), (@normal_at_c _ _ E), Nd. f_equal.
    apply dot_ext; intros k _; [now apply offset_at|reflexivity].
  Qed.
  Lemma sin_at j e y : nth_error C j = Some e -> sine (st_nd t) (offset t y j) (normal_at nrm j) = sin_to y e.
  Proof. intros E. unfold sine, sin_to. now rewrite (@cos_at _ _ y E). Qed.

  (** The answer of one of the searches. *)
  Definition answer (same : cpt -> Prop) (y : list R) (b : nat * R) : Prop :=
    (b = (length C, @dbl_max R _) /\ blind same C)
    \/ exists j e, nth_error C j = Some e /\ b = (j, away y e) /\ facing same C y e.
  Lemma away_small y e : In e C -> small (vec y) -> away y e < @dbl_max R _.
  Proof. intros I Sy. apply small_dist; [exact Sy|]. eapply Forall_forall in W; [|exact I]. apply W. Qed.
  Lemma nearest_answer (P : nat -> Prop) same y b : small (vec y) ->
    (forall j e, nth_error C j = Some e -> (P j <-> same e)) ->
    (forall e, In e C -> same e \/ ~ same e) ->
    nearest (dist_to t y) (fun j => ~ P j) (all_points t) (length (st_pts t), dbl_max) b -> answer same y b.
  Proof.
    intros Sy HP Dec [(-> & A)|(i & Ii & Ei & -> & Li & A)].
    - left. rewrite t_len. split; [reflexivity|]. intros e Ie. destruct (Dec e Ie) as [|Ns]; [assumption|exfalso].
      apply In_nth_error in Ie as (j & Ej). specialize (A j). cbn [snd] in A.
      assert (L := nth_error_Some_lt _ _ Ej).
      specialize (A ltac:(apply in_seq; rewrite t_len; lia) ltac:(rewrite (HP j e Ej); exact Ns)).
      rewrite (@dist_at _ _ y Ej) in A. pose proof (@away_small y e (nth_error_In _ _ Ej) Sy). lra.
    - right. unfold all_points in Ii. apply in_seq in Ii. rewrite t_len in Ii.
      destruct (nth_error C i) as [e|] eqn:E; [|apply nth_error_None in E; lia].
      exists i, e. split; [exact E|]. split; [now rewrite (@dist_at _ _ y E)|]. split; [eapply nth_error_In; eauto|].
      split; [now rewrite <- (HP i e E)|]. intros e' Ie' Ns. apply In_nth_error in Ie' as (j & Ej).
      rewrite <- (@dist_at _ _ y E), <- (@dist_at _ _ y Ej). apply A; [apply in_seq; rewrite t_len; pose proof (nth_error_Some_lt _ _ Ej); lia|].
      now rewrite (HP j e' Ej).
  Qed.
  Hypothesis Ht : thr < 1.
  Lemma sheet_dec tol y e : same_sheet thr tol y e \/ ~ same_sheet thr tol y e.
  Proof. unfold same_sheet. destruct (Rle_dec (away y e) tol); [auto|]. destruct (Rlt_dec thr (sin_to y e)); [auto|]. right. tauto. Qed.
  Lemma curve_dec tol y e : same_curve thr tol y e \/ ~ same_curve thr tol y e.
  Proof. unfold same_curve. destruct (Rle_dec (away y e) tol); [auto|]. destruct (Rlt_dec thr (Rabs (cos_to y e))); [auto|]. right. tauto. Qed.
  Lemma sheet_search tol y : (3 <= length y)%nat -> small (vec y) ->
    exists b, closest_nonsmooth t y tol thr dbl_max = Ok b /\ answer (same_sheet thr tol y) y b.
  Proof.
    intros Ly Sy. destruct (@C59_closest_nonsmooth t nrm y tol thr dbl_max Rd t_nrm nrm_len nrm_rows) as (b & E & N);
      [rewrite Nd; lia|left; apply dbl_max_pos|].
    exists b. split; [exact E|]. eapply nearest_answer; [exact Sy| |intros; apply sheet_dec|exact N].
    intros j e Ej. unfold smooth_from, same_sheet. rewrite (@norm_offset _ _ y Ej), (@sin_at _ _ y Ej).
    destruct (Rle_dec (away y e) tol); intuition lra.
  Qed.
  Lemma curve_search tol y : (3 <= length y)%nat -> small (vec y) ->
    exists b, closest_nonsmooth_edge t y tol thr dbl_max = Ok b /\ answer (same_curve thr tol y) y b.
  Proof.
    intros Ly Sy. destruct (@C59_closest_nonsmooth_edge t nrm y tol thr dbl_max Rd t_nrm nrm_len nrm_rows) as (b & E & N);
      [rewrite Nd; lia|left; apply dbl_max_pos|].
    exists b. split; [exact E|]. eapply nearest_answer; [exact Sy| |intros; apply curve_dec|exact N].
    intros j e Ej. unfold smooth_edge, same_curve. rewrite (@norm_offset _ _ y Ej), (@cos_at _ _ y Ej).
    destruct (Rle_dec (away y e) tol); intuition lra.
  Qed.
  Lemma explained_dec ns y e : explained thr ns y e \/ ~ explained thr ns y e.
  Proof.
    unfold explained.
    assert (D : (exists n, In n ns /\ thr < Rabs (dot 3 (vec n) (vec (cp_normal e)))) \/ ~ exists n, In n ns /\ thr < Rabs (dot 3 (vec n) (vec (cp_normal e)))).
    { induction ns as [|n l [(m & I & L)|IH]]; [right; intros (m & [] & _)|left; exists m; split; [now right|auto]|].
      destruct (Rlt_dec thr (Rabs (dot 3 (vec n) (vec (cp_normal e))))) as [L|L]; [left; exists n; split; [now left|auto]|].
      right. intros (m & [<-|I] & Lm); [contradiction|]. apply IH. eauto. }
    destruct (Rle_dec (away y e * away y e) (1 / 10 ^ 10)); [tauto|]. destruct (Rlt_dec thr (sin_to y e)); [tauto|]. right. tauto.
  Qed.
  Lemma normals_search ns y : (3 <= length y)%nat -> small (vec y) -> (forall n, In n ns -> length n = 3%nat) ->
    exists b, closest_nonsmooth_normals t y ns thr dbl_max = Ok b /\ answer (explained thr ns y) y b.
  Proof.
    intros Ly Sy Ln. destruct (@C59_closest_nonsmooth_normals t nrm y ns thr dbl_max Rd t_nrm nrm_len nrm_rows) as (b & E & N);
      [rewrite Nd; lia|intros v I; rewrite Nd, (Ln v I); lia|left; apply dbl_max_pos|].
    exists b. split; [exact E|]. eapply nearest_answer; [exact Sy| |intros; apply explained_dec|exact N].
    intros j e Ej. unfold smooth_some, explained. rewrite (@sin_at _ _ y Ej), (@normal_at_c _ _ Ej), Nd.
    assert (Q : dot 3 (offset t y j) (offset t y j) = away y e * away y e).
    { rewrite <- (@norm_offset _ _ y Ej), Nd. unfold norm. rewrite sqrt_sqrt; [reflexivity|apply dot3_nonneg]. }
    rewrite Q. destruct (Rle_dec (away y e * away y e) (1 / 10 ^ 10)); intuition lra.
  Qed.
  Lemma face_of_c j e : nth_error C j = Some e -> face_of t j = Ok (cp_face e).
  Proof. intros E. unfold face_of. rewrite t_att. rewrite (get_some (map_nth_error _ _ _ E)). reflexivity. Qed.
  Lemma face_of_none : face_of t (length C) = UB.
  Proof.
    unfold face_of. rewrite t_att. unfold get. rewrite (proj2 (nth_error_None _ _)); [reflexivity|]. now rewrite map_length.
  Qed.
End Search.

(** * The detection *)
Section Detect.
  Variable points : list (list R).
  Variable faces : list (list nat).
  Variable u : nat -> R.
  Variables thr rmin : R.
  Variable C : list cpt.
  Variable cloud : stree R.
  Variable fnormal : list (option (list R)).
  Variable feature : R.
  Hypothesis Hp : in_range points.
  Hypothesis Hf : Forall (good_face points) faces.
  Hypothesis Ht : thr < 1.
  Hypothesis Hu : forall k, 0 <= u k < 1.
  Hypothesis W : Forall well C.
  Hypothesis T : tree_for C cloud.
  Hypothesis HN : forall j f, nth_error faces j = Some f -> exists v, nth_error fnormal j = Some (Some v) /\ normal_to points f v.
  Hypothesis HC : forall e, In e C -> exists f, nth_error faces (cp_face e) = Some f /\ nth_error fnormal (cp_face e) = Some (Some (cp_normal e)).
  Hypothesis Hfe : feature <= @dbl_max R _.

  Lemma rows3 : Forall (fun p => length p = 3%nat) points.
  Proof. apply Forall_forall. intros p I. apply (Hp p I). Qed.
  Lemma face_good j f : nth_error faces j = Some f -> good_face points f.
  Proof. intros E. eapply Forall_forall in Hf; [exact Hf|]. eapply nth_error_In; eauto. Qed.
  Lemma point_small p : (p < length points)%nat -> small (vec (nth p points [])).
  Proof. intros L d _. apply Hp. now apply nth_In. Qed.
  Lemma tri_small f i : valid_face points f -> (i < 3)%nat -> small (tri points f i).
  Proof. intros (_ & V) L. apply (@point_small (nth (S i) f 0%nat)). apply V. lia. Qed.
  Lemma on_small f y : valid_face points f -> in_triangle (tri points f) y -> small y.
  Proof.
    intros V (m & (S1 & B) & P) d L. rewrite B by exact L.
    pose proof (@tri_small f 0 V ltac:(lia) d L) as A0. pose proof (@tri_small f 1 V ltac:(lia) d L) as A1. pose proof (@tri_small f 2 V ltac:(lia) d L) as A2.
    pose proof (P 0%nat ltac:(lia)). pose proof (P 1%nat ltac:(lia)). pose proof (P 2%nat ltac:(lia)).
    set (M := dbl_max / 4) in *.
    assert (G : forall a x, 0 <= a -> Rabs x <= M -> - (a * M) <= a * x <= a * M).
    { intros a x Pa Ax. assert (- M <= x <= M) by (unfold Rabs in Ax; destruct (Rcase_abs x); lra). split; nra. }
    pose proof (G _ _ (P 0%nat ltac:(lia)) A0). pose proof (G _ _ (P 1%nat ltac:(lia)) A1). pose proof (G _ _ (P 2%nat ltac:(lia)) A2).
    assert (m 0%nat * M + m 1%nat * M + m 2%nat * M = M) by (rewrite <- !Rmult_plus_distr_r, S1; ring).
    unfold Rabs. destruct (Rcase_abs _); lra.
  Qed.

  Lemma proj_face f y : good_face points f -> small y -> face_dist points f y (snd (project_triangle y (corner (rows_of points f)))).
  Proof.
    intros (V & D & _) Sy. change (project_triangle y (corner (rows_of points f))) with (project_triangle y (tri points f)).
    pose proof (@project_triangle_R y (tri points f) D) as H.
    destruct (project_triangle y (tri points f)) as [q h] eqn:E. cbn [snd].
    destruct H as (Hh & Hm & m & B & M); [intros i L; apply small_dist; [exact Sy|now apply tri_small]|].
    split; [exact Hm|]. exists q, m. auto.
  Qed.
  Lemma corners_at j f : nth_error faces j = Some f -> face_corners points faces j = Ok (rows_of points f).
  Proof. intros E. unfold face_corners. rewrite (get_some E). cbn [bind]. apply corners_of_ok. apply (face_good _ E). Qed.
  Lemma face_nth e f : nth_error faces (cp_face e) = Some f -> face faces e = f.
  Proof. intros E. unfold face. now apply nth_error_nth. Qed.
  Lemma draw f k : good_face points f -> exists y, simplex_sample u k 3 3 (rows_of points f) = Ok y /\ on_face points f y.
  Proof. intros (V & _). apply drawn; auto using rows3. Qed.
  Lemma on_face_small f y : good_face points f -> on_face points f y -> length y = 3%nat /\ small (vec y).
  Proof. intros (V & _) (L & I). split; [exact L|]. eapply on_small; eauto. Qed.

  (** The face across. *)
  Notation sheet := (same_sheet thr rmin).
  Lemma across y : length y = 3%nat -> small (vec y) ->
    outcome (face_across thr rmin cloud y)
      (fun j => exists e f, facing (sheet y) C y e /\ j = cp_face e /\ nth_error faces j = Some f /\ nth_error fnormal j = Some (Some (cp_normal e)))
      (blind (sheet y) C).
  Proof.
    intros L Sy. unfold face_across. destruct (@sheet_search C cloud thr W T Ht rmin y) as (b & -> & [(-> & B)|(j & e & E & -> & Fe)]); [lia|exact Sy| |]; cbn [bind].
    - rewrite (face_of_none T). exact B.
    - rewrite (@face_of_c C cloud T _ _ E). destruct (HC _ (nth_error_In _ _ E)) as (f & Ef & En). exists e, f. auto.
  Qed.

  Definition lost : Prop := exists f y, In f faces /\ on_face points f y /\ blind (sheet y) C.

  Lemma redundant_true ns v : redundant thr ns v = true <-> exists n, In n ns /\ thr < dot 3 (vec n) (vec v).
  Proof.
    unfold redundant. rewrite existsb_exists. split; intros (n & I & H); exists n; split; auto.
    - rewrite dot_product_R in H. now apply Rltb_true in H.
    - rewrite dot_product_R. now apply Rltb_true.
  Qed.
  Lemma redundant_false ns v : redundant thr ns v = false <-> forall n, In n ns -> dot 3 (vec n) (vec v) <= thr.
  Proof.
    split.
    - intros H n I. destruct (Rle_dec (dot 3 (vec n) (vec v)) thr) as [|G]; [assumption|exfalso].
      assert (redundant thr ns v = true) by (apply redundant_true; exists n; split; [assumption|lra]). congruence.
    - intros H. destruct (redundant thr ns v) eqn:E; [|reflexivity]. apply redundant_true in E as (n & I & L). specialize (H n I). lra.
  Qed.

  (** A growing list of normals. *)
  Notation apart := (fun a b : list R => dot 3 (vec a) (vec b) <= thr).
  Definition normal_set (ns : list (list R)) : Prop := (forall n, In n ns -> length n = 3%nat) /\ ForallOrdPairs apart ns.
  Lemma pairs_snoc {A} (P : A -> A -> Prop) l a : ForallOrdPairs P l -> (forall b, In b l -> P b a) -> ForallOrdPairs P (l ++ [a]).
  Proof.
    induction 1 as [|b l Fb H IH]; intros G; cbn [app]; [repeat constructor|]. constructor.
    - apply Forall_app. split; [exact Fb|]. constructor; [apply G; now left|constructor].
    - apply IH. intros c I. apply G. now right.
  Qed.
  Lemma set_snoc ns w : normal_set ns -> length w = 3%nat -> redundant thr ns w = false -> normal_set (ns ++ [w]).
  Proof.
    intros (L & P) Lw Rw. split.
    - intros n I. apply in_app_iff in I as [I|[<-|[]]]; auto.
    - apply pairs_snoc; [exact P|]. now apply redundant_false.
  Qed.
  Lemma normal_len f v : normal_to points f v -> length v = 3%nat.
  Proof. intros (L & _). exact L. Qed.
  Lemma opp_vec (w : list R) : length w = 3%nat -> map (fun i => nopp (gv w i)) (seq 0 3) = map Ropp w.
  Proof. destruct w as [|a [|b [|c [|]]]]; cbn; intros; try lia. reflexivity. Qed.

  Lemma near_face x v f n h w : In f faces -> normal_to points f n -> face_dist points f x h -> h < rmin ->
    (w = n \/ w = map Ropp n /\ thr < dot 3 v (vec n)) -> near_normal points faces thr rmin x v w.
  Proof. intros. exists f, n, h. auto. Qed.

  Lemma narrow_ok f0 v x : In f0 faces -> length v = 3%nat -> small (vec x) -> forall m ns k,
    normal_set ns ->
    outcome (narrow points u thr rmin cloud faces fnormal m v (rows_of points f0) x ns k)
      (fun ns' => exists more, ns' = ns ++ more /\ normal_set ns' /\ Forall (near_normal points faces thr rmin (vec x) (vec v)) more) lost.
  Proof.
    intros I0 Lv Sx. assert (G0 : good_face points f0) by (eapply Forall_forall in Hf; eauto).
    induction m as [|m IH]; intros ns k Hns; cbn [narrow].
    - exists []. rewrite app_nil_r. auto.
    - destruct (@draw f0 k G0) as (y & -> & Oy). cbn [bind]. destruct (on_face_small G0 Oy) as (Ly & Sy).
      eapply outcome_bind; [eapply outcome_weaken; [apply (across Ly Sy)|intros j H; exact H|]|].
      { intros B. exists f0, y. auto. }
      intros j (e & f & Fe & Ej & Ef & En). unfold face_normal. rewrite (get_some En). cbn [bind].
      destruct (HN _ Ef) as (n' & En' & Nn). assert (n' = cp_normal e) by congruence. subst n'. clear En'.
      rewrite dot_product_R. change (nleb _ _) with (Rleb (dot 3 (vec v) (vec (cp_normal e))) thr).
      destruct (Rleb _ _) eqn:D; [apply IH; auto|].
      rewrite (corners_at _ Ef). cbn [bind]. cbv zeta. rewrite (@opp_vec (cp_normal e) (normal_len Nn)).
      change (gv x) with (vec x).
      pose proof (@proj_face f (vec x) (face_good _ Ef) Sx) as PD. set (h := snd (project_triangle _ _)) in *.
      change (nltb h rmin) with (Rltb h rmin).
      destruct (Rltb h rmin) eqn:Lh; cbn [andb]; [|apply IH; auto].
      destruct (redundant thr ns (map Ropp (cp_normal e))) eqn:Rw; cbn [negb]; [apply IH; auto|].
      assert (Hs : normal_set (ns ++ [map Ropp (cp_normal e)])) by (apply set_snoc; auto; rewrite map_length; apply (normal_len Nn)).
      eapply outcome_weaken; [apply (IH _ (k + 2)%nat Hs)| |auto].
      intros ns' (more & -> & N' & Fm). exists (map Ropp (cp_normal e) :: more). rewrite <- app_assoc in *. cbn [app] in *.
      split; [reflexivity|]. split; [exact N'|]. constructor; [|exact Fm].
      eapply near_face; [eapply nth_error_In; exact Ef|exact Nn|exact PD|now apply Rltb_true|].
      right. split; [reflexivity|]. apply Rleb_false in D. lra.
  Qed.

  (** Faces whose normal is not yet there. *)
  Definition nth_normal (j : nat) : list R := match nth_error fnormal j with Some (Some v) => v | _ => [] end.
  Definition pending (ns : list (list R)) : nat := length (filter (fun j => negb (redundant thr ns (nth_normal j))) (seq 0 (length faces))).
  Lemma filter_less {A} (p q : A -> bool) l : (forall a, In a l -> q a = true -> p a = true) -> (length (filter q l) <= length (filter p l))%nat.
  Proof.
    induction l as [|a l IH]; intros H; cbn [filter]; [lia|]. specialize (IH (fun b I => H b (or_intror I))).
    specialize (H a (or_introl eq_refl)). destruct (q a); [rewrite H by reflexivity; cbn; lia|]. destruct (p a); cbn; lia.
  Qed.
  Lemma filter_strict {A} (p q : A -> bool) l a : In a l -> p a = true -> q a = false -> (forall a, In a l -> q a = true -> p a = true) -> (length (filter q l) < length (filter p l))%nat.
  Proof.
    induction l as [|b l IH]; intros I Pa Qa H; [easy|]. cbn [filter]. destruct I as [->|I].
    - rewrite Pa, Qa. cbn [length]. pose proof (@filter_less _ p q l (fun b I => H b (or_intror I))). lia.
    - specialize (IH I Pa Qa (fun b I => H b (or_intror I))). specialize (H b (or_introl eq_refl)).
      destruct (q b); [rewrite H by reflexivity; cbn; lia|]. destruct (p b); cbn; lia.
  Qed.
  Lemma unit_self f v : normal_to points f v -> dot 3 (vec v) (vec v) = 1.
  Proof. intros (_ & U & _). exact U. Qed.
  Lemma pending_less ns j f v : nth_error faces j = Some f -> nth_error fnormal j = Some (Some v) -> normal_to points f v ->
    redundant thr ns v = false -> (pending (ns ++ [v]) < pending ns)%nat.
  Proof.
    intros Ef En Nn Rw. unfold pending. eapply filter_strict with (a := j).
    - apply in_seq. pose proof (nth_error_Some_lt _ _ Ef). lia.
    - unfold nth_normal. now rewrite En, Rw.
    - unfold nth_normal. rewrite En. apply negb_false_iff. apply redundant_true. exists v. split; [apply in_or_app; right; now left|].
      rewrite (unit_self Nn). exact Ht.
    - intros k _ H. apply negb_true_iff in H. apply negb_true_iff. apply redundant_false. intros n I.
      apply (proj1 (redundant_false _ _) H). apply in_or_app. now left.
  Qed.

  Definition settled (ns : list (list R)) (x : list R) : Prop :=
    (forall e, In e C -> ~ explained thr ns x e -> feature <= away x e)
    \/ exists e h, facing (explained thr ns x) C x e /\ face_dist points (face faces e) (vec x) h
         /\ (rmin <= h \/ exists n, In n ns /\ thr < dot 3 (vec n) (vec (cp_normal e))).
  Lemma around_ok v x : length x = 3%nat -> small (vec x) -> forall fuel ns,
    normal_set ns -> (pending ns < fuel)%nat ->
    outcome (around points thr rmin cloud faces fnormal feature fuel x ns)
      (fun ns' => exists more, ns' = ns ++ more /\ normal_set ns' /\ Forall (near_normal points faces thr rmin (vec x) v) more /\ settled ns' x) False.
  Proof.
    intros Lx Sx. induction fuel as [|fuel IH]; intros ns Hns Hfu; [lia|]. cbn [around].
    destruct (@normals_search C cloud thr W T Ht ns x) as (b & -> & A); [lia|exact Sx|apply Hns|]. cbn [bind].
    assert (Stop : settled ns x -> outcome (Ok ns) (fun ns' => exists more, ns' = ns ++ more /\ normal_set ns' /\ Forall (near_normal points faces thr rmin (vec x) v) more /\ settled ns' x) False).
    { intros Se. exists []. rewrite app_nil_r. auto. }
    destruct A as [(-> & B)|(j & e & E & -> & Fe)]; cbn [fst snd].
    - change (nltb dbl_max feature) with (Rltb dbl_max feature). replace (Rltb dbl_max feature) with false by (symmetry; now apply Rltb_false).
      apply Stop. left. intros e I Ns. destruct (Ns (B e I)).
    - change (nltb (away x e) feature) with (Rltb (away x e) feature). destruct (Rltb (away x e) feature) eqn:La.
      + rewrite (@face_of_c C cloud T _ _ E). cbn [bind]. destruct (HC _ (nth_error_In _ _ E)) as (f & Ef & En).
        rewrite (corners_at _ Ef). cbn [bind]. change (gv x) with (vec x).
        pose proof (@proj_face f (vec x) (face_good _ Ef) Sx) as PD. set (h := snd (project_triangle _ _)) in *.
        change (nltb h rmin) with (Rltb h rmin). destruct (Rltb h rmin) eqn:Lh.
        * unfold face_normal. rewrite (get_some En). cbn [bind].
          destruct (HN _ Ef) as (n' & En' & Nn). assert (n' = cp_normal e) by congruence. subst n'. clear En'.
          destruct (redundant thr ns (cp_normal e)) eqn:Rw.
          -- apply Stop. right. exists e, h. rewrite (face_nth _ Ef). split; [exact Fe|]. split; [exact PD|]. right. now apply redundant_true.
          -- eapply outcome_weaken; [apply (IH (ns ++ [cp_normal e]))| |auto].
             ++ apply set_snoc; auto. apply (normal_len Nn).
             ++ pose proof (@pending_less ns _ f _ Ef En Nn Rw). lia.
             ++ intros ns' (more & -> & N' & Fm & Se). exists (cp_normal e :: more). rewrite <- app_assoc in *. cbn [app] in *.
                split; [reflexivity|]. split; [exact N'|]. split; [|exact Se]. constructor; [|exact Fm].
                eapply near_face; [eapply nth_error_In; exact Ef|exact Nn|exact PD|now apply Rltb_true|]. now left.
        * apply Stop. right. exists e, h. rewrite (face_nth _ Ef). split; [exact Fe|]. split; [exact PD|]. left. now apply Rltb_false.
      + apply Stop. left. intros e' I' Ns'. apply Rltb_false in La. destruct Fe as (_ & _ & M). specialize (M e' I' Ns'). lra.
  Qed.

  (** ** The normals at every point *)
  Notation n := (length points).
  Definition done_at (j i p : nat) : Prop :=
    (exists k f, (k < j)%nat /\ nth_error faces k = Some f /\ corner_of p f)
    \/ (exists f c, nth_error faces j = Some f /\ (1 <= c < i)%nat /\ nth_error f c = Some p).
  Notation good_ns := (good_normals points faces thr rmin C feature).
  Definition ninv (j i : nat) (st : list bool * list (list (list R)) * nat) : Prop :=
    let '(vis, normals, _) := st in
    length vis = n /\ length normals = n /\ forall p, (p < n)%nat ->
      (nth p vis false = true <-> done_at j i p)
      /\ (nth p vis false = true -> good_ns p (nth p normals []))
      /\ (nth p vis false = false -> nth p normals [] = []).

  Lemma done_next j i p f q : nth_error faces j = Some f -> (1 <= i)%nat -> nth_error f i = Some q ->
    (done_at j (S i) p <-> done_at j i p \/ p = q).
  Proof.
    intros Ef Li Eq. split.
    - intros [H|(f' & c & Ef' & Lc & Ec)]; [left; now left|]. assert (f' = f) by congruence. subst f'.
      destruct (Nat.eq_dec c i) as [->|Ne]; [right; congruence|]. left. right. exists f, c. split; [auto|]. split; [lia|auto].
    - intros [[H|(f' & c & Ef' & Lc & Ec)]| ->]; [now left| |].
      + right. exists f', c. split; [auto|]. split; [lia|auto].
      + right. exists f, i. split; [auto|]. split; [lia|auto].
  Qed.
  Lemma face_point f i : good_face points f -> (1 <= i <= 3)%nat -> exists p, nth_error f i = Some p /\ (p < n)%nat.
  Proof.
    intros ((L & V) & _) Li. exists (nth i f 0%nat). split; [apply nth_error_nth'; lia|now apply V].
  Qed.
  Lemma pending_bound ns : (pending ns <= length faces)%nat.
  Proof. unfold pending. rewrite <- (seq_length (length faces) 0) at 2. generalize (seq 0 (length faces)). intros l. induction l as [|a l IH]; cbn [filter]; [lia|]. destruct (negb _); cbn [length]; lia. Qed.

  Lemma nth_set_bool {A} (l l' : list A) i v d : set l i v = Ok l' -> length l' = length l /\ nth i l' d = v /\ forall j, j <> i -> nth j l' d = nth j l d.
  Proof.
    intros E. assert (L : (i < length l)%nat) by (destruct (Nat.lt_ge_cases i (length l)) as [L|L]; [exact L|exfalso; unfold set in E; destruct (i <? length l)%nat eqn:B; [apply Nat.ltb_lt in B; lia|discriminate]]).
    rewrite set_Ok in E by exact L. injection E as <-.
    split; [apply upd_length|]. split.
    - apply nth_error_nth. now apply upd_nth_same.
    - intros j Ne. pose proof (@upd_nth_other _ l i v j Ne) as H. destruct (nth_error l j) as [y|] eqn:Ey.
      + now rewrite (nth_error_nth _ _ d H), (nth_error_nth _ _ d Ey).
      + apply nth_error_None in H, Ey. now rewrite !nth_overflow by assumption.
  Qed.

  Lemma point_step fuel j i f st : (length faces < fuel)%nat -> nth_error faces j = Some f -> (1 <= i <= 3)%nat -> ninv j i st ->
    outcome (point_normals points u thr rmin cloud faces fnormal feature fuel j i st) (ninv j (S i)) lost.
  Proof.
    intros Hfu Ef Li Iv. destruct st as [[vis normals] k]. destruct Iv as (Lv & Ln & Iv). unfold point_normals.
    destruct (@face_point f i (face_good _ Ef) Li) as (p & Ep & Lp).
    rewrite (get_some Ef). cbn [bind]. rewrite (get_some Ep). cbn [bind]. rewrite (@get_in _ vis p false) by lia. cbn [bind].
    destruct (Iv p Lp) as (Hv & Hg & He). destruct (nth p vis false) eqn:Vp.
    - split; [exact Lv|]. split; [exact Ln|]. intros q Lq. destruct (Iv q Lq) as (Qv & Qg & Qe). split; [|auto].
      rewrite (@done_next j i q f p Ef) by (auto; lia). rewrite Qv. split; [auto|]. intros [H| ->]; [exact H|]. now apply Hv.
    - destruct (set vis p true) as [vis'| |] eqn:Es; [|unfold set in Es; rewrite (proj2 (Nat.ltb_lt _ _)) in Es by lia; discriminate|unfold set in Es; destruct (_ <? _)%nat; discriminate].
      cbn [bind]. rewrite (@get_in _ normals p []) by lia. cbn [bind]. rewrite (He eq_refl).
      destruct (HN _ Ef) as (v & En & Nv). unfold face_normal at 1. rewrite (get_some En). cbn [bind].
      rewrite (@get_in _ points p []) by exact Lp. cbn [bind]. rewrite (corners_at _ Ef). cbn [bind].
      change (redundant thr [] v) with false. cbn iota. cbn [app].
      set (x := nth p points []). assert (Sx : small (vec x)) by (now apply point_small).
      assert (Lx : length x = 3%nat) by (apply Hp; now apply nth_In).
      assert (If : In f faces) by (eapply nth_error_In; eauto).
      assert (H1 : normal_set [v]) by (split; [intros w [<-|[]]; apply (normal_len Nv)|repeat constructor]).
      eapply outcome_bind; [apply (@narrow_ok f v x If (normal_len Nv) Sx narrow_darts [v] k H1)|].
      intros ns1 (more & -> & N1 & F1).
      eapply outcome_bind.
      { eapply outcome_weaken; [apply (@around_ok (vec v) x Lx Sx fuel ([v] ++ more) N1)|intros ns H; exact H|contradiction].
        pose proof (pending_bound ([v] ++ more)). lia. }
      intros ns2 (more2 & -> & N2 & F2 & Se). cbn [app] in *.
      destruct (set normals p _) as [normals'| |] eqn:En2; [|unfold set in En2; rewrite (proj2 (Nat.ltb_lt _ _)) in En2 by lia; discriminate|unfold set in En2; destruct (_ <? _)%nat; discriminate].
      cbn [bind outcome].
      destruct (@nth_set_bool _ _ _ _ _ false Es) as (L1 & A1 & B1). destruct (@nth_set_bool _ _ _ _ _ [] En2) as (L2 & A2 & B2).
      split; [lia|]. split; [lia|]. intros q Lq. rewrite (@done_next j i q f p Ef) by (auto; lia).
      destruct (Nat.eq_dec q p) as [->|Ne].
      + rewrite A1, A2. split; [tauto|]. split; [|discriminate]. intros _. right. exists j, f, v, (more ++ more2).
        split; [exact Ef|]. split; [exists i; auto|]. split.
        { intros k' g Lk Eg Hc. assert (false = true) by (apply Hv; left; exists k', g; auto). discriminate. }
        split; [exact Nv|]. split; [reflexivity|]. split; [apply Forall_app; auto|]. split; [apply N2|]. exact Se.
      + rewrite (B1 q Ne), (B2 q Ne). destruct (Iv q Lq) as (Qv & Qg & Qe). split; [|auto]. rewrite Qv. tauto.
  Qed.

  Lemma normals_ok fuel k : (length faces < fuel)%nat ->
    outcome (all_normals points u thr rmin cloud faces fnormal feature fuel k)
      (fun r => length (fst r) = n /\ forall p, (p < n)%nat -> good_ns p (nth p (fst r) [])) lost.
  Proof.
    intros Hfu. unfold all_normals.
    eapply outcome_bind with (P := ninv (length faces) 1).
    - eapply outcome_weaken; [apply (fold_outcome _ (fun j => ninv j 1) lost (seq 0 (length faces)) 0)| |intros H; exact H].
      + split; [apply repeat_length|]. split; [apply repeat_length|]. intros p Lp. rewrite !nth_repeat.
        split; [|split; [discriminate|reflexivity]]. split; [discriminate|]. intros [(k' & f & L & _)|(f & c & _ & L & _)]; lia.
      + intros j a st Ea Iv. cbn [Nat.add] in *. assert (L := nth_error_Some_lt _ _ Ea). rewrite seq_length in L.
        rewrite (nth_error_nth' _ 0%nat) in Ea by (rewrite seq_length; lia). rewrite seq_nth in Ea by lia. injection Ea as <-. cbn [Nat.add].
        destruct (nth_error faces j) as [f|] eqn:Ef; [|apply nth_error_None in Ef; lia].
        eapply outcome_weaken; [apply (fold_outcome _ (fun i st => ninv j i st) lost [1; 2; 3]%nat 1)| |intros H; exact H].
        * exact Iv.
        * intros i c st' Ec Iv'. assert (c = 1 + i)%nat by (destruct i as [|[|[|i]]]; cbn in Ec; [injection Ec as <-; reflexivity..|destruct i; discriminate]). subst c.
          apply (@point_step fuel j (1 + i) f); auto. assert (i < 3)%nat by (apply (nth_error_Some_lt _ _ Ec)). lia.
        * cbn [length Nat.add]. intros st' Iv'. destruct st' as [[vis normals] k']. destruct Iv' as (L1 & L2 & Iv'). split; [auto|]. split; [auto|].
          intros p Lp. destruct (Iv' p Lp) as (A & B). split; [|exact B]. rewrite A. split.
          -- intros [(k1 & g & Lk & Eg & Hc)|(g & c & Eg & Lc & Ec)]; left; [exists k1, g; split; [lia|auto]|].
             exists j, g. split; [lia|]. split; [exact Eg|]. exists c. split; [lia|exact Ec].
          -- intros [(k1 & g & Lk & Eg & Hc)|(g & c & Eg & Lc & Ec)]; [|lia].
             destruct (Nat.eq_dec k1 j) as [->|Ne]; [|left; exists k1, g; split; [lia|auto]].
             right. destruct Hc as (c & Lc & Ec). exists g, c. split; [auto|]. split; [lia|auto].
      + cbn [Nat.add]. rewrite seq_length. auto.
    - intros [[vis normals] k'] (L1 & L2 & Iv). cbn [bind outcome fst]. split; [exact L2|]. intros p Lp. destruct (Iv p Lp) as (A & B & D).
      destruct (nth p vis false) eqn:Vp; [now apply B|]. left. split; [|now apply D]. intros f If Hc.
      apply In_nth_error in If as (j & Ej). assert (true = true -> False); [|tauto]. intros _.
      assert (false = true); [|discriminate]. apply A. left. exists j, f. split; [apply (nth_error_Some_lt _ _ Ej)|auto].
  Qed.

  (** ** The sharp edges *)
  Lemma face_dist_ext f (z z' : nat -> R) h : (forall d, (d < 3)%nat -> z d = z' d) -> face_dist points f z h -> face_dist points f z' h.
  Proof.
    intros E (A & q & m & Hh & B). split.
    - intros x I. rewrite <- (@vdist_ext 3 z z' x x) by auto. now apply A.
    - exists q, m. rewrite Hh. split; [|exact B]. apply vdist_ext; auto.
  Qed.
  Lemma face_parts_ext y (z z' : nat -> R) : (forall d, (d < 3)%nat -> z d = z' d) -> face_parts points faces thr rmin C y z -> face_parts points faces thr rmin C y z'.
  Proof. intros E (e & h & h' & Fe & A & B & P). exists e, h, h'. split; [exact Fe|]. split; [exact A|]. split; [|exact P]. eapply face_dist_ext; eauto. Qed.
  Lemma face_joins_ext y (z z' : nat -> R) : (forall d, (d < 3)%nat -> z d = z' d) -> face_joins points faces thr rmin C y z -> face_joins points faces thr rmin C y z'.
  Proof. intros E (e & h & h' & Fe & A & B & P). exists e, h, h'. split; [exact Fe|]. split; [exact A|]. split; [|exact P]. eapply face_dist_ext; eauto. Qed.

  Lemma tenth : @nlit R _ 1 1 * rmin = rmin / 10.
  Proof. change (@nlit R _ 1 1) with (1 / 10). lra. Qed.
  Lemma parted_dec h h' : (Rltb rmin h && Rltb h' (rmin / 10) = true /\ parted rmin h h') \/ (Rltb rmin h && Rltb h' (rmin / 10) = false /\ ~ parted rmin h h').
  Proof.
    unfold parted. destruct (Rltb rmin h) eqn:A; cbn [andb].
    - apply Rltb_true in A. destruct (Rltb h' (rmin / 10)) eqn:B; [apply Rltb_true in B; left; auto|apply Rltb_false in B; right; split; [auto|lra]].
    - apply Rltb_false in A. right. split; [auto|lra].
  Qed.

  Lemma darts_ok f mid : good_face points f -> In f faces -> small mid -> forall m k,
    outcome (edge_darts points u thr rmin cloud faces m (rows_of points f) mid k)
      (fun r => if fst r then exists y, on_face points f y /\ face_parts points faces thr rmin C y mid
                else exists ys, length ys = m /\ forall y, In y ys -> on_face points f y /\ face_joins points faces thr rmin C y mid) lost.
  Proof.
    intros G If Sm. induction m as [|m IH]; intros k; cbn [edge_darts].
    - cbn. exists []. split; [reflexivity|]. intros y [].
    - destruct (@draw f k G) as (y & -> & Oy). cbn [bind]. destruct (on_face_small G Oy) as (Ly & Sy).
      eapply outcome_bind; [eapply outcome_weaken; [apply (across Ly Sy)|intros j H; exact H|]|].
      { intros B. exists f, y. auto. }
      intros j (e & g & Fe & Ej & Eg & En). rewrite (corners_at _ Eg). cbn [bind]. change (gv y) with (vec y).
      change (@nmul R _ (nlit 1 1) rmin) with (@nlit R _ 1 1 * rmin). rewrite tenth.
      pose proof (@proj_face g (vec y) (face_good _ Eg) Sy) as PD. pose proof (@proj_face g mid (face_good _ Eg) Sm) as PM.
      set (h := snd (project_triangle (vec y) _)) in *. set (h' := snd (project_triangle mid _)) in *.
      change (nltb rmin h) with (Rltb rmin h). change (nltb h' (rmin / 10)) with (Rltb h' (rmin / 10)).
      subst j. pose proof (face_nth _ Eg) as Eface.
      destruct (parted_dec h h') as [(-> & Pa)|(-> & Pa)].
      + cbn. exists y. split; [exact Oy|]. exists e, h, h'. rewrite Eface. auto.
      + eapply outcome_weaken; [apply (IH (k + 2)%nat)| |auto]. intros [[|] k']; cbn [fst].
        * auto.
        * intros (ys & L & A). exists (y :: ys). split; [cbn; lia|]. intros y' [<-|I]; [|auto]. split; [exact Oy|]. exists e, h, h'. rewrite Eface. auto.
  Qed.

  Lemma middle_small f i : good_face points f -> (i < 3)%nat -> small (middle points f i).
  Proof.
    intros (V & _) L d Ld. unfold middle. pose proof (@tri_small f i V L d Ld) as A.
    assert (Ln : (next i < 3)%nat) by (destruct i as [|[|[|i]]]; cbn; lia). pose proof (@tri_small f (next i) V Ln d Ld) as B.
    unfold Rabs in *. repeat destruct (Rcase_abs _); lra.
  Qed.
  Lemma middle_half f i : forall d, @nlit R _ 5 1 * (tri points f i d + tri points f (next i) d) = middle points f i d.
  Proof. intros d. rewrite nlit5. unfold middle. lra. Qed.
  Definition one_edge (f : list nat) (i : nat) (st st' : list (list nat) * nat) : Prop :=
    exists b : bool, fst st' = fst st ++ (if b then [edge_of f i] else []) /\ if b then sharp points faces thr rmin C f i else blunt points faces thr rmin C f i.
  Lemma face_edge_ok j f i st : nth_error faces j = Some f -> (i < 3)%nat ->
    outcome (face_edge points u thr rmin cloud faces j (S i) st) (one_edge f i st) lost.
  Proof.
    intros Ef Li. destruct st as [es k]. unfold face_edge. rewrite (get_some Ef). cbn [bind].
    assert (G := face_good _ Ef). assert (V := proj1 G). destruct V as (L & V).
    assert (En : (if Nat.eqb (S i + 1) 4 then 1 else S i + 1)%nat = S (next i)) by (destruct i as [|[|[|i]]]; cbn; lia). rewrite En.
    assert (Ln : (next i < 3)%nat) by (destruct i as [|[|[|i]]]; cbn; lia).
    rewrite (@get_in _ f (S i) 0%nat) by lia. cbn [bind]. rewrite (@get_in _ f (S (next i)) 0%nat) by lia. cbn [bind].
    rewrite (@get_in _ points _ []) by (apply V; lia). cbn [bind]. rewrite (@get_in _ points _ []) by (apply V; lia). cbn [bind].
    rewrite (corners_at _ Ef). cbn [bind].
    match goal with |- context [edge_darts _ _ _ _ _ _ _ _ ?m _] => set (mid := m) end.
    assert (Em : forall d, (d < 3)%nat -> mid d = middle points f i d) by (intros d _; apply (middle_half f i d)).
    assert (If : In f faces) by (eapply nth_error_In; eauto).
    eapply outcome_bind.
    - apply (@darts_ok f mid G If). intros d Ld. rewrite Em by exact Ld. now apply (@middle_small f i G Li).
    - intros [b k'] H. cbn [fst] in H. destruct b; cbn [outcome].
      + exists true. split.
        * cbn [fst]. f_equal. f_equal. unfold edge_of. set (a := nth (S i) f 0%nat). set (b := nth (S (next i)) f 0%nat).
          destruct (Nat.ltb_spec a b); [rewrite Nat.min_l, Nat.max_r by lia|rewrite Nat.min_r, Nat.max_l by lia]; reflexivity.
        * destruct H as (y & Oy & P). exists y. split; [exact Oy|]. eapply face_parts_ext; eauto.
      + exists false. cbn [fst]. rewrite app_nil_r. split; [reflexivity|]. right.
        destruct H as (ys & Ly & A). exists ys. split; [exact Ly|]. intros y I. destruct (A y I) as (Oy & J). split; [exact Oy|]. eapply face_joins_ext; eauto.
  Qed.

  Lemma centre_on f : good_face points f -> on_face points f (centre points f).
  Proof.
    intros _. split; [reflexivity|]. exists (fun _ => 1 / 3). split; [|intros; lra]. split; [lra|].
    intros d Ld. destruct d as [|[|[|d]]]; [cbn; lra..|lia].
  Qed.
  Lemma worth_ok f : good_face points f ->
    outcome (worth thr rmin cloud (rows_of points f)) (fun b => b = false -> forall i, blunt points faces thr rmin C f i) False.
  Proof.
    intros G. unfold worth. cbv zeta.
    change (corner (rows_of points f) 0%nat) with (tri points f 0). change (corner (rows_of points f) 1%nat) with (tri points f 1). change (corner (rows_of points f) 2%nat) with (tri points f 2).
    match goal with |- context [closest_nonsmooth _ ?l _ _ _] => assert (Ex : l = centre points f) by (cbn; unfold centre; repeat f_equal; reflexivity) end. rewrite !Ex. clear Ex. destruct (on_face_small G (centre_on G)) as (Lc & Sc).
    destruct (@sheet_search C cloud thr W T Ht rmin (centre points f)) as (b & -> & A); [lia|exact Sc|]. cbn [bind].
    destruct b as [j h]. cbn [outcome]. intros Hd i. left. intros e Ie Ns k Lk.
    apply negb_false_iff in Hd. change (nltb ?a h) with (Rltb a h) in Hd.
    match type of Hd with Rltb ?a h = true => set (dm := a) in * end. apply Rltb_true in Hd.
    assert (Hk : vdist 3 (vec (centre points f)) (tri points f k) <= dm).
    { unfold dm. rewrite !distance_R. change (gv (centre points f)) with (vec (centre points f)).
      set (d0 := vdist 3 _ (tri points f 0)). set (d1 := vdist 3 _ (tri points f 1)). set (d2 := vdist 3 _ (tri points f 2)).
      rewrite !nmax_R. pose proof (Rmax_l (Rmax d0 d1) d2). pose proof (Rmax_r (Rmax d0 d1) d2). pose proof (Rmax_l d0 d1). pose proof (Rmax_r d0 d1).
      destruct k as [|[|[|k]]]; [fold d0; lra|fold d1; lra|fold d2; lra|lia]. }
    destruct A as [(_ & B)|(j' & e' & _ & Eb & _ & _ & M)]; [destruct (Ns (B e Ie))|].
    injection Eb as _ Eh. specialize (M e Ie Ns). lra.
  Qed.
  Definition edges_upto (m : nat) (es : list (list nat)) : Prop :=
    exists pick : nat -> nat -> bool,
      es = flat_map (fun j => map (edge_of (nth j faces [])) (filter (pick j) [0; 1; 2]%nat)) (seq 0 m)
      /\ forall j f i, (j < m)%nat -> nth_error faces j = Some f -> (i < 3)%nat -> if pick j i then sharp points faces thr rmin C f i else blunt points faces thr rmin C f i.
  Lemma edges_grow m es f (b : nat -> bool) : edges_upto m es -> nth_error faces m = Some f ->
    (forall i, (i < 3)%nat -> if b i then sharp points faces thr rmin C f i else blunt points faces thr rmin C f i) ->
    edges_upto (S m) (es ++ map (edge_of f) (filter b [0; 1; 2]%nat)).
  Proof.
    intros (pick & -> & A) Ef B. exists (fun j => if Nat.eqb j m then b else pick j). split.
    - replace (S m) with (m + 1)%nat by lia. rewrite seq_app, flat_map_app. f_equal.
      + rewrite !flat_map_concat_map. f_equal. apply map_ext_in. intros j Ij. apply in_seq in Ij. destruct (Nat.eqb_spec j m); [lia|reflexivity].
      + cbn [seq flat_map Nat.add]. rewrite Nat.eqb_refl, app_nil_r. now rewrite (nth_error_nth _ _ [] Ef).
    - intros j g i Lj Eg Li. destruct (Nat.eqb_spec j m) as [->|Ne]; [|apply (A j g i); auto; lia].
      assert (g = f) by congruence. subst g. now apply B.
  Qed.
  Lemma sharp_edges_ok k : outcome (sharp_edges points u thr rmin cloud faces k) (fun r => good_edges points faces thr rmin C (fst r)) lost.
  Proof.
    unfold sharp_edges.
    eapply outcome_weaken; [apply (fold_outcome _ (fun m (st : list (list nat) * nat) => edges_upto m (fst st)) lost (seq 0 (length faces)) 0)| |intros H; exact H].
    - exists (fun _ _ => false). split; [reflexivity|]. lia.
    - intros j a st Ea Iv. cbn [Nat.add] in *. assert (L := nth_error_Some_lt _ _ Ea). rewrite seq_length in L.
      rewrite (nth_error_nth' _ 0%nat) in Ea by (rewrite seq_length; lia). rewrite seq_nth in Ea by lia. injection Ea as <-. cbn [Nat.add].
      destruct (nth_error faces j) as [f|] eqn:Ef; [|apply nth_error_None in Ef; lia].
      rewrite (corners_at _ Ef). cbn [bind]. assert (G := face_good _ Ef).
      eapply outcome_bind; [eapply outcome_weaken; [apply (worth_ok G)|intros b H; exact H|contradiction]|].
      intros b Hb. destruct b.
      + cbn [fold_res]. eapply outcome_bind; [apply (@face_edge_ok j f 0 st Ef); lia|]. intros s1 (b0 & E0 & P0).
        eapply outcome_bind; [apply (@face_edge_ok j f 1 s1 Ef); lia|]. intros s2 (b1 & E1 & P1).
        eapply outcome_bind; [apply (@face_edge_ok j f 2 s2 Ef); lia|]. intros s3 (b2 & E2 & P2).
        cbn [outcome]. rewrite E2, E1, E0.
        pose proof (@edges_grow j (fst st) f (fun i => match i with O => b0 | S O => b1 | _ => b2 end) Iv Ef) as H.
        rewrite <- !app_assoc.
        match goal with |- edges_upto _ ?l => replace l with (fst st ++ map (edge_of f) (filter (fun i => match i with O => b0 | S O => b1 | _ => b2 end) [0; 1; 2]%nat)) by (f_equal; destruct b0, b1, b2; reflexivity) end.
        apply H. intros i Li. destruct i as [|[|[|i]]]; [exact P0|exact P1|exact P2|lia].
      + cbn [outcome]. rewrite <- (app_nil_r (fst st)).
        apply (@edges_grow j (fst st) f (fun _ => false) Iv Ef). intros i _. now apply Hb.
    - cbn [Nat.add]. rewrite seq_length. intros st (pick & -> & A). exists pick. split; [reflexivity|]. intros j f i Ef Li.
      apply (A j f i); auto. apply (nth_error_Some_lt _ _ Ef).
  Qed.

  (** ** The edge cloud *)
  Section Edges.
    Variable es : list (list nat).
    Hypothesis HE : forall e, In e es -> exists f i, In f faces /\ (i < 3)%nat /\ e = edge_of f i.
    Notation e1 := (end1 es).
    Notation e2 := (end2 es).
    Notation x1 := (at1 points es).
    Notation x2 := (at2 points es).
    Notation len := (length_of points es).

    Lemma corner_in (c : nat -> nat -> R) i : (i < 3)%nat -> in_triangle c (c i).
    Proof.
      intros L. exists (fun k => if Nat.eqb k i then 1 else 0). split; [|intros k _; destruct (Nat.eqb k i); lra]. split; [|intros d _];
        destruct i as [|[|[|i]]]; cbn; try lia; lra.
    Qed.
    Lemma segment_in (c : nat -> nat -> R) a b x : in_triangle c a -> in_triangle c b -> on_segment a b x -> in_triangle c x.
    Proof.
      intros (m & (Sm & Bm) & Pm) (m' & (Sm' & Bm') & Pm') (t & Ht' & E). exists (fun k => m k + t * (m' k - m k)). split.
      - split; [nra|]. intros d L. rewrite E by exact L. rewrite Bm, Bm' by exact L. ring.
      - intros k L. specialize (Pm k L). specialize (Pm' k L). nra.
    Qed.
    Lemma edge_at i : (i < length es)%nat -> exists f k, In f faces /\ good_face points f /\ (k < 3)%nat /\ nth i es [] = edge_of f k.
    Proof.
      intros L. destruct (HE _ (nth_In es [] L)) as (f & k & If & Lk & E). exists f, k. split; [exact If|]. split; [|auto].
      eapply Forall_forall in Hf; eauto.
    Qed.
    Lemma next_lt i : (i < 3)%nat -> (next i < 3)%nat.
    Proof. destruct i as [|[|[|i]]]; cbn; lia. Qed.
    Lemma ends_at i : (i < length es)%nat -> exists f k, In f faces /\ good_face points f /\ (k < 3)%nat
      /\ ((e1 i = nth (S k) f 0%nat /\ e2 i = nth (S (next k)) f 0%nat) \/ (e2 i = nth (S k) f 0%nat /\ e1 i = nth (S (next k)) f 0%nat)).
    Proof.
      intros L. destruct (edge_at L) as (f & k & If & G & Lk & E). exists f, k. split; [exact If|]. split; [exact G|]. split; [exact Lk|].
      unfold end1, end2. rewrite E. unfold edge_of. cbn [nth]. lia.
    Qed.
    Lemma ends_lt i : (i < length es)%nat -> (e1 i < n)%nat /\ (e2 i < n)%nat.
    Proof.
      intros L. destruct (ends_at L) as (f & k & _ & ((_ & V) & _) & Lk & E). pose proof (next_lt Lk).
      pose proof (V (S k) ltac:(lia)). pose proof (V (S (next k)) ltac:(lia)). destruct E as [(-> & ->)|(-> & ->)]; auto.
    Qed.
    Lemma len_pos i : (i < length es)%nat -> 1 / 10 ^ 10 <= len i.
    Proof.
      intros L. destruct (ends_at L) as (f & k & _ & (_ & _ & G) & Lk & E). specialize (G k Lk).
      unfold length_of, at1, at2. destruct E as [(-> & ->)|(-> & ->)]; [exact G|rewrite vdist_sym; exact G].
    Qed.
    Lemma ends_ok i : (i < length es)%nat -> edge_ends points es i = Ok (e1 i, e2 i, nth (e1 i) points [], nth (e2 i) points []).
    Proof.
      intros L. unfold edge_ends. rewrite (@get_in _ es i []) by exact L. cbn [bind]. destruct (ends_lt L) as (A & B).
      destruct (edge_at L) as (f & k & _ & _ & _ & E). unfold end1, end2 in *. rewrite E in *. cbn [edge_of nth] in *. unfold edge_of. cbn [get nth_error bind].
      change (get [?a; ?b] 0) with (Ok a). cbn [bind]. change (get [?a; ?b] 1) with (Ok b). cbn [bind].
      rewrite (@get_in _ points _ []) by exact A. cbn [bind]. rewrite (@get_in _ points _ []) by exact B. reflexivity.
    Qed.
    Lemma seg_face i y : (i < length es)%nat -> length y = 3%nat -> on_segment (x1 i) (x2 i) (vec y) -> exists f, In f faces /\ good_face points f /\ on_face points f y.
    Proof.
      intros L Ly O. destruct (ends_at L) as (f & k & If & G & Lk & E). exists f. split; [exact If|]. split; [exact G|]. split; [exact Ly|].
      eapply segment_in; [| |exact O]; unfold at1, at2; destruct E as [(Ea & Eb)|(Ea & Eb)]; rewrite ?Ea, ?Eb; apply (corner_in (tri points f)); auto using next_lt.
    Qed.
    Lemma seg_small i y : (i < length es)%nat -> length y = 3%nat -> on_segment (x1 i) (x2 i) (vec y) -> small (vec y).
    Proof. intros L Ly O. destruct (seg_face L Ly O) as (f & _ & G & Of). apply (on_face_small G Of). Qed.

    Lemma fold_plus (l : list R) : forall a, fold_left nadd l a = a + rsum l.
    Proof. induction l as [|b l IH]; intros a; cbn [fold_left]; [unfold rsum; cbn; lra|]. rewrite IH. change (nadd a b) with (a + b). unfold rsum. cbn. lra. Qed.
    Lemma spacing_ok (budget : Z) : edge_spacing points es budget = Ok (all_length points es / IZR budget).
    Proof.
      unfold edge_spacing. rewrite (@mapr_map _ _ _ len).
      - cbn [bind]. rewrite fold_plus. unfold all_length, sumn. f_equal. change (@n0 R _) with 0. change (@nofZ R _ budget) with (IZR budget). change ndiv with Rdiv. f_equal. lra.
      - intros i I. apply in_seq in I. rewrite ends_ok by lia. cbn [bind]. now rewrite distance_R.
    Qed.
    Lemma tangent_R i d : (i < length es)%nat -> tangent (nth (e1 i) points []) (nth (e2 i) points []) d = (x2 i d - x1 i d) / len i.
    Proof.
      intros L. unfold tangent. rewrite normalize_R. pose proof (len_pos L) as P.
      assert (Q : norm 3 (fun d => x2 i d - x1 i d) = len i) by (unfold length_of; rewrite vdist_sym; reflexivity).
      change (fun d0 => nsub (gv (nth (e2 i) points []) d0) (gv (nth (e1 i) points []) d0)) with (fun d => x2 i d - x1 i d). rewrite Q.
      replace (Rltb (len i) (1 / 10 ^ 10)) with false by (symmetry; now apply Rltb_false). reflexivity.
    Qed.
    Lemma len_gt i : (i < length es)%nat -> 0 < len i.
    Proof. intros L. pose proof (len_pos L). pose proof tol_pos. lra. Qed.

    Lemma map3_vec (x : nat -> R) d : (d < 3)%nat -> vec (map x (seq 0 3)) d = x d.
    Proof. intros L. destruct d as [|[|[|d]]]; [reflexivity..|lia]. Qed.
    Lemma points_ok sp i : 0 < sp -> (i < length es)%nat -> exists l, edge_points points es sp i = Ok l /\ edge_samples points es sp i l.
    Proof.
      intros Ps L. unfold edge_points. rewrite (ends_ok L). cbn [bind]. rewrite distance_R. change (vdist 3 _ _) with (len i).
      pose proof (len_gt L) as PL.
      destruct (@Int_part_nat (len i / sp)) as (m & Em & Hm); [apply Rlt_le, Rdiv_lt_0_compat; auto|].
      change (ntrunc (ndiv (len i) sp)) with (Int_part (len i / sp)). rewrite Em, Nat2Z.id.
      set (num := if (m <? 5)%nat then 5%nat else m). set (t := tangent _ _).
      assert (Hm' : INR m * sp <= len i < (INR m + 1) * sp).
      { assert (Q : len i = len i / sp * sp) by (field; lra). split; [rewrite Q at 1; apply Rmult_le_compat_r; lra|rewrite Q at 1; apply Rmult_lt_compat_r; lra]. }
      assert (Lnum : (5 <= num /\ m <= num)%nat) by (unfold num; destruct (Nat.ltb_spec m 5); lia).
      assert (Inum : INR m <= INR num) by (apply le_INR; lia).
      assert (Dv : forall d, (d < 3)%nat -> vec (map t (seq 0 3)) d = (x2 i d - x1 i d) / len i).
      { intros d Ld. rewrite map3_vec by exact Ld. apply (tangent_R d L). }
      eexists. split; [reflexivity|]. exists num, (map t (seq 0 3)). split; [lia|]. split.
      { rewrite plus_INR. cbn [INR]. nra. }
      split. { unfold num. destruct (Nat.ltb_spec m 5); [left; reflexivity|right; apply Hm']. }
      split; [now rewrite map_length|]. split.
      { unfold unit. rewrite (@dot_ext 3 _ (fun d => (x2 i d - x1 i d) / len i) _ (fun d => (x2 i d - x1 i d) / len i)) by exact Dv.
        assert (Q : norm 3 (fun d => x2 i d - x1 i d) = len i) by (unfold length_of; rewrite vdist_sym; reflexivity).
        rewrite <- Q in PL |- *. apply (normalized_unit 3 _ PL). }
      split; [exact Dv|]. split; [cbn [length]; now rewrite map_length, seq_length|]. split.
      { intros e [<-|[<-|I]]; [auto..|]. apply in_map_iff in I as (j & <- & _). auto. }
      split; [intros e d [= <-] Ld; destruct d as [|[|[|d]]]; [reflexivity..|lia]|]. split; [intros e d [= <-] Ld; destruct d as [|[|[|d]]]; [reflexivity..|lia]|].
      intros j e d Lj Ej Ld. cbn [nth_error] in Ej. destruct j as [|j]; [lia|]. cbn [nth_error] in Ej.
      rewrite (@map_nth_error _ _ _ j (seq 1 num) (S j)) in Ej by (rewrite (nth_error_nth' _ 0%nat), seq_nth by (rewrite ?seq_length; lia); f_equal; lia).
      apply (f_equal (fun o : option cpt => match o with Some v => vec (cp_x v) d | None => 0 end)) in Ej. cbn beta iota in Ej. rewrite <- Ej. clear Ej. cbn [cp_x]. rewrite map3_vec by exact Ld. unfold t. rewrite (tangent_R d L).
      change nadd with Rplus. change nmul with Rmult. change ndiv with Rdiv. change (@nofZ R _) with IZR. rewrite <- !INR_IZR_INZ. change (gv (nth (e1 i) points []) d) with (x1 i d).
      assert (0 < INR (num + 1)) by (apply lt_0_INR; lia). field. split; lra.
    Qed.
    Lemma cloud_ok sp : 0 < sp -> exists E, edge_cloud points es sp = Ok E /\ edge_cloud_of points es sp E.
    Proof.
      intros Ps. unfold edge_cloud.
      destruct (@mapr_total _ _ (edge_points points es sp) (edge_samples points es sp) (seq 0 (length es))) as (bl & E & F2).
      { intros i I. apply in_seq in I. apply points_ok; [exact Ps|lia]. }
      rewrite E. cbn [bind]. eexists. split; [reflexivity|]. exists bl. split; [reflexivity|]. assert (Lb : length bl = length es) by (rewrite <- (seq_length (length es) 0); symmetry; clear - F2; induction F2; cbn; congruence).
      split; [exact Lb|]. intros i l El. assert (Li : (i < length es)%nat) by (rewrite <- Lb; exact (nth_error_Some_lt _ _ El)).
      assert (G : forall (l1 : list nat) (l2 : list (list cpt)), Forall2 (edge_samples points es sp) l1 l2 -> forall k a b, nth_error l1 k = Some a -> nth_error l2 k = Some b -> edge_samples points es sp a b).
      { intros l1 l2 H. induction H; intros [|k] a' b' Ea Eb; try discriminate; cbn in *; [congruence|eauto]. }
      apply (G _ _ F2 i); [|exact El]. rewrite (nth_error_nth' (seq 0 (length es)) 0%nat (n := i)) by (rewrite seq_length; lia). rewrite seq_nth by lia. reflexivity.
    Qed.
    Lemma sample_at sp E e : edge_cloud_of points es sp E -> In e E -> (cp_face e < length es)%nat /\ length (cp_x e) = 3%nat /\ length (cp_normal e) = 3%nat
      /\ on_segment (x1 (cp_face e)) (x2 (cp_face e)) (vec (cp_x e)).
    Proof.
      intros (bl & -> & Lb & A) I. apply in_concat in I as (l & Il & Ie). apply In_nth_error in Il as (i & Ei).
      assert (Li : (i < length es)%nat) by (rewrite <- Lb; exact (nth_error_Some_lt _ _ Ei)). destruct (A i l Ei) as (num & dir & L5 & _ & _ & Ld & _ & _ & Ll & Al & H0 & H1 & Hj).
      destruct (Al e Ie) as (Lx & En & Ef). rewrite Ef, En. split; [lia|]. split; [exact Lx|]. split; [exact Ld|].
      apply In_nth_error in Ie as (j & Ej). assert (Lj := nth_error_Some_lt _ _ Ej). destruct j as [|[|j]].
      - exists 0. split; [lra|]. intros d L. rewrite (H0 e d Ej L). ring.
      - exists 1. split; [lra|]. intros d L. rewrite (H1 e d Ej L). ring.
      - exists (INR (S j) / INR (num + 1)). split.
        + assert (0 < INR (num + 1)) by (apply lt_0_INR; lia). assert (INR (S j) <= INR (num + 1)) by (apply le_INR; lia). assert (0 <= INR (S j)) by apply pos_INR.
          split; [apply Rmult_le_pos; [lra|apply Rlt_le, Rinv_0_lt_compat; lra]|]. apply Rmult_le_reg_r with (INR (num + 1)); [lra|]. unfold Rdiv. rewrite Rmult_assoc, Rinv_l by lra. lra.
        + intros d L. apply (Hj (S j) e d); [lia|exact Ej|exact L].
    Qed.
    Lemma cloud_well sp E : edge_cloud_of points es sp E -> Forall well E.
    Proof.
      intros HEc. apply Forall_forall. intros e I. destruct (@sample_at sp E e HEc I) as (L & Lx & Ln & O). split; [exact Lx|]. split; [exact Ln|]. apply (seg_small L Lx O).
    Qed.
    Lemma cloud_some sp E : edge_cloud_of points es sp E -> es <> [] -> E <> [].
    Proof.
      intros (bl & -> & Lb & A) Ne. destruct bl as [|l bl]; [destruct es; [congruence|discriminate]|]. cbn [concat].
      destruct (A 0%nat l eq_refl) as (num & dir & _ & _ & _ & _ & _ & _ & Ll & _). destruct l; [discriminate|easy].
    Qed.

    (** ** The corners *)
    Variables (sp : R) (E : list cpt) (ecloud : stree R).
    Hypothesis Psp : 0 < sp.
    Hypothesis EC : edge_cloud_of points es sp E.
    Hypothesis TE : tree_for E ecloud.
    Notation curve := (same_curve thr (1 / 10 ^ 10)).
    Definition lost_edge : Prop := exists i y, (i < length es)%nat /\ length y = 3%nat /\ on_segment (x1 i) (x2 i) (vec y) /\ blind (curve y) E.
    Notation astray := (lost \/ lost_edge).
    Notation place p := (vec (nth p points [])).

    Lemma edge_seen y : length y = 3%nat -> small (vec y) ->
      outcome (edge_across thr ecloud y) (fun j => exists e, facing (curve y) E y e /\ j = cp_face e /\ (j < length es)%nat) (blind (curve y) E).
    Proof.
      intros L Sy. unfold edge_across. replace (nlit 1 10) with (1 / 10 ^ 10) by (symmetry; apply nlit10_R).
      destruct (@curve_search E ecloud thr (cloud_well EC) TE Ht (1 / 10 ^ 10) y) as (b & -> & [(-> & B)|(j & e & Ej & -> & Fe)]); [lia|exact Sy| |]; cbn [bind].
      - rewrite (face_of_none TE). exact B.
      - rewrite (@face_of_c E ecloud TE _ _ Ej). exists e. split; [exact Fe|]. split; [reflexivity|]. apply (@sample_at sp E e EC (nth_error_In _ _ Ej)).
    Qed.
    Lemma proj_edge i y : (i < length es)%nat ->
      edge_dist points es i y (snd (project_segment y (gv (nth (e1 i) points [])) (gv (nth (e2 i) points [])))).
    Proof.
      intros L. pose proof (@segment_R y (x1 i) (x2 i)) as H. unfold edge_dist. change (gv (nth (e1 i) points [])) with (x1 i). change (gv (nth (e2 i) points [])) with (x2 i).
      destruct (project_segment y (x1 i) (x2 i)) as [q h]. cbn [snd]. exists q. apply H.
      pose proof (len_gt L) as P. unfold length_of in P.
      destruct (Req_dec (x1 i 0%nat) (x2 i 0%nat)) as [E0|N0]; [|exists 0%nat; auto].
      destruct (Req_dec (x1 i 1%nat) (x2 i 1%nat)) as [E1|N1]; [|exists 1%nat; auto].
      destruct (Req_dec (x1 i 2%nat) (x2 i 2%nat)) as [E2|N2]; [|exists 2%nat; auto].
      exfalso. rewrite (@vdist_ext 3 (x1 i) (x2 i) (x2 i) (x2 i)) in P; [rewrite vdist_self in P; lra| |auto].
      intros d Ld. destruct d as [|[|[|d]]]; [auto..|lia].
    Qed.

    Definition minv (st : marks) : Prop :=
      length (fst st) = n /\ NoDup (snd st) /\ (forall p, In p (snd st) -> (p < n)%nat) /\ forall p, (p < n)%nat -> (nth p (fst st) false = true <-> In p (snd st)).
    Lemma put on l p : minv (on, l) -> (p < n)%nat -> nth p on false = false -> exists on', set on p true = Ok on' /\ minv (on', l ++ [p]).
    Proof.
      intros (L & N & B & A) Lp F. cbn [fst snd] in *. rewrite set_Ok by lia. eexists. split; [reflexivity|].
      assert (Es : set on p true = Ok (upd on p true)) by (apply set_Ok; lia). destruct (@nth_set_bool _ _ _ _ _ false Es) as (L1 & A1 & B1).
      assert (Np : ~ In p l) by (intros I; apply A in I; [congruence|exact Lp]).
      split; [cbn; lia|]. cbn [fst snd]. split; [apply NoDup_Add with (a := p) (l := l); [rewrite <- (app_nil_r l) at 1; apply Add_app|auto]|]. split.
      - intros q I. apply in_app_iff in I as [I|[<-|[]]]; auto.
      - intros q Lq. rewrite in_app_iff. cbn [In]. destruct (Nat.eq_dec q p) as [->|Ne]; [rewrite A1; tauto|]. rewrite (B1 q Ne), (A q Lq). intuition congruence.
    Qed.
    Lemma mark_ok far h p st : minv st -> (p < n)%nat ->
      exists st', mark rmin far h p st = Ok st' /\ minv st' /\ forall q, In q (snd st') <-> In q (snd st) \/ (q = p /\ far && Rltb h (rmin / 10) = true).
    Proof.
      intros Iv Lp. destruct st as [on l]. unfold mark. change (@nmul R _ (nlit 1 1) rmin) with (@nlit R _ 1 1 * rmin). rewrite tenth.
      change (nltb h (rmin / 10)) with (Rltb h (rmin / 10)). destruct (far && Rltb h (rmin / 10)).
      - assert (Iv' := Iv). destruct Iv' as (L & N & B & A). cbn [fst snd] in *. rewrite (@get_in _ on p false) by lia. cbn [bind].
        destruct (nth p on false) eqn:F.
        + eexists. split; [reflexivity|]. split; [exact Iv|]. cbn [snd]. intros q. split; [auto|]. intros [|(-> & _)]; [auto|]. now apply A.
        + destruct (put Iv Lp F) as (on' & -> & Iv'). cbn [bind]. eexists. split; [reflexivity|]. split; [exact Iv'|]. cbn [snd]. intros q. rewrite in_app_iff. cbn [In]. intuition congruence.
      - eexists. split; [reflexivity|]. split; [exact Iv|]. intros q. intuition discriminate.
    Qed.

    (** What is known of the ends a, b after one dart y. *)
    Notation eparts := (edge_parts points thr rmin es E).
    Notation fparts := (face_parts points faces thr rmin C).
    Notation joins y p := (goes_on points faces thr rmin C es E y p).
    Definition looked (a b : nat) (y : list R) (l l' : list nat) : Prop :=
      (forall q, In q l -> In q l')
      /\ (forall q, In q l' -> In q l \/ ((q = a \/ q = b) /\ (eparts y (place q) \/ fparts y (place q))))
      /\ (In a l' \/ joins y a) /\ (In b l' \/ joins y b).
    Lemma dart_ok i y st : (i < length es)%nat -> length y = 3%nat -> on_segment (x1 i) (x2 i) (vec y) -> minv st ->
      outcome (corner_dart points thr rmin cloud faces es ecloud (e1 i) (e2 i) (nth (e1 i) points []) (nth (e2 i) points []) y st)
        (fun st' => minv st' /\ looked (e1 i) (e2 i) y (snd st) (snd st')) astray.
    Proof.
      intros Li Ly Oy Iv. pose proof (seg_small Li Ly Oy) as Sy. unfold corner_dart. destruct (ends_lt Li) as (La & Lb).
      eapply outcome_bind; [eapply outcome_weaken; [apply (edge_seen Ly Sy)|intros v H; exact H|]|].
      { intros B. right. exists i, y. auto. }
      intros j (e & Fe & Ej & Lj). rewrite (ends_ok Lj). cbn [bind]. cbv zeta.
      pose proof (@proj_edge j (vec y) Lj) as D0. pose proof (@proj_edge j (place (e1 i)) Lj) as D1. pose proof (@proj_edge j (place (e2 i)) Lj) as D2.
      change (gv y) with (vec y). change (gv (nth (e1 i) points [])) with (place (e1 i)) in *. change (gv (nth (e2 i) points [])) with (place (e2 i)) in *.
      set (h0 := snd (project_segment (vec y) _ _)) in *. set (h1 := snd (project_segment (place (e1 i)) _ _)) in *. set (h2 := snd (project_segment (place (e2 i)) _ _)) in *.
      change (nltb rmin h0) with (Rltb rmin h0).
      destruct (@mark_ok (Rltb rmin h0) h1 (e1 i) st Iv La) as (s1 & -> & I1 & A1). cbn [bind].
      destruct (@mark_ok (Rltb rmin h0) h2 (e2 i) s1 I1 Lb) as (s2 & -> & I2 & A2). cbn [bind].
      eapply outcome_bind; [eapply outcome_weaken; [apply (across Ly Sy)|intros v H; exact H|]|].
      { intros B. left. destruct (seg_face Li Ly Oy) as (f & If & G & Of). exists f, y. auto. }
      intros k (g & f & Fg & Ek & Ef & _). rewrite (corners_at _ Ef). cbn [bind].
      pose proof (@proj_face f (vec y) (face_good _ Ef) Sy) as P0. pose proof (@proj_face f (place (e1 i)) (face_good _ Ef) (point_small La)) as P1.
      pose proof (@proj_face f (place (e2 i)) (face_good _ Ef) (point_small Lb)) as P2.
      set (k0 := snd (project_triangle (vec y) _)) in *. set (k1 := snd (project_triangle (place (e1 i)) _)) in *. set (k2 := snd (project_triangle (place (e2 i)) _)) in *.
      change (nltb rmin k0) with (Rltb rmin k0).
      destruct (@mark_ok (Rltb rmin k0) k1 (e1 i) s2 I2 La) as (s3 & -> & I3 & A3). cbn [bind].
      destruct (@mark_ok (Rltb rmin k0) k2 (e2 i) s3 I3 Lb) as (s4 & -> & I4 & A4). cbn [outcome].
      subst k. pose proof (face_nth _ Ef) as Eface. subst j.
      split; [exact I4|]. split; [|split].
      - intros q I. apply A4. left. apply A3. left. apply A2. left. apply A1. now left.
      - intros q I. apply A4 in I as [I|(-> & I)].
        + apply A3 in I as [I|(-> & I)].
          * apply A2 in I as [I|(-> & I)].
            -- apply A1 in I as [I|(-> & I)]; [now left|]. right. split; [auto|]. left.
               destruct (parted_dec h0 h1) as [(_ & P)|(Q & _)]; [|congruence]. exists e, h0, h1. auto.
            -- right. split; [auto|]. left. destruct (parted_dec h0 h2) as [(_ & P)|(Q & _)]; [|congruence]. exists e, h0, h2. auto.
          * right. split; [auto|]. right. destruct (parted_dec k0 k1) as [(_ & P)|(Q & _)]; [|congruence]. exists g, k0, k1. rewrite Eface. auto.
        + right. split; [auto|]. right. destruct (parted_dec k0 k2) as [(_ & P)|(Q & _)]; [|congruence]. exists g, k0, k2. rewrite Eface. auto.
      - split.
        + destruct (parted_dec h0 h1) as [(Q & _)|(_ & Ne)]; [left; apply A4; left; apply A3; left; apply A2; left; apply A1; auto|].
          destruct (parted_dec k0 k1) as [(Q & _)|(_ & Nf)]; [left; apply A4; left; apply A3; auto|].
          right. split; [exists e, h0, h1; auto|exists g, k0, k1; rewrite Eface; auto].
        + destruct (parted_dec h0 h2) as [(Q & _)|(_ & Ne)]; [left; apply A4; left; apply A3; left; apply A2; auto|].
          destruct (parted_dec k0 k2) as [(Q & _)|(_ & Nf)]; [left; apply A4; auto|].
          right. split; [exists e, h0, h2; auto|exists g, k0, k2; rewrite Eface; auto].
    Qed.

    Definition near (i : nat) (y : list R) : Prop := near_end points es sp i y.
    Lemma place_ok i c s L : (i < length es)%nat -> 0 <= s < 1 -> 0 <= L <= len i -> L <= 2 * sp ->
      near i (corner_place c s (nth (e1 i) points []) (nth (e2 i) points []) (tangent (nth (e1 i) points []) (nth (e2 i) points [])) L)
      /\ (c = 0%nat -> forall d, (d < 3)%nat -> vec (corner_place c s (nth (e1 i) points []) (nth (e2 i) points []) (tangent (nth (e1 i) points []) (nth (e2 i) points [])) L) d = x1 i d)
      /\ (c = 50%nat -> forall d, (d < 3)%nat -> vec (corner_place c s (nth (e1 i) points []) (nth (e2 i) points []) (tangent (nth (e1 i) points []) (nth (e2 i) points [])) L) d = x2 i d).
    Proof.
      intros Li Hs HL H2. pose proof (len_gt Li) as PL. unfold corner_place.
      assert (Q : norm 3 (fun d => x2 i d - x1 i d) = len i) by (unfold length_of; rewrite vdist_sym; reflexivity).
      destruct (Nat.ltb_spec c 50) as [Lc|Lc].
      - set (s' := if Nat.eqb c 0 then _ else s). assert (Hs' : 0 <= s' <= 1) by (unfold s'; destruct (Nat.eqb c 0); change (@n0 R _) with 0; lra).
        assert (Ev : forall d, (d < 3)%nat -> vec (map (fun d => nadd (gv (nth (e1 i) points []) d) (nmul (nmul s' L) (tangent (nth (e1 i) points []) (nth (e2 i) points []) d))) (seq 0 3)) d = x1 i d + s' * L / len i * (x2 i d - x1 i d)).
        { intros d Ld. rewrite map3_vec by exact Ld. rewrite (tangent_R d Li). change nadd with Rplus. change nmul with Rmult. change (gv (nth (e1 i) points []) d) with (x1 i d). field. lra. }
        set (y := map _ _) in *. split; [|split].
        + split; [reflexivity|]. split.
          * exists (s' * L / len i). split; [|exact Ev]. split; [apply Rmult_le_pos; [nra|apply Rlt_le, Rinv_0_lt_compat; lra]|].
            apply Rmult_le_reg_r with (len i); [lra|]. unfold Rdiv. rewrite Rmult_assoc, Rinv_l by lra. nra.
          * left. unfold vdist, norm. rewrite (@dot_ext 3 _ (fun d => (s' * L / len i) * (x2 i d - x1 i d)) _ (fun d => (s' * L / len i) * (x2 i d - x1 i d))) by (intros d Ld; rewrite (Ev d Ld); ring).
            rewrite dot_scal_l, dot_scal_r, <- norm_sq, Q. replace (_ * (_ * _)) with ((s' * L) * (s' * L)) by (field; lra). rewrite sqrt_square by nra. nra.
        + intros -> d Ld. rewrite (Ev d Ld). unfold s'. cbn [Nat.eqb]. change (@n0 R _) with 0. unfold Rdiv. ring.
        + lia.
      - set (s' := if Nat.eqb c 50 then _ else s). assert (Hs' : 0 <= s' <= 1) by (unfold s'; destruct (Nat.eqb c 50); change (@n0 R _) with 0; lra).
        assert (Ev : forall d, (d < 3)%nat -> vec (map (fun d => nsub (gv (nth (e2 i) points []) d) (nmul (nmul s' L) (tangent (nth (e1 i) points []) (nth (e2 i) points []) d))) (seq 0 3)) d = x2 i d - s' * L / len i * (x2 i d - x1 i d)).
        { intros d Ld. rewrite map3_vec by exact Ld. rewrite (tangent_R d Li). change nsub with Rminus. change nmul with Rmult. change (gv (nth (e2 i) points []) d) with (x2 i d). field. lra. }
        set (y := map _ _) in *. split; [|split].
        + split; [reflexivity|].
          assert (0 <= s' * L / len i <= 1).
          { split; [apply Rmult_le_pos; [nra|apply Rlt_le, Rinv_0_lt_compat; lra]|].
            apply Rmult_le_reg_r with (len i); [lra|]. unfold Rdiv. rewrite Rmult_assoc, Rinv_l by lra. nra. }
          split.
          * exists (1 - s' * L / len i). split; [lra|]. intros d Ld. rewrite (Ev d Ld). ring.
          * right. unfold vdist, norm. rewrite (@dot_ext 3 _ (fun d => (- (s' * L / len i)) * (x2 i d - x1 i d)) _ (fun d => (- (s' * L / len i)) * (x2 i d - x1 i d))) by (intros d Ld; rewrite (Ev d Ld); ring).
            rewrite dot_scal_l, dot_scal_r, <- norm_sq, Q. replace (_ * (_ * _)) with ((s' * L) * (s' * L)) by (field; lra). rewrite sqrt_square by nra. nra.
        + lia.
        + intros -> d Ld. rewrite (Ev d Ld). unfold s'. cbn [Nat.eqb]. change (@n0 R _) with 0. unfold Rdiv. ring.
    Qed.

    (** All the darts of one edge. *)
    Definition seen (i : nat) (ys : list (list R)) (l l' : list nat) : Prop :=
      (forall q, In q l -> In q l')
      /\ (forall q, In q l' -> In q l \/ ((q = e1 i \/ q = e2 i) /\ turns points faces thr rmin C es sp E i q))
      /\ (forall y, In y ys -> near i y /\ (In (e1 i) l' \/ joins y (e1 i)) /\ (In (e2 i) l' \/ joins y (e2 i))).
    Lemma darts_seen i L : (i < length es)%nat -> 0 <= L <= len i -> L <= 2 * sp -> forall m c k st, minv st ->
      outcome (corner_darts points u thr rmin cloud faces es ecloud m c (e1 i) (e2 i) (nth (e1 i) points []) (nth (e2 i) points []) (tangent (nth (e1 i) points []) (nth (e2 i) points [])) L k st)
        (fun st' => minv st' /\ exists ys, length ys = m /\ seen i ys (snd st) (snd st')
           /\ (forall j, (c + j = 0)%nat -> (j < m)%nat -> forall d, (d < 3)%nat -> vec (nth j ys []) d = x1 i d)
           /\ (forall j, (c + j = 50)%nat -> (j < m)%nat -> forall d, (d < 3)%nat -> vec (nth j ys []) d = x2 i d)) astray.
    Proof.
      intros Li HL H2. induction m as [|m IH]; intros c k st Iv; cbn [corner_darts].
      - cbn [outcome]. split; [exact Iv|]. exists []. split; [reflexivity|]. split; [|split; intros; lia]. split; [auto|]. split; [auto|]. intros y [].
      - destruct (@place_ok i c (u k) L Li (Hu k) HL H2) as (Ny & S0 & S50). set (y := corner_place _ _ _ _ _ _) in *. assert (Ny' := Ny). destruct Ny' as (Ly & Oy & _).
        eapply outcome_bind; [apply (@dart_ok i y st Li Ly Oy Iv)|]. intros s1 (I1 & K1 & K2 & K3 & K4).
        eapply outcome_weaken; [apply (IH (S c) (S k) s1 I1)| |auto].
        intros s2 (I2 & ys & Lys & (B1 & B2 & B3) & B4 & B5). split; [exact I2|]. exists (y :: ys). split; [cbn; lia|]. split; [|split].
        + split; [auto|]. split.
          * intros q I. apply B2 in I as [I|I]; [|auto]. apply K2 in I as [I|(Q & P)]; [auto|]. right. split; [exact Q|]. exists y. auto.
          * intros y' [<-|I]; [|auto]. split; [exact Ny|]. split; [destruct K3; auto|destruct K4; auto].
        + intros j Ej Lj. destruct j as [|j]; [cbn [nth]; apply S0; lia|]. cbn [nth]. apply B4; lia.
        + intros j Ej Lj. destruct j as [|j]; [cbn [nth]; apply S50; lia|]. cbn [nth]. apply B5; lia.
    Qed.

    Definition cinv (m : nat) (st : marks * list bool * nat) : Prop :=
      let '(mk, on, _) := st in
      minv mk /\ length on = n
      /\ (forall p, (p < n)%nat -> (nth p on false = true <-> exists i, (i < m)%nat /\ (p = e1 i \/ p = e2 i)))
      /\ (forall p, In p (snd mk) -> exists i, (i < m)%nat /\ (p = e1 i \/ p = e2 i) /\ turns points faces thr rmin C es sp E i p)
      /\ (forall i, (i < m)%nat -> examined points faces thr rmin C es sp E (fun p => In p (snd mk)) i).
    Lemma examined_more i (M M' : nat -> Prop) : (forall p, M p -> M' p) -> examined points faces thr rmin C es sp E M i -> examined points faces thr rmin C es sp E M' i.
    Proof.
      intros H [A|(ys & L & S0 & S50 & A)]; [now left|]. right. exists ys. split; [exact L|]. split; [exact S0|]. split; [exact S50|].
      intros y I. destruct (A y I) as (N & P & Q). split; [exact N|]. split; [destruct P; auto|destruct Q; auto].
    Qed.
    Lemma mid_at i : (i < length es)%nat -> length (mid_edge points es i) = 3%nat /\ on_segment (x1 i) (x2 i) (vec (mid_edge points es i)).
    Proof.
      intros _. split; [reflexivity|]. exists (1 / 2). split; [lra|]. intros d Ld. destruct d as [|[|[|d]]]; [cbn; lra..|lia].
    Qed.
    Lemma set_two on a b : length on = n -> (a < n)%nat -> (b < n)%nat -> exists o1 o2, set on a true = Ok o1 /\ set o1 b true = Ok o2 /\ length o2 = n
      /\ forall p, (p < n)%nat -> (nth p o2 false = true <-> nth p on false = true \/ p = a \/ p = b).
    Proof.
      intros L La Lb. destruct (set on a true) as [o1| |] eqn:E1; [|rewrite set_Ok in E1 by lia; discriminate..].
      destruct (@nth_set_bool _ _ _ _ _ false E1) as (L1 & A1 & B1).
      destruct (set o1 b true) as [o2| |] eqn:E2; [|rewrite set_Ok in E2 by lia; discriminate..].
      destruct (@nth_set_bool _ _ _ _ _ false E2) as (L2 & A2 & B2). exists o1, o2. split; [reflexivity|]. split; [exact E2|]. split; [lia|].
      intros p Lp. destruct (Nat.eq_dec p b) as [->|Nb]; [rewrite A2; tauto|]. rewrite (B2 p Nb).
      destruct (Nat.eq_dec p a) as [->|Na]; [rewrite A1; tauto|]. rewrite (B1 p Na). tauto.
    Qed.
    Lemma corners_step i st : (i < length es)%nat -> cinv i st ->
      outcome (edge_corners points u thr rmin cloud faces es ecloud sp i st) (cinv (S i)) astray.
    Proof.
      intros Li. destruct st as [[mk on] k]. intros (Im & Lo & Ho & Hm & Hx). unfold edge_corners. rewrite (ends_ok Li). cbn [bind].
      destruct (ends_lt Li) as (La & Lb). destruct (@set_two on _ _ Lo La Lb) as (o1 & o2 & -> & E2 & L2 & A2). cbn [bind]. rewrite E2. cbn [bind].
      rewrite distance_R. change (vdist 3 _ _) with (len i). pose proof (len_gt Li) as PL.
      match goal with |- context [closest_nonsmooth_edge _ ?l _ _ _] => assert (El : l = mid_edge points es i) end.
      { unfold mid_edge. cbn [map seq]. change nadd with Rplus. change nmul with Rmult. rewrite nlit5. f_equal; [|f_equal; [|f_equal]]; unfold at1, at2, vec, gv; change (@n0 R _) with 0; lra. }
      rewrite El. clear El. destruct (mid_at Li) as (Lm & Om). pose proof (seg_small Li Lm Om) as Sm.
      replace (nlit 1 10) with (1 / 10 ^ 10) by (symmetry; apply nlit10_R).
      destruct (@curve_search E ecloud thr (cloud_well EC) TE Ht (1 / 10 ^ 10) (mid_edge points es i)) as (b & -> & Ab); [lia|exact Sm|]. destruct b as [jb hb]. cbn [bind].
      assert (Ho' : forall p, (p < n)%nat -> (nth p o2 false = true <-> exists j, (j < S i)%nat /\ (p = e1 j \/ p = e2 j))).
      { intros p Lp. rewrite (A2 p Lp), (Ho p Lp). split.
        - intros [(j & Lj & Q)|Q]; [exists j; split; [lia|auto]|exists i; split; [lia|auto]].
        - intros (j & Lj & Q). destruct (Nat.eq_dec j i) as [->|Ne]; [auto|]. left. exists j. split; [lia|auto]. }
      change (@nmul R _ (nlit 5 1) (len i)) with (@nlit R _ 5 1 * len i). rewrite nlit5. change (nltb (1 / 2 * len i) hb) with (Rltb (1 / 2 * len i) hb).
      destruct (Rltb (1 / 2 * len i) hb) eqn:Lh.
      - apply Rltb_true in Lh. cbn [outcome]. split; [exact Im|]. split; [exact L2|]. split; [exact Ho'|]. split.
        + intros p I. destruct (Hm p I) as (j & Lj & Q). exists j. split; [lia|exact Q].
        + intros j Lj. destruct (Nat.eq_dec j i) as [->|Ne]; [|apply Hx; lia]. left. intros e Ie Ns.
          destruct Ab as [(_ & B)|(j' & e' & _ & Eb & _ & _ & M)]; [destruct (Ns (B e Ie))|]. injection Eb as _ ->. specialize (M e Ie Ns). lra.
      - change (@nmul R _ n2 sp) with (2 * sp). change (nltb (2 * sp) (len i)) with (Rltb (2 * sp) (len i)).
        set (L := if Rltb (2 * sp) (len i) then 2 * sp else len i).
        assert (HL : 0 <= L <= len i /\ L <= 2 * sp) by (unfold L; destruct (Rltb (2 * sp) (len i)) eqn:Q; [apply Rltb_true in Q; lra|apply Rltb_false in Q; lra]).
        eapply outcome_bind; [apply (@darts_seen i L Li (proj1 HL) (proj2 HL) corner_trials 0 k mk Im)|].
        intros mk' (Im' & ys & Lys & (B1 & B2 & B3) & B4 & B5). cbn [outcome]. split; [exact Im'|]. split; [exact L2|]. split; [exact Ho'|]. split.
        + intros p I. apply B2 in I as [I|(Q & P)]; [|exists i; auto]. destruct (Hm p I) as (j & Lj & Q). exists j. split; [lia|exact Q].
        + intros j Lj. destruct (Nat.eq_dec j i) as [->|Ne].
          * right. exists ys. split; [exact Lys|]. unfold corner_trials in *. split; [apply (B4 0%nat); lia|]. split; [apply (B5 50%nat); lia|]. exact B3.
          * eapply examined_more; [|apply Hx; lia]. exact B1.
    Qed.

    Lemma corners_ok normals k : length normals = n ->
      outcome (sharp_corners points u thr rmin cloud faces es ecloud sp normals k) (good_corners points faces thr rmin C es sp E normals) astray.
    Proof.
      intros Ln. unfold sharp_corners. eapply outcome_bind with (P := cinv (length es)).
      - eapply outcome_weaken; [apply (fold_outcome _ cinv astray (seq 0 (length es)) 0)| |intros H; exact H].
        + split; [|split; [apply repeat_length|split; [|split; [intros p []|lia]]]].
          * split; [apply repeat_length|]. split; [constructor|]. split; [intros p []|]. intros p Lp. cbn [fst snd]. rewrite nth_repeat. split; [discriminate|intros []].
          * intros p Lp. rewrite nth_repeat. split; [discriminate|]. intros (i & L & _). lia.
        + intros j a st Ea Iv. cbn [Nat.add] in *. assert (L := nth_error_Some_lt _ _ Ea). rewrite seq_length in L.
          rewrite (nth_error_nth' _ 0%nat) in Ea by (rewrite seq_length; lia). rewrite seq_nth in Ea by lia. injection Ea as <-. cbn [Nat.add]. now apply corners_step.
        + rewrite seq_length. auto.
      - intros [[mk on] k'] (Im & Lo & Ho & Hm & Hx).
        set (extra := fun p => (2 < length (nth p normals []))%nat \/ (1 < length (nth p normals []))%nat /\ nth p on false = false).
        eapply outcome_bind with (P := fun st : marks => minv st /\ forall p, In p (snd st) <-> In p (snd mk) \/ (p < n)%nat /\ extra p).
        + eapply outcome_weaken; [apply (fold_outcome _ (fun m (st : marks) => minv st /\ forall p, In p (snd st) <-> In p (snd mk) \/ (p < m)%nat /\ extra p) astray (seq 0 n) 0)| |intros H; exact H].
          * split; [exact Im|]. intros p. split; [auto|]. intros [|(L & _)]; [auto|lia].
          * intros j a st Ea (Iv & Hl). cbn [Nat.add] in *. assert (L := nth_error_Some_lt _ _ Ea). rewrite seq_length in L.
            rewrite (nth_error_nth' _ 0%nat) in Ea by (rewrite seq_length; lia). rewrite seq_nth in Ea by lia. injection Ea as <-. cbn [Nat.add].
            destruct st as [on' l]. unfold normal_corner. assert (Iv' := Iv). destruct Iv' as (L1 & _ & B & A). cbn [fst snd] in *.
            rewrite (@get_in _ on' j false) by lia. cbn [bind]. destruct (nth j on' false) eqn:F.
            -- cbn [outcome]. split; [exact Iv|]. cbn [snd]. intros p. rewrite (Hl p). split.
               ++ intros [|(Lp & X)]; [auto|right; split; [lia|auto]].
               ++ intros [|(Lp & X)]; [auto|]. destruct (Nat.eq_dec p j) as [->|Ne]; [apply Hl; now apply A|right; split; [lia|auto]].
            -- rewrite (@get_in _ normals j []) by lia. cbn [bind].
               assert (Add : extra j -> outcome (on0 <- set on' j true ;; Ok (on0, l ++ [j])) (fun st : marks => minv st /\ forall p, In p (snd st) <-> In p (snd mk) \/ (p < S j)%nat /\ extra p) astray).
               { intros X. destruct (put Iv L F) as (o2 & -> & I2). cbn [bind outcome]. split; [exact I2|]. cbn [snd]. intros p. rewrite in_app_iff, (Hl p). cbn [In]. split.
                 - intros [[|(Lp & Y)]|[<-|[]]]; [auto|right; split; [lia|auto]|right; split; [lia|auto]].
                 - intros [|(Lp & Y)]; [auto|]. destruct (Nat.eq_dec p j) as [->|Ne]; [auto|]. left. right. split; [lia|auto]. }
               assert (Keep : ~ extra j -> minv (on', l) /\ forall p, In p (snd (on', l)) <-> In p (snd mk) \/ (p < S j)%nat /\ extra p).
               { intros X. split; [exact Iv|]. cbn [snd]. intros p. rewrite (Hl p). split; [intros [|(Lp & Y)]; [auto|right; split; [lia|auto]]|].
                 intros [|(Lp & Y)]; [auto|]. destruct (Nat.eq_dec p j) as [->|Ne]; [contradiction|]. right. split; [lia|auto]. }
               destruct (Nat.ltb_spec 2 (length (nth j normals []))) as [H2|H2]; [apply Add; now left|].
               rewrite (@get_in _ on j false) by lia. cbn [bind]. destruct (nth j on false) eqn:Fo; cbn [negb andb].
               ++ apply Keep. intros [X|(_ & X)]; [lia|congruence].
               ++ destruct (Nat.ltb_spec 1 (length (nth j normals []))) as [H1|H1]; [apply Add; right; auto|].
                  apply Keep. intros [X|(X & _)]; lia.
          * cbn [Nat.add]. rewrite seq_length. auto.
        + intros [on' l] ((L1 & Nd & B & _) & Hl). cbn [fst snd outcome] in *. split; [exact Nd|]. exists (fun p => In p (snd mk)). split; [exact Hm|]. split; [exact Hx|].
          intros p. rewrite (Hl p). destruct Im as (_ & _ & Bm & _). split.
          * intros [I|(Lp & [X|(X & Y)])]; [split; [now apply Bm|auto]|split; [exact Lp|]; right; left; exact X|].
            split; [exact Lp|]. right. right. split; [exact X|]. intros i Li. split; intros ->; assert (false = true); try discriminate; rewrite <- Y; apply Ho; [exact Lp|exists i; auto|exact Lp|exists i; auto].
          * intros (Lp & [I|[X|(X & Y)]]); [auto|right; split; [exact Lp|now left]|]. right. split; [exact Lp|]. right. split; [exact X|].
            destruct (nth p on false) eqn:F; [|reflexivity]. apply (Ho p Lp) in F as (i & Li & Q). specialize (Y i Li). tauto.
    Qed.
  End Edges.
End Detect.
