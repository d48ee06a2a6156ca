(** Proofs about Voro.v. *)
From Coq Require Import Reals Lra.
From Verif Require Import Base Num SamplingSpec Vec KdSpec KdTree SmartTree DenseQR Geometry GeometryProofs Spheres
  PolyMesh PolyMeshProofs Regions RegionsProofs KdQueryProofs SpokeFlatProofs SurfaceShrinkProofs
  Interior InteriorSpec InteriorTreeProofs InteriorProofs InteriorRunProofs Voro VoroSpec.
Local Open Scope R_scope.

Lemma range3 (f : nat -> R) : range_sum 0 3 f = f 0%nat + f 1%nat + f 2%nat.
Proof. rewrite range0_R. unfold sumn, rsum. cbn [seq map fold_right]. ring. Qed.
Lemma cdist_sq a b : cdist a b * cdist a b
  = (gv a 0%nat - gv b 0%nat) * (gv a 0%nat - gv b 0%nat) + (gv a 1%nat - gv b 1%nat) * (gv a 1%nat - gv b 1%nat)
    + (gv a 2%nat - gv b 2%nat) * (gv a 2%nat - gv b 2%nat).
Proof. unfold cdist. rewrite vdist_sq. unfold dot, sumn, rsum, vec, gv. cbn [seq map fold_right]. change (@n0 R _) with 0. ring. Qed.
Lemma sq_dist_R (x v : list R) : sq_dist x v = cdist x v * cdist x v.
Proof. rewrite cdist_sq. unfold sq_dist. rewrite range3. cbn [nmul nsub RNum]. ring. Qed.

Lemma gv_0 (a b c : R) : gv [a; b; c] 0%nat = a. Proof. reflexivity. Qed.
Lemma gv_1 (a b c : R) : gv [a; b; c] 1%nat = b. Proof. reflexivity. Qed.
Lemma gv_2 (a b c : R) : gv [a; b; c] 2%nat = c. Proof. reflexivity. Qed.
Lemma set_inv {A} (l l' : list A) i a : set l i a = Ok l' -> (i < length l)%nat /\ l' = upd l i a.
Proof. unfold set. destruct (Nat.ltb_spec i (length l)); [intros E; injection E as <-; auto|discriminate]. Qed.

Lemma nth_error_Some_lt {A} (l : list A) i a : nth_error l i = Some a -> (i < length l)%nat.
Proof. intros E. apply nth_error_Some. congruence. Qed.
Lemma position_Some {A} (f : A -> bool) l i : position f l = Some i ->
  exists a, nth_error l i = Some a /\ f a = true /\ forall j b, (j < i)%nat -> nth_error l j = Some b -> f b = false.
Proof.
  revert i. induction l as [|h t IH]; cbn [position]; [discriminate|]. intros i E. destruct (f h) eqn:Eh.
  - injection E as <-. exists h. split; auto. split; auto. intros j b Hj. lia.
  - destruct (position f t) as [k|] eqn:Ek; [|discriminate]. injection E as <-. destruct (IH k eq_refl) as (a & Ea & Hf & Hb).
    exists a. split; auto. split; auto. intros [|j] b Hj Ej; cbn in Ej; [congruence|]. apply (Hb j b); auto. lia.
Qed.
Lemma position_None {A} (f : A -> bool) l : position f l = None -> forall a, In a l -> f a = true -> False.
Proof.
  induction l as [|h t IH]; cbn [position]; intros E a []; intros Hf; subst.
  - rewrite Hf in E. discriminate.
  - destruct (f h); [discriminate|]. destruct (position f t); [discriminate|]. eauto.
Qed.

(** ** Bisectors *)
Lemma bisector_R (x y p : list R) : 0 < cdist x y ->
  plane_dist (fst (bisector x y)) (snd (bisector x y)) p * (2 * cdist x y) = cdist p x * cdist p x - cdist p y * cdist p y.
Proof.
  intros Hd. unfold plane_dist, bisector. cbn [fst snd]. rewrite !range3.
  set (nrm := nsqrt _).
  assert (Hn : nrm = cdist x y).
  { unfold nrm. cbn [nsqrt nmul nsub RNum]. rewrite <- (sqrt_square (cdist x y)) by apply cdist_nonneg. f_equal. rewrite cdist_sq. ring. }
  rewrite Hn. rewrite (cdist_sq p x), (cdist_sq p y).
  cbn [seq map]. rewrite !gv_0, !gv_1, !gv_2. cbn [nadd nsub nmul ndiv RNum].
  assert (H5 : @nlit R _ 5 1 = 1 / 2) by (unfold nlit; cbn; lra). rewrite !H5. field. lra.
Qed.
Lemma bisector_same (x y p : list R) : cdist x y = 0 -> plane_dist (fst (bisector x y)) (snd (bisector x y)) p = 0.
Proof.
  intros Hd. pose proof (cdist_sq x y) as E. rewrite Hd in E.
  unfold plane_dist, bisector. cbn [fst snd]. rewrite !range3. set (nrm := nsqrt _).
  cbn [seq map]. rewrite !gv_0, !gv_1, !gv_2. cbn [nadd nsub nmul ndiv RNum].
  set (a := gv x 0%nat) in *. set (b := gv x 1%nat) in *. set (c := gv x 2%nat) in *.
  set (a' := gv y 0%nat) in *. set (b' := gv y 1%nat) in *. set (c' := gv y 2%nat) in *.
  assert (S2 : forall u, 0 <= u * u) by (intros; apply Rle_0_sqr).
  assert (Z : forall u, u * u <= 0 -> u = 0) by (intros u Hu; apply Rsqr_0_uniq; unfold Rsqr; pose proof (S2 u); lra).
  pose proof (S2 (a - a')). pose proof (S2 (b - b')). pose proof (S2 (c - c')).
  assert (a - a' = 0) by (apply Z; lra). assert (b - b' = 0) by (apply Z; lra). assert (c - c' = 0) by (apply Z; lra).
  replace (a' - a) with 0 by lra. replace (b' - b) with 0 by lra. replace (c' - c) with 0 by lra. unfold Rdiv. ring.
Qed.
Lemma beyond_bisector (x y p : list R) : 1 / 10 ^ 10 < plane_dist (fst (bisector x y)) (snd (bisector x y)) p -> cdist p y < cdist p x.
Proof.
  intros H. destruct (Req_dec (cdist x y) 0) as [E|E].
  { rewrite bisector_same in H by auto. pose proof tol_pos. lra. }
  assert (Hd : 0 < cdist x y) by (pose proof (cdist_nonneg x y); lra).
  pose proof (bisector_R x y p Hd) as B. assert (0 < plane_dist (fst (bisector x y)) (snd (bisector x y)) p * (2 * cdist x y)).
  { apply Rmult_lt_0_compat; [|lra]. pose proof tol_pos. lra. }
  apply Rsqr_incrst_0; try apply cdist_nonneg. unfold Rsqr. lra.
Qed.

(** ** Trimming only removes corners *)
Definition del_pt : list R := [dbl_max; dbl_max; dbl_max].
Definition kept_rows (P : list R -> Prop) (p p' : list (corner R)) : Prop :=
  (length p <= length p')%nat
  /\ forall i c, nth_error p i = Some c -> exists c', nth_error p' i = Some c' /\ (c_pt c' = c_pt c \/ c_pt c' = del_pt /\ P (c_pt c)).
Lemma deleted_is (c : corner R) : c_pt c = del_pt -> is_deleted c = true.
Proof. intros E. unfold is_deleted. rewrite E. cbn. unfold Reqb. destruct (Req_EM_T _ _); auto. Qed.
Lemma kept_refl P p : kept_rows P p p.
Proof. split; [lia|]. intros i c E. exists c. auto. Qed.
Lemma kept_trans P p q s : kept_rows P p q -> kept_rows P q s -> kept_rows P p s.
Proof.
  intros (L1 & H1) (L2 & H2). split; [lia|]. intros i c E. destruct (H1 i c E) as (c' & E' & H). destruct (H2 i c' E') as (c'' & E'' & H').
  exists c''. split; auto. destruct H as [H|(H & HP)], H' as [H'|(H' & HP')]; rewrite ?H in *; auto.
Qed.
Lemma kept_weaken (P Q : list R -> Prop) p q : (forall x, P x -> Q x) -> kept_rows P p q -> kept_rows Q p q.
Proof. intros H (L1 & H1). split; auto. intros i c E. destruct (H1 i c E) as (c' & E' & [D|(D & D')]); exists c'; auto. Qed.
Lemma kept_set P p i c c' p' : nth_error p i = Some c -> set p i c' = Ok p' -> c_pt c' = c_pt c -> kept_rows P p p'.
Proof.
  intros Ec E Ep. apply set_inv in E. destruct E as (Hi & ->). split; [rewrite upd_length; lia|].
  intros j d Ej. destruct (Nat.eq_dec j i) as [->|Hij].
  - exists c'. rewrite upd_nth_same by auto. split; auto. left. congruence.
  - exists d. rewrite upd_nth_other by auto. auto.
Qed.
Lemma kept_app P p q : kept_rows P p (p ++ q).
Proof. split; [rewrite app_length; lia|]. intros i c E. exists c. split; auto. rewrite nth_error_app1; auto. apply nth_error_Some. congruence. Qed.

Lemma trim_rec_Ok seed xo n : forall fuel ci old p p' c,
  nth_error p ci = Some c -> 1 / 10 ^ 10 < plane_dist xo n (c_pt c) -> trim_rec fuel seed xo n ci old p = Ok p' ->
  kept_rows (fun q => 1 / 10 ^ 10 < plane_dist xo n q) p p' /\ exists c', nth_error p' ci = Some c' /\ c_pt c' = del_pt.
Proof.
  set (P := fun q => 1 / 10 ^ 10 < plane_dist xo n q).
  induction fuel as [|fuel IH]; intros ci old p p' c Ec HP E; cbn [trim_rec] in E; [discriminate|].
  apply bind_Ok_inv in E. destruct E as (c0 & _ & E). set (io := first_place c0 ci old) in *. clearbody io. clear c0.
  apply bind_Ok_inv in E. destruct E as (st & Es & E).
  assert (K : kept_rows P p st).
  { refine (@fold_res_Ok _ _ (kept_rows P p) _ _ _ _ _ _ Es); [|apply kept_refl].
    intros ii q q' _ Kq Eq.
    set (i := if (3 <=? io + ii)%nat then (io + ii - 3)%nat else (io + ii)%nat) in *. clearbody i.
    apply bind_Ok_inv in Eq. destruct Eq as (a & Ea & Eq). apply get_Ok in Ea.
    apply bind_Ok_inv in Eq. destruct Eq as ([ib|] & Eo & Eq); [|injection Eq as <-; auto].
    apply bind_Ok_inv in Eq. destruct Eq as (b & Eb & Eq). apply get_Ok in Eb.
    destruct (existsb is_none (c_nb b)); [injection Eq as <-; auto|].
    apply bind_Ok_inv in Eq. destruct Eq as (q1 & E1 & Eq).
    assert (K1 : kept_rows P p q1) by (eapply kept_trans; [exact Kq|]; eapply kept_set; [exact Ea|exact E1|reflexivity]).
    assert (K2 : kept_rows P q q1) by (eapply kept_set; [exact Ea|exact E1|reflexivity]).
    assert (Hb : exists b1, nth_error q1 ib = Some b1 /\ c_pt b1 = c_pt b).
    { apply set_inv in E1. destruct E1 as (Hi & ->). destruct (Nat.eq_dec ib ci) as [->|Hne].
      - exists (set_nb a i None). rewrite upd_nth_same by auto. split; auto. cbn. congruence.
      - exists b. rewrite upd_nth_other by auto. auto. }
    destruct Hb as (b1 & Eb1 & Hb1).
    destruct (nltb (nlit 1 10) (plane_dist xo n (c_pt b))) eqn:Et.
    - rewrite tol_eq in Et. apply Rltb_true in Et.
      eapply kept_trans; [exact K1|]. eapply IH; [exact Eb1|rewrite Hb1; exact Et|exact Eq].
    - apply bind_Ok_inv in Eq. destruct Eq as (q2 & E2 & Eq). injection Eq as <-.
      eapply kept_trans; [exact K1|]. eapply kept_trans; [|apply kept_app].
      eapply kept_set; [exact Eb1|exact E2|]. rewrite Hb1. unfold redirect. destruct (position _ _); reflexivity. }
  apply set_inv in E. destruct E as (Hi & ->). destruct K as (L1 & K). split.
  - split; [rewrite upd_length; lia|]. intros j d Ej. destruct (Nat.eq_dec j ci) as [->|Hne].
    + exists deleted. rewrite upd_nth_same by auto. split; auto. right. split; [reflexivity|]. assert (d = c) by congruence. subst d. exact HP.
    + rewrite upd_nth_other by auto. auto.
  - exists deleted. rewrite upd_nth_same by auto. auto.
Qed.

Lemma close_one_kept P lo hi i p p' : close_one lo hi i p = Ok p' -> kept_rows P p p'.
Proof.
  intros E. unfold close_one in E. apply bind_Ok_inv in E. destruct E as (c & Ec & E). apply get_Ok in Ec.
  destruct (position _ _); [|injection E as <-; apply kept_refl]. eapply kept_set; [exact Ec|exact E|reflexivity].
Qed.
Lemma trim_Ok fuel seed xo n ci p p' c :
  nth_error p ci = Some c -> 1 / 10 ^ 10 < plane_dist xo n (c_pt c) -> trim fuel seed xo n ci p = Ok p' ->
  kept_rows (fun q => 1 / 10 ^ 10 < plane_dist xo n q) p p' /\ exists c', nth_error p' ci = Some c' /\ c_pt c' = del_pt.
Proof.
  intros Ec HP E. unfold trim in E. apply bind_Ok_inv in E. destruct E as (q & Eq & E).
  destruct (@trim_rec_Ok seed xo n fuel ci ci p q c Ec HP Eq) as (K & c' & Ec' & Hc').
  assert (K2 : kept_rows (fun q => 1 / 10 ^ 10 < plane_dist xo n q) q p').
  { refine (@fold_res_Ok _ _ (kept_rows _ q) _ _ _ _ _ _ E); [|apply kept_refl].
    intros ii s s' _ Ks Es. eapply kept_trans; [exact Ks|]. eapply close_one_kept; eauto. }
  split; [eapply kept_trans; eauto|]. destruct K2 as (_ & K2). destruct (K2 ci c' Ec') as (c'' & E'' & [H|(H & _)]); exists c''; split; auto; congruence.
Qed.

(** ** The test of a corner *)
Section Clip.
  Variables (x : list R) (pts : list (list R)).
  Definition ldot (y v : list R) : R :=
    (gv y 0%nat - gv x 0%nat) * (gv v 0%nat - gv x 0%nat) + (gv y 1%nat - gv x 1%nat) * (gv v 1%nat - gv x 1%nat)
    + (gv y 2%nat - gv x 2%nat) * (gv v 2%nat - gv x 2%nat).
  Lemma ldot_dist y v : cdist v x * cdist v x - cdist v y * cdist v y = 2 * ldot y v - cdist x y * cdist x y.
  Proof. rewrite !cdist_sq. unfold ldot. ring. Qed.
  Definition lam (y v : list R) : R := cdist x y * cdist x y / ldot y v.
  (** What the search for the first cut finds. *)
  Lemma first_cut_ok v : forall l k, first_cut x v pts = (l, k) ->
    (forall y, In y pts -> 1 / 10 ^ 10 <= ldot y v -> l <= lam y v)
    /\ ((l, k) = (dbl_max, length pts) \/ exists y, nth_error pts k = Some y /\ 1 / 10 ^ 10 <= ldot y v /\ l = lam y v).
  Proof.
    intros l k E. unfold first_cut in E. revert E.
    match goal with |- fold_left ?f _ ?s = _ -> _ => set (g := f); generalize (eq_refl s); generalize s at 2 3 end. intros st0 H0 E.
    enough (G : forall q st, (forall j y, In (j, y) q -> nth_error pts j = Some y) ->
      fold_left g q st = (l, k) ->
      l <= fst st /\ (forall j y, In (j, y) q -> 1 / 10 ^ 10 <= ldot y v -> l <= lam y v)
      /\ ((l, k) = st \/ exists y, nth_error pts k = Some y /\ 1 / 10 ^ 10 <= ldot y v /\ l = lam y v)).
    { destruct (G (numbered pts) st0) as (_ & G2 & G3); auto.
      - intros j y Hin. apply in_numbered in Hin. auto.
      - split; [|rewrite H0; auto]. intros y Hy Hl. apply In_nth_error in Hy. destruct Hy as (j & Hj). apply (G2 j y); auto.
        apply nth_error_In with j. rewrite numbered_nth, Hj. reflexivity. }
    clear E H0. induction q as [|[j y] q IH]; intros st Hq E; cbn [fold_left] in E.
    { rewrite E. cbn [fst]. split; [lra|]. split; [intros ? ? []|auto]. }
    destruct (IH (g st (j, y))) as (I1 & I2 & I3); [intros; apply Hq; now right|exact E|].
    assert (Hg : fst (g st (j, y)) <= fst st /\ (1 / 10 ^ 10 <= ldot y v -> fst (g st (j, y)) <= lam y v)
      /\ (g st (j, y) = st \/ g st (j, y) = (lam y v, j) /\ 1 / 10 ^ 10 <= ldot y v)).
    { unfold g. rewrite !range3. cbn [nmul nsub ndiv nltb RNum]. rewrite tol_eq.
      fold (ldot y v).
      assert (Exy : (gv y 0%nat - gv x 0%nat) * (gv y 0%nat - gv x 0%nat) + (gv y 1%nat - gv x 1%nat) * (gv y 1%nat - gv x 1%nat)
        + (gv y 2%nat - gv x 2%nat) * (gv y 2%nat - gv x 2%nat) = cdist x y * cdist x y) by (rewrite cdist_sq; ring).
      rewrite Exy. fold (lam y v).
      destruct (Rltb (ldot y v) (1 / 10 ^ 10)) eqn:E1; [apply Rltb_true in E1|apply Rltb_false in E1].
      { split; [lra|]. split; [intros; lra|auto]. }
      destruct (Rltb (lam y v) (fst st)) eqn:E2; [apply Rltb_true in E2|apply Rltb_false in E2]; cbn [fst].
      - split; [lra|]. split; [intros; lra|]. right. split; [reflexivity|lra].
      - split; [lra|]. split; [intros; lra|]. auto. }
    destruct Hg as (G1 & G2 & G3). split; [lra|]. split.
    - intros j' y' [Ej|Hin] Hl; [injection Ej as <- <-; specialize (G2 Hl); lra|]. eapply I2; eauto.
    - destruct I3 as [I3|I3]; [|auto]. destruct G3 as [G3|(G3 & G4)]; [left; congruence|]. right. exists y.
      rewrite G3 in I3. injection I3 as -> ->. split; [apply Hq; now left|auto].
  Qed.

  Definition passes (v : list R) : Prop :=
    exists l k, first_cut x v pts = (l, k)
      /\ (2 < l \/ exists y, nth_error pts k = Some y /\ plane_dist (fst (bisector x y)) (snd (bisector x y)) v <= 1 / 10 ^ 10).
  Lemma passes_bound d v : 0 < d -> (forall y, In y pts -> cdist x y = 0 \/ d <= cdist x y) -> passes v ->
    forall s, In s pts -> cdist v x <= cdist v s + vertex_tol d x s.
  Proof.
    intros Hd Hsep (l & k & Ef & Hp) s Hs. destruct (first_cut_ok v Ef) as (F1 & F2).
    pose proof tol_pos as Ht. set (t := 1 / 10 ^ 10) in *.
    set (D := cdist v x). set (dd := cdist v s). set (e := cdist x s).
    assert (Hm : t * 1 <= vertex_tol d x s /\ t * (2 * Rmax 1 e / d) <= vertex_tol d x s).
    { unfold vertex_tol. fold t e. split; apply Rmult_le_compat_l; try lra; [apply Rmax_l|apply Rmax_r]. }
    destruct Hm as (Hm1 & Hm2).
    destruct (Rle_lt_dec D dd) as [HD|HD]; [lra|].
    pose proof (cdist_triangle v s x) as T1. rewrite (cdist_sym s x) in T1. fold D dd e in T1.
    pose proof (cdist_triangle x v s) as T2. rewrite (cdist_sym x v) in T2. fold D dd e in T2.
    destruct (Hsep s Hs) as [He|He]; fold e in He; [lra|].
    pose proof (ldot_dist s v) as HL. fold D dd e in HL.
    assert (Hprod : (D - dd) * e <= 2 * ldot s v - e * e).
    { rewrite <- HL. replace (D * D - dd * dd) with ((D - dd) * (D + dd)) by ring. apply Rmult_le_compat_l; lra. }
    pose proof (Rmax_l 1 e) as M1. pose proof (Rmax_r 1 e) as M2.
    (* it is enough to bound (D - dd) d *)
    enough (HB : (D - dd) * d <= 2 * t * Rmax 1 e).
    { assert (D - dd <= t * (2 * Rmax 1 e / d)).
      { apply (Rmult_le_reg_r d); auto. replace (t * (2 * Rmax 1 e / d) * d) with (2 * t * Rmax 1 e) by (field; lra). lra. }
      lra. }
    destruct (Rlt_le_dec (ldot s v) t) as [Hl|Hl].
    - assert ((D - dd) * d <= (D - dd) * e) by (apply Rmult_le_compat_l; lra).
      assert (2 * t * 1 <= 2 * t * Rmax 1 e) by (apply Rmult_le_compat_l; lra).
      assert (0 <= e * e) by (apply Rle_0_sqr). lra.
    - pose proof (F1 s Hs Hl) as Fl. unfold lam in Fl. fold e in Fl.
      assert (Hee : l * ldot s v <= e * e).
      { apply Rmult_le_compat_r with (r := ldot s v) in Fl; [|lra]. unfold Rdiv in Fl. rewrite Rmult_assoc, Rinv_l, Rmult_1_r in Fl by lra. lra. }
      destruct Hp as [Hp|(y & Ey & Hp)].
      { assert (2 * ldot s v <= l * ldot s v) by (apply Rmult_le_compat_r; lra).
        assert (0 < (D - dd) * e) by (apply Rmult_lt_0_compat; lra). lra. }
      destruct F2 as [F2|(y' & Ey' & Hy & Hlam)].
      { injection F2 as -> ->. assert (nth_error pts (length pts) = None) by (apply nth_error_None; lia). congruence. }
      assert (y' = y) by congruence. subst y'.
      assert (Hyin : In y pts) by (eapply nth_error_In; eauto).
      set (e' := cdist x y). set (d' := cdist v y). pose proof (ldot_dist y v) as HL'. fold D d' e' in HL'.
      assert (He' : d <= e').
      { destruct (Hsep y Hyin) as [H0|H0]; [exfalso|exact H0].
        pose proof (cdist_triangle v y x) as A1. rewrite (cdist_sym y x) in A1. pose proof (cdist_triangle v x y) as A2.
        fold D d' e' in A1, A2. fold e' in H0. assert (D = d') by lra. rewrite H in HL'. rewrite H0 in HL'. lra. }
      pose proof (bisector_R x y v) as B. fold D d' e' in B. specialize (B ltac:(lra)). rewrite HL' in B.
      assert (Hb : 2 * ldot y v - e' * e' <= t * (2 * e')) by (rewrite <- B; apply Rmult_le_compat_r; lra).
      unfold lam in Hlam. fold e' in Hlam.
      (* ldot s v * e'^2 <= e^2 * ldot y v *)
      assert (H1 : ldot s v * (e' * e') <= e * e * ldot y v).
      { assert (El : l * ldot y v = e' * e') by (rewrite Hlam; field; lra).
        rewrite <- El. replace (ldot s v * (l * ldot y v)) with (l * ldot s v * ldot y v) by ring. apply Rmult_le_compat_r; lra. }
      assert (H2 : (2 * ldot s v - e * e) * (e' * e') <= e * e * (t * (2 * e'))).
      { apply Rle_trans with (e * e * (2 * ldot y v - e' * e')); [lra|]. apply Rmult_le_compat_l; [apply Rle_0_sqr|auto]. }
      assert (H3 : (D - dd) * e * (e' * e') <= e * e * (t * (2 * e'))).
      { apply Rle_trans with ((2 * ldot s v - e * e) * (e' * e')); [|auto]. apply Rmult_le_compat_r; [apply Rle_0_sqr|auto]. }
      assert (H4 : (D - dd) * e' <= 2 * t * e).
      { apply (Rmult_le_reg_r (e * e')); [apply Rmult_lt_0_compat; lra|]. lra. }
      assert ((D - dd) * d <= (D - dd) * e') by (apply Rmult_le_compat_l; lra).
      assert (2 * t * e <= 2 * t * Rmax 1 e) by (apply Rmult_le_compat_l; lra). lra.
  Qed.

  Definition checked (i : nat) (p : list (corner R)) : Prop :=
    forall j c, (j < i)%nat -> nth_error p j = Some c -> is_deleted c = true \/ passes (c_pt c).
  Definition nearer (q : list R) : Prop := exists y, In y pts /\ cdist q y < cdist q x.
  Lemma is_deleted_pt (c c' : corner R) : c_pt c' = c_pt c -> is_deleted c' = is_deleted c.
  Proof. intros E. unfold is_deleted. now rewrite E. Qed.
  Lemma kept_checked P i p p' : (i <= length p)%nat -> kept_rows P p p' -> checked i p -> checked i p'.
  Proof.
    intros Hi (L1 & K) C j c' Hj Ej. assert (Hjp : (j < length p)%nat) by lia.
    destruct (nth_error p j) as [c|] eqn:Ec; [|apply nth_error_None in Ec; lia].
    destruct (K j c Ec) as (c'' & E'' & D). assert (c'' = c') by congruence. subst c''.
    destruct D as [D|(D & _)]; [|left; now apply deleted_is]. rewrite (is_deleted_pt _ _ D), D. apply (C j c); auto.
  Qed.
  Lemma clip_corner_Ok fuel i p p' : checked i p -> clip_corner fuel x pts i p = Ok p' -> checked (S i) p' /\ kept_rows nearer p p'.
  Proof.
    intros C E. unfold clip_corner in E. apply bind_Ok_inv in E. destruct E as (c & Ec & E). apply get_Ok in Ec.
    assert (Hi : (i < length p)%nat) by (apply nth_error_Some; congruence).
    assert (Here : is_deleted c = true \/ passes (c_pt c) -> checked (S i) p).
    { intros H j c' Hj Ej. destruct (Nat.eq_dec j i) as [->|Hne]; [|apply (C j c'); auto; lia]. congruence. }
    destruct (is_deleted c) eqn:Ed; [injection E as <-; split; [auto|apply kept_refl]|].
    destruct (first_cut x (c_pt c) pts) as [l k] eqn:Ef.
    destruct (nltb n2 l) eqn:El.
    { injection E as <-. apply Rltb_true in El. split; [|apply kept_refl]. apply Here. right. exists l, k. auto. }
    apply bind_Ok_inv in E. destruct E as (y & Ey & E). apply get_Ok in Ey.
    destruct (bisector x y) as [xo n] eqn:Eb.
    destruct (nleb (plane_dist xo n (c_pt c)) (nlit 1 10)) eqn:Ep; rewrite tol_eq in Ep.
    { injection E as <-. apply Rleb_true in Ep. split; [|apply kept_refl]. apply Here. right. exists l, k. split; auto.
      right. exists y. rewrite Eb. auto. }
    apply Rleb_false in Ep. destruct (@trim_Ok fuel k xo n i p p' c Ec Ep E) as (K & c' & Ec' & Hc').
    assert (K' : kept_rows nearer p p').
    { eapply kept_weaken; [|exact K]. intros q Hq. exists y. split; [eapply nth_error_In; eauto|].
      apply beyond_bisector. rewrite Eb. exact Hq. }
    split; [|exact K']. intros j d Hj Ej. destruct (Nat.eq_dec j i) as [->|Hne].
    - left. apply deleted_is. congruence.
    - refine (@kept_checked _ i p p' _ K' C j d _ Ej); lia.
  Qed.
  Lemma clip_Ok : forall fuel i p p', checked i p -> clip fuel x pts i p = Ok p' -> checked (length p') p' /\ kept_rows nearer p p'.
  Proof.
    induction fuel as [|fuel IH]; intros i p p' C E; cbn [clip] in E; [discriminate|].
    destruct (Nat.ltb_spec i (length p)) as [Hi|Hi].
    - apply bind_Ok_inv in E. destruct E as (q & Eq & E). destruct (clip_corner_Ok _ C Eq) as (C1 & K1).
      destruct (IH (S i) q p' C1 E) as (C2 & K2). split; auto. eapply kept_trans; eauto.
    - injection E as <-. split; [|apply kept_refl]. intros j c Hj. apply C. lia.
  Qed.
End Clip.

Lemma farthest_ok x (p : list (corner R)) c : In c p -> is_deleted c = false -> cdist (c_pt c) x <= farthest x p.
Proof.
  intros Hc Hd. unfold farthest.
  enough (G : forall q m, m <= fold_left (fun m c => if is_deleted c then m else if nltb m (sq_dist x (c_pt c)) then sq_dist x (c_pt c) else m) q m
    /\ (In c q -> cdist (c_pt c) x * cdist (c_pt c) x <= fold_left (fun m c => if is_deleted c then m else if nltb m (sq_dist x (c_pt c)) then sq_dist x (c_pt c) else m) q m)).
  { destruct (G p n0) as (_ & G2). specialize (G2 Hc). rewrite <- (sqrt_square (cdist (c_pt c) x)) by apply cdist_nonneg.
    cbn [nsqrt RNum]. apply sqrt_le_1_alt. exact G2. }
  induction q as [|a q IH]; intros m; cbn [fold_left]; [split; [lra|intros []]|].
  set (m' := if is_deleted a then m else if nltb m (sq_dist x (c_pt a)) then sq_dist x (c_pt a) else m).
  assert (Hm : m <= m' /\ (is_deleted a = false -> sq_dist x (c_pt a) <= m')).
  { unfold m'. destruct (is_deleted a); [split; [lra|discriminate]|].
    destruct (nltb m (sq_dist x (c_pt a))) eqn:E; [apply Rltb_true in E|apply Rltb_false in E]; split; intros; lra. }
  destruct (IH m') as (I1 & I2). split; [lra|]. intros [->|Hin]; [|auto].
  destruct Hm as (_ & Hm). specialize (Hm Hd). rewrite sq_dist_R, (cdist_sym x) in Hm. lra.
Qed.

(** ** Every corner made by a cut lies on a bisector *)
Section OnPlane.
  Variables (x : list R) (pts : list (list R)).
  Definition on_bisector (c : corner R) : Prop :=
    exists k y, In (Local k) (c_sd c) /\ nth_error pts k = Some y
      /\ Rabs (plane_dist (fst (bisector x y)) (snd (bisector x y)) (c_pt c)) <= 1 / 10 ^ 10
      /\ 0 < cdist x y.
  Definition boxed (c : corner R) : Prop := forall s, In s (c_sd c) -> exists k, s = Box k.
  Definition others (c : corner R) : Prop := forall k, In (Local k) (c_sd c) -> exists y, nth_error pts k = Some y /\ 0 < cdist x y.
  Definition sound (c : corner R) : Prop :=
    length (c_nb c) = 3%nat /\ length (c_sd c) = 3%nat /\ (boxed c \/ on_bisector c) /\ others c.
  Lemma sound_deleted : sound deleted.
  Proof. split; [reflexivity|]. split; [reflexivity|]. split; [left; intros s Hs; cbn in Hs; exists 0%nat; intuition|]. intros k Hk. cbn in Hk. intuition discriminate. Qed.
  Lemma sound_nb c i o : sound c -> sound (set_nb c i o).
  Proof. intros (H1 & H2 & H3). split; [cbn; now rewrite upd_length|]. split; [exact H2|]. exact H3. Qed.
  (** Rows are deleted or keep their point. *)
  Definition rows (p p' : list (corner R)) : Prop :=
    forall i c, nth_error p i = Some c -> exists c', nth_error p' i = Some c' /\ (c = deleted -> c' = deleted) /\ (c' = deleted \/ c_pt c' = c_pt c).
  Lemma rows_refl p : rows p p. Proof. intros i c E. exists c. auto. Qed.
  Lemma rows_trans p q r : rows p q -> rows q r -> rows p r.
  Proof.
    intros H1 H2 i c E. destruct (H1 i c E) as (c' & E' & D1 & D2). destruct (H2 i c' E') as (c'' & E'' & D3 & D4).
    exists c''. split; auto. split; auto. destruct D2 as [D2|D2]; auto. destruct D4 as [D4|D4]; auto. right. congruence.
  Qed.
  Lemma rows_app p q : rows p (p ++ q).
  Proof. intros i c E. exists c. split; auto. rewrite nth_error_app1; auto. apply nth_error_Some. congruence. Qed.
  Lemma rows_set p i c c' p' : nth_error p i = Some c -> set p i c' = Ok p' -> c' = deleted \/ c <> deleted /\ c_pt c' = c_pt c -> rows p p'.
  Proof.
    intros Ec E Ep. apply set_inv in E. destruct E as (Hi & ->).
    intros j d Ej. destruct (Nat.eq_dec j i) as [->|Hij].
    - exists c'. rewrite upd_nth_same by auto. split; auto. assert (d = c) by congruence. subst d. destruct Ep as [->|(E1 & E2)]; [auto|]. split; [contradiction|auto].
    - exists d. rewrite upd_nth_other by auto. auto.
  Qed.
  Lemma Forall_set {A} (P : A -> Prop) l i a l' : Forall P l -> P a -> set l i a = Ok l' -> Forall P l'.
  Proof.
    intros Hl Ha E. apply set_inv in E. destruct E as (Hi & ->). clear Hi. revert i. induction Hl as [|b t Hb Ht IH]; intros [|i]; cbn; auto.
  Qed.
  Lemma plane_affine xo n (a b : list R) l :
    plane_dist xo n (map (fun d => gv a d + l * (gv b d - gv a d))%num (seq 0 3)) = plane_dist xo n a + l * (plane_dist xo n b - plane_dist xo n a).
  Proof. unfold plane_dist. rewrite !range3. cbn [seq map]. rewrite gv_0, gv_1, gv_2. cbn [nadd nsub nmul RNum]. ring. Qed.

  Variables (k : nat) (y : list R).
  Hypothesis Hk : nth_error pts k = Some y.
  Hypothesis Hxy : 0 < cdist x y.
  Let xo := fst (bisector x y).
  Let n := snd (bisector x y).
  Lemma sound_cut c b i ib : sound c -> (i < 3)%nat -> 1 / 10 ^ 10 < plane_dist xo n (c_pt c) -> plane_dist xo n (c_pt b) <= 1 / 10 ^ 10 ->
    sound (cut_corner k (plane_dist xo n (c_pt c)) (plane_dist xo n (c_pt b)) c b i ib).
  Proof.
    intros (L1 & L2 & _ & HO) Hi Hc Hb. split; [cbn [cut_corner c_nb]; rewrite upd_length; reflexivity|]. split; [cbn [cut_corner c_sd]; rewrite upd_length; exact L2|].
    split; [|intros k' Hk'; cbn [cut_corner c_sd] in Hk'; apply In_nth_error in Hk'; destruct Hk' as (p & Ep);
      destruct (Nat.eq_dec p (next3 i)) as [->|Hne];
      [rewrite upd_nth_same in Ep by (apply nth_error_Some_lt in Ep; now rewrite upd_length in Ep); injection Ep as <-; exists y; auto
      |rewrite upd_nth_other in Ep by auto; apply HO; eapply nth_error_In; eauto]].
    right. exists k, y.
    assert (N3 : (next3 i < 3)%nat) by (destruct i as [|[|[|i]]]; cbn; lia).
    split; [cbn [cut_corner c_sd]; apply nth_error_In with (next3 i); apply upd_nth_same; lia|]. split; [exact Hk|]. split; [|exact Hxy].
    unfold cut_corner. cbn [c_pt]. fold xo n. rewrite plane_affine.
    set (xi := plane_dist xo n (c_pt c)) in *. set (xj := plane_dist xo n (c_pt b)) in *. clearbody xi xj.
    pose proof tol_pos as Ht. set (t := 1 / 10 ^ 10) in *. cbn [ndiv nsub nltb RNum]. change (@n0 R _) with 0. change (@n1 R _) with 1.
    destruct (Rltb (xi / (xi - xj)) 0) eqn:E0.
    { exfalso. apply Rltb_true in E0. assert (0 < xi / (xi - xj)) by (apply Rdiv_lt_0_compat; lra). lra. }
    destruct (Rltb 1 (xi / (xi - xj))) eqn:E1; [apply Rltb_true in E1|apply Rltb_false in E1].
    - assert (xi - xj < xi). { apply (Rmult_lt_reg_r (/ (xi - xj))); [apply Rinv_0_lt_compat; lra|]. rewrite Rinv_r by lra. exact E1. }
      replace (xi + 1 * (xj - xi)) with xj by ring. rewrite Rabs_right; lra.
    - replace (xi + xi / (xi - xj) * (xj - xi)) with 0 by (field; lra). rewrite Rabs_R0. lra.
  Qed.
  Lemma trim_rec_sound : forall fuel ci old p p' c,
    nth_error p ci = Some c -> 1 / 10 ^ 10 < plane_dist xo n (c_pt c) -> Forall sound p -> trim_rec fuel k xo n ci old p = Ok p' ->
    Forall sound p' /\ rows p p'.
  Proof.
    induction fuel as [|fuel IH]; intros ci old p p' c Ec HP Hs E; cbn [trim_rec] in E; [discriminate|].
    apply bind_Ok_inv in E. destruct E as (c0 & _ & E). set (io := first_place c0 ci old) in *. clearbody io. clear c0.
    apply bind_Ok_inv in E. destruct E as (st & Es & E).
    assert (K : Forall sound st /\ rows p st).
    { refine (@fold_res_Ok _ _ (fun q => Forall sound q /\ rows p q) _ _ _ _ _ _ Es); [|split; [exact Hs|apply rows_refl]].
      intros ii q q' _ (Sq & Rq) Eq.
      set (i := if (3 <=? io + ii)%nat then (io + ii - 3)%nat else (io + ii)%nat) in *. clearbody i.
      apply bind_Ok_inv in Eq. destruct Eq as (a & Ea & Eq). apply get_Ok in Ea.
      apply bind_Ok_inv in Eq. destruct Eq as ([ib|] & Eo & Eq); [|injection Eq as <-; auto]. apply get_Ok in Eo.
      apply bind_Ok_inv in Eq. destruct Eq as (b & Eb & Eq). apply get_Ok in Eb.
      destruct (existsb is_none (c_nb b)) eqn:En; [injection Eq as <-; auto|].
      assert (Ha : a <> deleted). { intros ->. destruct i as [|[|[|i]]]; cbn in Eo; try discriminate. destruct i; discriminate. }
      assert (Hbd : b <> deleted) by (intros ->; discriminate).
      assert (Sa : sound a) by (rewrite Forall_forall in Sq; apply Sq; eapply nth_error_In; eauto).
      assert (Sb : sound b) by (rewrite Forall_forall in Sq; apply Sq; eapply nth_error_In; eauto).
      assert (Hi : (i < 3)%nat). { destruct Sa as (<- & _). apply nth_error_Some. congruence. }
      assert (Pa : c_pt a = c_pt c). { destruct (Rq ci c Ec) as (a' & Ea' & _ & [D|D]); [congruence|]. congruence. }
      apply bind_Ok_inv in Eq. destruct Eq as (q1 & E1 & Eq).
      assert (S1 : Forall sound q1) by (exact (@Forall_set _ sound _ _ _ _ Sq (@sound_nb a i None Sa) E1)).
      assert (R1 : rows q q1) by (eapply rows_set; [exact Ea|exact E1|right; auto]).
      assert (Hb : exists b1, nth_error q1 ib = Some b1 /\ c_pt b1 = c_pt b).
      { apply set_inv in E1. destruct E1 as (Hl & ->). destruct (Nat.eq_dec ib ci) as [->|Hne].
        - exists (set_nb a i None). rewrite upd_nth_same by auto. split; auto. cbn. congruence.
        - exists b. rewrite upd_nth_other by auto. auto. }
      destruct Hb as (b1 & Eb1 & Hb1).
      destruct (nltb (nlit 1 10) (plane_dist xo n (c_pt b))) eqn:Et; rewrite tol_eq in Et.
      - apply Rltb_true in Et. destruct (IH ib ci q1 q' b1 Eb1 ltac:(rewrite Hb1; exact Et) S1 Eq) as (S2 & R2).
        split; auto. eapply rows_trans; [exact Rq|]. eapply rows_trans; eauto.
      - apply Rltb_false in Et. apply bind_Ok_inv in Eq. destruct Eq as (q2 & E2 & Eq). injection Eq as <-.
        assert (Sr : sound (redirect b ci (length q1))) by (unfold redirect; destruct (position _ _); [apply sound_nb|]; auto).
        assert (Pr : c_pt (redirect b ci (length q1)) = c_pt b) by (unfold redirect; destruct (position _ _); reflexivity).
        split.
        + apply Forall_app. split; [exact (@Forall_set _ sound _ _ _ _ S1 Sr E2)|]. constructor; [|constructor].
          apply sound_cut; auto. rewrite Pa. exact HP.
        + eapply rows_trans; [exact Rq|]. eapply rows_trans; [|apply rows_app].
          destruct (Nat.eq_dec ib ci) as [->|Hne].
          * assert (a = b) by congruence. subst b. apply set_inv in E1. destruct E1 as (Hl & ->). apply set_inv in E2. destruct E2 as (_ & ->).
            intros j d Ej. destruct (Nat.eq_dec j ci) as [->|Hj].
            { eexists. rewrite upd_nth_same by (rewrite upd_length; auto). split; [reflexivity|]. assert (d = a) by congruence. subst d. split; [contradiction|auto]. }
            { exists d. rewrite !upd_nth_other by auto. auto. }
          * eapply rows_trans; [exact R1|]. assert (nth_error q1 ib = Some b) by (apply set_inv in E1; destruct E1 as (_ & ->); rewrite upd_nth_other; auto).
            eapply rows_set; [exact H|exact E2|right; auto]. }
    destruct K as (S1 & R1). destruct (R1 ci c Ec) as (c' & Ec' & _). split.
    - exact (@Forall_set _ sound _ _ _ _ S1 sound_deleted E).
    - eapply rows_trans; [exact R1|]. eapply rows_set; [exact Ec'|exact E|auto].
  Qed.
  Lemma trim_sound fuel ci p p' c :
    nth_error p ci = Some c -> 1 / 10 ^ 10 < plane_dist xo n (c_pt c) -> Forall sound p -> trim fuel k xo n ci p = Ok p' -> Forall sound p'.
  Proof.
    intros Ec HP Hs E. unfold trim in E. apply bind_Ok_inv in E. destruct E as (q & Eq & E).
    destruct (@trim_rec_sound fuel ci ci p q c Ec HP Hs Eq) as (Sq & _).
    refine (@fold_res_Ok _ _ (Forall sound) _ _ _ _ _ _ E); [|exact Sq].
    intros i s s' _ Ss Es. unfold close_one in Es. apply bind_Ok_inv in Es. destruct Es as (a & Ea & Es). apply get_Ok in Ea.
    destruct (position _ _); [|congruence]. eapply (@Forall_set _ sound); [exact Ss| |exact Es].
    apply sound_nb, sound_nb. rewrite Forall_forall in Ss. apply Ss. eapply nth_error_In; eauto.
  Qed.
End OnPlane.

Lemma clip_sound x pts : forall fuel i p p', Forall (sound x pts) p -> clip fuel x pts i p = Ok p' -> Forall (sound x pts) p'.
Proof.
  induction fuel as [|fuel IH]; intros i p p' Hs E; cbn [clip] in E; [discriminate|].
  destruct (Nat.ltb_spec i (length p)) as [Hi|Hi]; [|congruence].
  apply bind_Ok_inv in E. destruct E as (q & Eq & E). refine (IH (S i) q p' _ E). clear E IH p'.
  unfold clip_corner in Eq. apply bind_Ok_inv in Eq. destruct Eq as (c & Ec & Eq). apply get_Ok in Ec.
  destruct (is_deleted c); [congruence|]. destruct (first_cut x (c_pt c) pts) as [l k].
  destruct (nltb n2 l); [congruence|]. apply bind_Ok_inv in Eq. destruct Eq as (y & Ey & Eq). apply get_Ok in Ey.
  destruct (bisector x y) as [xo n] eqn:Eb.
  destruct (nleb (plane_dist xo n (c_pt c)) (nlit 1 10)) eqn:Ep; rewrite tol_eq in Ep; [congruence|]. apply Rleb_false in Ep.
  assert (Exo : xo = fst (bisector x y)) by now rewrite Eb. assert (En : n = snd (bisector x y)) by now rewrite Eb. subst xo n.
  assert (Hxy : 0 < cdist x y).
  { destruct (Req_dec (cdist x y) 0) as [E|E]; [rewrite bisector_same in Ep by auto; pose proof tol_pos; lra|]. pose proof (cdist_nonneg x y). lra. }
  eapply (@trim_sound x pts k y Ey Hxy fuel i p q c); eauto.
Qed.
Lemma initial_sound x pts r : Forall (sound x pts) (initial_polytope x r).
Proof.
  assert (B : forall s nb sd, sound x pts (box_corner x r s nb sd)).
  { intros s [[? ?] ?] [[? ?] ?]. split; [reflexivity|]. split; [reflexivity|]. split.
    - left. intros k Hk. cbn in Hk. repeat (destruct Hk as [<-|Hk]; [eexists; reflexivity|]). contradiction.
    - intros k Hk. cbn in Hk. intuition discriminate. }
  repeat (constructor; [apply B|]). constructor.
Qed.
(** A point on a bisector is as far from the two seeds. *)
Lemma on_bisector_dist x y v : 0 < cdist x y -> Rabs (plane_dist (fst (bisector x y)) (snd (bisector x y)) v) <= 1 / 10 ^ 10 ->
  Rabs (cdist v x - cdist v y) <= 2 / 10 ^ 10.
Proof.
  intros Hd H. pose proof (@bisector_R x y v Hd) as B. set (t := plane_dist _ _ _) in *. clearbody t.
  pose proof (cdist_triangle x v y) as T. rewrite (cdist_sym x v) in T.
  set (D := cdist v x) in *. set (e := cdist x y) in *. set (dd := cdist v y) in *.
  assert (Hp : 0 < D + dd) by lra. replace (D * D - dd * dd) with ((D - dd) * (D + dd)) in B by ring.
  assert (Ha : Rabs (D - dd) * (D + dd) = Rabs t * (2 * e)).
  { rewrite <- (Rabs_right (D + dd)) at 1 by lra. rewrite <- (Rabs_right (2 * e)) by lra. rewrite <- !Rabs_mult. now rewrite B. }
  apply (Rmult_le_reg_r (D + dd)); auto. rewrite Ha. pose proof (Rabs_pos t).
  assert (Rabs t * (2 * e) <= 1 / 10 ^ 10 * (2 * e)) by (apply Rmult_le_compat_r; lra).
  assert (2 / 10 ^ 10 * e <= 2 / 10 ^ 10 * (D + dd)) by (apply Rmult_le_compat_l; lra). lra.
Qed.

(** ** The finished cell *)
Lemma new_numbers_ok (p : list (corner R)) i k : nth_error (new_numbers p) i = Some (Some k) ->
  (k < length (filter (fun c => negb (is_deleted c)) p))%nat.
Proof.
  unfold new_numbers.
  enough (G : forall (p : list (corner R)) k0 l0, (forall o, In (Some o) l0 -> (o < k0)%nat) ->
    let st := fold_left (fun '(k, l) c => if is_deleted c then (k, None :: l) else (S k, Some k :: l)) p (k0, l0) in
    fst st = (k0 + length (filter (fun c => negb (is_deleted c)) p))%nat /\ forall o, In (Some o) (snd st) -> (o < fst st)%nat).
  { intros E. destruct (G p 0%nat []) as (G1 & G2); [intros o []|]. cbn zeta in *. cbn [Nat.add] in G1. rewrite <- G1. apply G2.
    apply nth_error_In in E. apply in_rev. exact E. }
  clear p i k. induction p as [|c p IH]; intros k0 l0 H; cbn [fold_left filter].
  { cbn. split; [lia|auto]. }
  destruct (is_deleted c); cbn [negb].
  - apply IH. intros o [E|Hin]; [discriminate|auto].
  - destruct (IH (S k0) (Some k0 :: l0)) as (I1 & I2).
    { intros o [E|Hin]; [injection E as <-; lia|]. specialize (H o Hin). lia. }
    split; [|exact I2]. rewrite I1. cbn [length]. lia.
Qed.

Definition close_seed (x v y : list R) : Prop := Rabs (cdist v x - cdist v y) < 1 / 10 ^ 10.
Lemma owner_ok x v ghost local o : owner x v ghost local = Ok o ->
  match o with
  | Some k => (exists y, In (k, y) local /\ close_seed x v y) /\ nth_error ghost k = Some false
              /\ forall j y, In (j, y) local -> nth_error ghost j = Some false -> close_seed x v y -> (k <= j)%nat
  | None => forall j y, In (j, y) local -> nth_error ghost j = Some false -> ~ close_seed x v y
  end.
Proof.
  unfold owner.
  match goal with |- fold_res ?g _ _ = _ -> _ => set (f := g) end.
  set (Q := fun (done : list (nat * list R)) (o : option nat) => match o with
  | Some k => (exists y, In (k, y) local /\ close_seed x v y) /\ nth_error ghost k = Some false
              /\ forall j y, In (j, y) done -> nth_error ghost j = Some false -> close_seed x v y -> (k <= j)%nat
  | None => forall j y, In (j, y) done -> nth_error ghost j = Some false -> ~ close_seed x v y
  end).
  enough (G : forall l done o0, incl l local -> Q done o0 -> fold_res f l o0 = Ok o -> Q (done ++ l) o).
  { intros E. exact (G local [] None (incl_refl _) (fun j y (H : In (j, y) []) => match H with end) E). }
  induction l as [|[j y] l IH]; intros done o0 Hin HQ E; cbn [fold_res] in E.
  { injection E as <-. rewrite app_nil_r. auto. }
  apply bind_Ok_inv in E. destruct E as (o1 & E1 & E).
  replace (done ++ (j, y) :: l) with ((done ++ [(j, y)]) ++ l) by (rewrite <- app_assoc; reflexivity).
  apply (IH _ o1); [intros a Ha; apply Hin; now right| |exact E]. clear IH E.
  unfold f in E1. apply bind_Ok_inv in E1. destruct E1 as (g & Eg & E1). apply get_Ok in Eg.
  assert (Hc : nltb (nabs (nsqrt (sq_dist x v) - nsqrt (sq_dist y v))%num) (nlit 1 10) = true <-> close_seed x v y).
  { rewrite tol_eq, !sq_dist_R. cbn [nsqrt nabs nsub nltb RNum]. rewrite !sqrt_square by apply cdist_nonneg.
    unfold close_seed. rewrite (cdist_sym x v), (cdist_sym y v). split; intros H; [now apply Rltb_true|].
    destruct (Rltb _ _) eqn:E; auto. apply Rltb_false in E. lra. }
  assert (Done : forall j' y', In (j', y') (done ++ [(j, y)]) -> In (j', y') done \/ j' = j /\ y' = y).
  { intros j' y' H. apply in_app_or in H. destruct H as [H|[H|[]]]; auto. injection H as <- <-. auto. }
  destruct g.
  { injection E1 as <-. destruct o0 as [k|]; cbn [Q] in *.
    - destruct HQ as (H1 & H2 & H3). split; auto. split; auto. intros j' y' H G0 C0. apply Done in H. destruct H as [H|(-> & ->)]; [eauto|congruence].
    - intros j' y' H G0. apply Done in H. destruct H as [H|(-> & ->)]; [eauto|congruence]. }
  destruct (nltb _ _) eqn:Ec.
  - assert (C1 : close_seed x v y) by (apply Hc; reflexivity).
    destruct o0 as [k|]; cbn [andb] in E1.
    + destruct (Nat.ltb_spec j k) as [Hjk|Hjk]; injection E1 as <-; cbn [Q] in *; destruct HQ as (H1 & H2 & H3).
      * split; [exists y; split; auto; apply Hin; now left|]. split; auto.
        intros j' y' H G0 C0. apply Done in H. destruct H as [H|(-> & ->)]; [|lia]. specialize (H3 j' y' H G0 C0). lia.
      * split; auto. split; auto. intros j' y' H G0 C0. apply Done in H. destruct H as [H|(-> & ->)]; [eauto|lia].
    + injection E1 as <-. cbn [Q] in *. split; [exists y; split; auto; apply Hin; now left|]. split; auto.
      intros j' y' H G0 C0. apply Done in H. destruct H as [H|(-> & ->)]; [|lia]. exfalso. eapply HQ; eauto.
  - cbn [andb] in E1. injection E1 as <-.
    assert (C1 : ~ close_seed x v y) by (intros C; apply Hc in C; congruence).
    destruct o0 as [k|]; cbn [Q] in *.
    + destruct HQ as (H1 & H2 & H3). split; auto. split; auto. intros j' y' H G0 C0. apply Done in H. destruct H as [H|(-> & ->)]; [eauto|contradiction].
    + intros j' y' H G0. apply Done in H. destruct H as [H|(-> & ->)]; [eauto|auto].
Qed.

Lemma finish_Ok (x : list R) ghost local pts (p : list (corner R)) vs : finish x ghost local pts p = Ok vs ->
  forall v, In v vs ->
    (exists c, In c p /\ is_deleted c = false /\ v_pt v = c_pt c
       /\ (forall s, In s (c_sd c) -> exists i j, s = Local i /\ nth_error local i = Some j /\ In j (v_sd v))
       /\ length (v_nb v) = length (c_nb c) /\ length (v_sd v) = length (c_sd c)
       /\ forall j, In j (v_sd v) -> exists i, In (Local i) (c_sd c) /\ nth_error local i = Some j)
    /\ (forall k, In k (v_nb v) -> (k < length vs)%nat)
    /\ (forall k, In k (v_sd v) -> In k local)
    /\ owner x (v_pt v) ghost (combine local pts) = Ok (v_own v).
Proof.
  intros E v Hv. unfold finish in E. apply mapr_Ok in E.
  assert (Hlen : length vs = length (filter (fun c => negb (is_deleted c)) p)).
  { clear - E. induction E; cbn; auto. }
  destruct (@Forall2_In_r _ _ _ _ _ _ E Hv) as (c & Hc & Ec).
  apply filter_In in Hc. destruct Hc as (Hc & Hd). apply negb_true_iff in Hd.
  apply bind_Ok_inv in Ec. destruct Ec as (nb & Enb & Ec). apply bind_Ok_inv in Ec. destruct Ec as (sd & Esd & Ec).
  apply bind_Ok_inv in Ec. destruct Ec as (ow & Eow & Ec). injection Ec as <-. cbn [v_pt v_nb v_sd v_own].
  split; [|split; [|split]].
  - exists c. split; [exact Hc|]. split; [exact Hd|]. split; [reflexivity|]. apply mapr_Ok in Esd. split; [|split; [|split]].
    2:{ apply mapr_Ok in Enb. symmetry. eapply Forall2_len; eauto. }
    2:{ symmetry. eapply Forall2_len; eauto. }
    2:{ intros j Hj. destruct (@Forall2_In_r _ _ _ _ _ _ Esd Hj) as ([i|i] & Hi & Ei); [|discriminate]. apply get_Ok in Ei. eauto. }
    intros s Hs.
    destruct (@Forall2_In_l _ _ _ _ _ _ Esd Hs) as (j & Hj & Ej). destruct s as [i|i]; [|discriminate]. apply get_Ok in Ej. exists i, j. auto.
  - intros k Hk. apply mapr_Ok in Enb. destruct (@Forall2_In_r _ _ _ _ _ _ Enb Hk) as (o & _ & Eo).
    apply bind_Ok_inv in Eo. destruct Eo as (j & _ & Eo). apply bind_Ok_inv in Eo. destruct Eo as (o' & Ej & Eo). apply get_Ok in Ej.
    destruct o' as [k'|]; [|discriminate]. injection Eo as ->. rewrite Hlen. eapply new_numbers_ok; eauto.
  - intros k Hk. apply mapr_Ok in Esd. destruct (@Forall2_In_r _ _ _ _ _ _ Esd Hk) as ([i|i] & _ & Ei); [|discriminate].
    apply get_Ok in Ei. eapply nth_error_In; eauto.
  - exact Eow.
Qed.

Section Cell.
  Variables (l : list (list R)) (lf rt : list nat) (root : nat) (old : list nat) (sorted : list R).
  Hypothesis HI : indexes l ((lf, rt), root, old, sorted).
  Let o i := nth i old 0%nat.
  Lemma row_dist i q : (i < length l)%nat -> cdist q (sorted_row sorted i) = cdist q (nth (o i) l []).
  Proof.
    intros Hi. destruct HI as (lf' & rt' & tr & _ & _ & _ & C & _). apply cdist_ext; auto. apply sorted_row_ext. intros; apply C; auto.
  Qed.
  Variable d : R.
  Hypothesis Hd : 0 < d.
  Hypothesis Hsep : separated d l.

  Lemma old_inj i j : (i < length l)%nat -> (j < length l)%nat -> o i = o j -> i = j.
  Proof.
    intros Hi Hj E. destruct HI as (lf' & rt' & tr & _ & P & _). 
    assert (Hl : length old = length l) by (rewrite (Permutation_length P), seq_length; auto).
    assert (ND : NoDup old) by (eapply Permutation_NoDup; [apply Permutation_sym; exact P|apply seq_NoDup]).
    rewrite NoDup_nth in ND. apply ND; try lia. exact E.
  Qed.
  Lemma old_lt i : (i < length l)%nat -> (o i < length l)%nat.
  Proof. intros Hi. pose proof (@indexes_old l _ i HI Hi) as G. cbn beta iota in G. destruct G as (k & _ & Hk & ->). auto. Qed.

  Definition good_vertex (ghost : list bool) (i n : nat) (v : vertex R) : Prop :=
    voronoi_vertex d (nth (o i) l []) l (v_pt v)
    /\ (forall k, In k (v_nb v) -> (k < n)%nat)
    /\ (forall k, In k (v_sd v) -> (k < length l)%nat)
    /\ (exists k, In k (v_sd v) /\ 0 < cdist (nth (o i) l []) (nth (o k) l [])
         /\ Rabs (cdist (v_pt v) (nth (o i) l []) - cdist (v_pt v) (nth (o k) l [])) <= 2 / 10 ^ 10)
    /\ match v_own v with
       | Some k => (k < length l)%nat /\ nth_error ghost k = Some false /\ close_seed (nth (o i) l []) (v_pt v) (nth (o k) l [])
                   /\ (nth_error ghost i = Some false -> (k <= i)%nat)
       | None => nth_error ghost i <> Some false
       end
    /\ length (v_nb v) = 3%nat /\ length (v_sd v) = 3%nat
    /\ (forall k, In k (v_sd v) -> 0 < cdist (nth (o i) l []) (nth (o k) l [])).
  Definition same_owner (vs : list (vertex R)) : Prop :=
    forall v v', In v vs -> In v' vs -> (forall d, (d < 3)%nat -> gv (v_pt v) d = gv (v_pt v') d) -> v_own v = v_own v'.
  Lemma owner_ext (x v v' : list R) ghost local : (forall d, (d < 3)%nat -> gv v d = gv v' d) -> owner x v ghost local = owner x v' ghost local.
  Proof.
    intros E. unfold owner. assert (G : forall y, sq_dist y v = sq_dist y v').
    { intros y. unfold sq_dist. rewrite !range3. rewrite !E by lia. reflexivity. }
    rewrite (G x). generalize (@None nat). induction local as [|[j y] t IH]; intros a; cbn [fold_res]; auto.
    rewrite (G y). destruct (get ghost j) as [g| |]; cbn [bind]; auto. destruct g; cbn [bind]; auto.
    match goal with |- context [if ?b then Ok (Some j) else _] => destruct b end; cbn [bind]; auto.
  Qed.

  Lemma voronoi_cell_Ok cfuel ghost i : (i < length l)%nat -> forall fuel r vs, 0 < r ->
    voronoi_cell fuel cfuel (length l) sorted (lf, rt) root ghost i r = Ok vs ->
    Forall (good_vertex ghost i (length vs)) vs /\ same_owner vs.
  Proof.
    intros Hi. induction fuel as [|fuel IH]; intros r vs Hr E; cbn [voronoi_cell] in E; [discriminate|].
    set (x := sorted_row sorted i) in *. set (r2 := (r * n2)%num) in *.
    assert (Hr2 : 0 < r2) by (unfold r2; cbn; lra).
    apply bind_Ok_inv in E. destruct E as (local & El & E).
    destruct HI as (lf' & rt' & tr & Elk & P & Ls & C & K). injection Elk as <- <-.
    destruct (@flat_in_sphere_ok 3 (length l) sorted ltac:(lia) ltac:(lia) lf rt root tr K x r2 ltac:(cbn; lia)) as (out & Eo & S0).
    assert (out = local) by congruence. subst out. destruct S0 as (q & Eq & _ & Hin & _ & Hmust). cbn [app] in Eq. subst q.
    assert (Hlt : forall j, In j local -> (j < length l)%nat) by (intros j Hj; apply Hin, in_seq in Hj; lia).
    assert (Hall : forall j, (j < length l)%nat -> cdist x (sorted_row sorted j) < r2 -> In j local).
    { intros j Hj Hc. apply Hmust; [apply in_seq; lia|exact I|]. erewrite edist_cdist; [exact Hc|].
      intros dd Hdd. unfold sorted_row, flat_coord. destruct dd as [|[|[|dd]]]; [reflexivity..|lia]. }
    destruct (length local =? 0)%nat; [eapply IH; eauto|].
    apply bind_Ok_inv in E. destruct E as (p & Ep & E).
    match type of E with (if ?b then _ else _) = _ => destruct b eqn:Eb end; [|eapply IH; eauto].
    rewrite tol_eq in Eb. apply Rltb_true in Eb. change (n2 * farthest x p)%num with (2 * farthest x p) in Eb.
    cbn [nadd RNum] in Eb.
    set (pts := map (sorted_row sorted) local) in *.
    destruct (@clip_Ok x pts cfuel 0 _ p ltac:(intros j c Hj; lia) Ep) as (Ck & _).
    split.
    2:{ intros v v' Hv Hv' Ept. destruct (@finish_Ok _ _ _ _ _ _ E v Hv) as (_ & _ & _ & O1).
        destruct (@finish_Ok _ _ _ _ _ _ E v' Hv') as (_ & _ & _ & O2). rewrite (@owner_ext x _ _ ghost (combine local pts) Ept) in O1. congruence. }
    pose proof (@clip_sound x pts cfuel 0 _ p (initial_sound x pts _) Ep) as Sp. rewrite Forall_forall in Sp.
    apply Forall_forall. intros v Hv. destruct (@finish_Ok _ _ _ _ _ _ E v Hv) as ((c & Hc & Hdel & Ev & Hsds & Lnb & Lsd & Hsdr) & Hnb & Hsd & Hown).
    assert (Hx : forall y, cdist y x = cdist y (nth (o i) l [])) by (intros; apply row_dist; auto).
    destruct (Sp c Hc) as (L2 & L3 & Sb & So).
    split; [|split; [exact Hnb|split; [intros k Hk; apply Hlt, Hsd, Hk|split; [|split; [|split; [|split]]]]]].
    - intros s Hs. apply In_nth with (d := []) in Hs. destruct Hs as (j0 & Hj0 & <-).
      destruct (@indexes_surj l (lf, rt) root old sorted j0 HI Hj0) as (j & Hj & <-).
      change (nth j old 0%nat) with (o j). rewrite <- (Hx (v_pt v)). rewrite <- (@row_dist j (v_pt v) Hj).
      assert (Et : vertex_tol d (nth (o i) l []) (nth (o j) l []) = vertex_tol d x (sorted_row sorted j)).
      { unfold vertex_tol. rewrite (@row_dist j x Hj), (cdist_sym x), Hx, (cdist_sym (nth (o j) l [])). reflexivity. }
      rewrite Et.
      destruct (Rlt_le_dec (cdist x (sorted_row sorted j)) r2) as [Hn|Hn].
      + apply In_nth_error in Hc. destruct Hc as (ic & Eic).
        destruct (Ck ic c ltac:(apply nth_error_Some; congruence) Eic) as [Hdd|Hpass]; [congruence|].
        rewrite Ev. apply (@passes_bound x pts d (c_pt c) Hd); auto.
        * intros y Hy. unfold pts in Hy. apply in_map_iff in Hy. destruct Hy as (m & <- & Hm). apply Hlt in Hm.
          destruct (Nat.eq_dec m i) as [->|Hne]; [left; apply vdist_self|right].
          rewrite (@row_dist m x Hm), (cdist_sym x), Hx. apply Hsep; try apply old_lt; auto. intros Eo'. apply Hne. apply old_inj; auto.
        * apply (in_map (sorted_row sorted)). auto.
      + pose proof (@farthest_ok x p c Hc Hdel) as Hf. rewrite <- Ev in Hf.
        pose proof (cdist_triangle x (v_pt v) (sorted_row sorted j)) as T. rewrite (cdist_sym x (v_pt v)) in T.
        assert (1 / 10 ^ 10 * 1 <= vertex_tol d x (sorted_row sorted j)).
        { unfold vertex_tol. apply Rmult_le_compat_l; [pose proof tol_pos; lra|apply Rmax_l]. }
        lra.
    - destruct Sb as [B|(k & y & Hin' & Ey & Hpl & Hpos)].
      { exfalso. destruct (c_sd c) as [|s0 t0] eqn:Es; [discriminate|]. destruct (Hsds s0 ltac:(now left)) as (i0 & j0 & -> & _).
        destruct (B (Local i0)) as (k0 & B0); [rewrite Es; now left|]. discriminate. }
      destruct (Hsds _ Hin') as (i0 & j0 & E0 & Ej & Hj0). injection E0 as <-. exists j0. split; [exact Hj0|].
      unfold pts in Ey. rewrite nth_error_map, Ej in Ey. injection Ey as <-.
      assert (Hjl : (j0 < length l)%nat) by (apply Hlt; eapply nth_error_In; eauto).
      rewrite <- Hx, <- (@row_dist j0 (v_pt v) Hjl), (cdist_sym (nth (o i) l [])), <- Hx, (cdist_sym _ x), <- (@row_dist j0 x Hjl).
      split; [|rewrite Ev; apply on_bisector_dist; auto]. exact Hpos.
    - apply owner_ok in Hown. destruct (v_own v) as [k|].
      + assert (Hmin : nth_error ghost i = Some false -> (k <= i)%nat).
        { intros Hg. destruct Hown as (_ & _ & Hm). apply (Hm i x); auto.
          - assert (Hii : In i local) by (apply Hall; auto; fold x; replace (cdist x x) with 0 by (symmetry; apply vdist_self); auto).
            unfold pts, x. clear - Hii. induction local as [|a t IHt]; [destruct Hii|]. destruct Hii as [->|Hii]; [now left|right; auto].
          - unfold close_seed. replace (cdist (v_pt v) x - cdist (v_pt v) x) with 0 by ring. rewrite Rabs_R0. apply tol_pos. }
        destruct Hown as ((y & Hy & Hcl) & Hg & _). 
        assert (Hk : In k local /\ y = sorted_row sorted k).
        { unfold pts in Hy. clear - Hy. induction local as [|a t IHt]; [destruct Hy|]. destruct Hy as [Hy|Hy].
          - injection Hy as <- <-. split; [now left|reflexivity].
          - destruct (IHt Hy). split; [now right|auto]. }
        destruct Hk as (Hk & ->). pose proof (Hlt k Hk) as Hkl. split; auto. split; auto.
        unfold close_seed in *. rewrite Hx, (@row_dist k _ Hkl) in Hcl. split; [exact Hcl|exact Hmin].
      + intros Hg. apply (Hown i x); auto.
        * assert (Hii : In i local) by (apply Hall; auto; fold x; replace (cdist x x) with 0 by (symmetry; apply vdist_self); auto).
          unfold pts, x. clear - Hii. induction local as [|a t IHt]; [destruct Hii|]. destruct Hii as [->|Hii]; [now left|right; auto].
        * unfold close_seed. replace (cdist (v_pt v) x - cdist (v_pt v) x) with 0 by ring. rewrite Rabs_R0. apply tol_pos.
    - congruence.
    - congruence.
    - intros j Hj. destruct (Hsdr j Hj) as (i0 & Hi0 & Ej). destruct (So i0 Hi0) as (y & Ey & Hpos).
      unfold pts in Ey. rewrite nth_error_map, Ej in Ey. injection Ey as <-.
      assert (Hjl : (j < length l)%nat) by (apply Hlt; eapply nth_error_In; eauto).
      rewrite (cdist_sym (nth (o i) l [])), <- Hx, (cdist_sym _ x), <- (@row_dist j x Hjl). exact Hpos.
  Qed.
End Cell.

Definition good_cell (d : R) (l : list (list R)) (regs : list nat) (rank : nat -> nat) (k : nat) (vs : list (vertex R)) : Prop :=
  same_owner vs /\ forall v, In v vs ->
    voronoi_vertex d (nth k l []) l (v_pt v)
    /\ (forall j, In j (v_nb v) -> (j < length vs)%nat)
    /\ (forall j, In j (v_sd v) -> (j < length l)%nat)
    /\ (exists j, In j (v_sd v) /\ equidistant (nth k l []) (nth j l []) (v_pt v))
    /\ (exists o, v_own v = Some o /\ owned_by l regs (nth k l []) (v_pt v) o /\ (rank o <= rank k)%nat)
    /\ length (v_nb v) = 3%nat /\ length (v_sd v) = 3%nat
    /\ (forall j, In j (v_sd v) -> 0 < cdist (nth k l []) (nth j l [])).

Theorem voronoi_cells_Ok d fuel cfuel l regs sizing cells : 0 < d -> separated d l -> l <> [] ->
  length regs = length l -> length sizing = length l -> Forall (fun r => 0 < r) sizing ->
  voronoi_cells fuel cfuel l regs sizing = Ok cells ->
  length cells = length l
  /\ exists rank : nat -> nat, (forall k, (k < length l)%nat -> (rank k < length l)%nat)
  /\ (forall k k', (k < length l)%nat -> (k' < length l)%nat -> rank k = rank k' -> k = k')
  /\ forall k, (k < length l)%nat ->
       (nth k regs 0%nat = 0%nat -> nth k cells None = None)
       /\ (nth k regs 0%nat <> 0%nat -> exists vs, nth k cells None = Some vs /\ good_cell d l regs rank k vs).
Proof.
  intros Hd Hsep Hne Hr Hsz Hpos E. unfold voronoi_cells in E.
  destruct (index_tree_ok Hne) as (t & Et & HI). rewrite Et in E. cbn [bind] in E.
  destruct t as [[[[lf rt] root] old] sorted].
  apply bind_Ok_inv in E. destruct E as (ghost & Eg & E). apply mapr_Ok in Eg.
  set (n := length l) in *. set (o := fun i => nth i old 0%nat).
  assert (Hol : length old = n). { destruct HI as (? & ? & ? & _ & P & _). rewrite (Permutation_length P), seq_length. auto. }
  assert (Hgh : forall i, (i < n)%nat -> nth_error ghost i = Some (nth (o i) regs 0%nat =? 0)%nat).
  { intros i Hi. assert (Hoi : nth_error old i = Some (o i)) by (apply nth_error_nth'; lia).
    revert Hoi. generalize (o i) as a. clear - Eg. revert i. induction Eg as [|a b la lb Hab Eg IHg]; intros i k Hi; [destruct i; discriminate|].
    destruct i as [|i]; cbn in *; [|now apply IHg]. injection Hi as ->. apply bind_Ok_inv in Hab. destruct Hab as (r & Er & Hab). injection Hab as <-.
    apply get_Ok in Er. rewrite (nth_error_nth _ _ _ Er). reflexivity. }
  assert (Hlt : forall i, (i < n)%nat -> (o i < n)%nat) by (intros i Hi; exact (@old_lt l lf rt root old sorted HI i Hi)).
  assert (Hinj : forall i j, (i < n)%nat -> (j < n)%nat -> o i = o j -> i = j) by (intros i j; exact (@old_inj l lf rt root old sorted HI i j)).
  assert (Hgo : forall i, (i < n)%nat -> get old i = Ok (o i)) by (intros i Hi; apply get_nth; lia).
  clear Eg.
  set (rank := fun k => match position (Nat.eqb k) old with Some i => i | None => 0%nat end).
  assert (Hrank : forall i, (i < n)%nat -> rank (o i) = i).
  { intros i Hi. unfold rank. destruct (position (Nat.eqb (o i)) old) as [j|] eqn:Ej.
    - apply position_Some in Ej. destruct Ej as (a & Ea & Eq & _). apply Nat.eqb_eq in Eq. subst a.
      assert (Hj : (j < n)%nat) by (rewrite <- Hol; apply nth_error_Some; congruence).
      apply Hinj; auto. unfold o at 1. now rewrite (nth_error_nth _ _ _ Ea).
    - exfalso. refine (@position_None _ _ _ Ej (o i) _ _); [apply nth_In; lia|apply Nat.eqb_refl]. }
  set (Q := fun (done : list nat) (cells : list (option (list (vertex R)))) =>
    length cells = n /\ forall i, (i < n)%nat ->
      (In i done -> nth (o i) regs 0%nat <> 0%nat -> exists vs, nth (o i) cells None = Some vs /\ good_cell d l regs rank (o i) vs)
      /\ ((nth (o i) regs 0%nat = 0%nat \/ ~ In i done) -> nth (o i) cells None = None)).
  enough (G : Q (seq 0 n) cells).
  { destruct G as (G1 & G2). split; auto. exists rank. split; [|split].
    { intros k Hk. destruct (@indexes_surj l (lf, rt) root old sorted k HI Hk) as (i & Hi & <-). change (rank (o i) < n)%nat. rewrite Hrank; auto. }
    { intros k k' Hk Hk' Er. destruct (@indexes_surj l (lf, rt) root old sorted k HI Hk) as (i & Hi & <-).
      destruct (@indexes_surj l (lf, rt) root old sorted k' HI Hk') as (i' & Hi' & <-).
      change (rank (o i) = rank (o i')) in Er. change (o i = o i'). rewrite !Hrank in Er by auto. now subst. }
    intros k Hk. destruct (@indexes_surj l (lf, rt) root old sorted k HI Hk) as (i & Hi & <-).
    destruct (G2 i Hi) as (G3 & G4). split; [intros H; apply G4; auto|]. intros H. apply G3; auto. apply in_seq. lia. }
  assert (G : forall todo done c0, (forall i, In i todo -> (i < n)%nat) -> NoDup (done ++ todo) -> Q done c0 ->
    fold_res (fun i cells =>
      k <- get old i ;; g <- get ghost i ;;
      if (g : bool) then Ok cells
      else
        s <- get sizing k ;;
        vs <- voronoi_cell fuel cfuel (length l) sorted (lf, rt) root ghost i (n2 * s)%num ;;
        vs <- mapr (fun v => sd <- mapr (get old) (v_sd v) ;; o <- known (v_own v) ;; o' <- get old o ;;
                             Ok (Vx (v_pt v) (v_nb v) sd (Some o'))) vs ;;
        set cells k (Some vs)) todo c0 = Ok cells -> Q (done ++ todo) cells).
  2:{ apply (G (seq 0 n) [] (repeat None n)); auto.
      - intros i Hi. apply in_seq in Hi. lia.
      - apply seq_NoDup.
      - split; [apply repeat_length|]. intros i Hi. split; [intros []|]. intros _. apply nth_repeat. }
  clear E. induction todo as [|i todo IH]; intros done c0 Ht ND HQ E; cbn [fold_res] in E.
  { injection E as <-. rewrite app_nil_r. auto. }
  apply bind_Ok_inv in E. destruct E as (c1 & E1 & E).
  assert (Hi : (i < n)%nat) by (apply Ht; now left).
  replace (done ++ i :: todo) with ((done ++ [i]) ++ todo) in * by (rewrite <- app_assoc; reflexivity).
  assert (Hnd : ~ In i done).
  { intros H. rewrite <- app_assoc in ND. cbn [app] in ND. apply NoDup_remove_2 in ND. apply ND, in_or_app. auto. }
  apply (IH _ c1); [intros; apply Ht; now right|exact ND| |exact E]. clear IH E.
  rewrite (Hgo i Hi) in E1. cbn [bind] in E1. rewrite (get_some (Hgh i Hi)) in E1. cbn [bind] in E1.
  destruct HQ as (Q1 & Q2).
  destruct (Nat.eqb_spec (nth (o i) regs 0%nat) 0) as [Hz|Hz].
  { injection E1 as <-. split; auto. intros j Hj. destruct (Q2 j Hj) as (Q3 & Q4). split.
    - intros Hin Hn. apply in_app_or in Hin. destruct Hin as [Hin|[->|[]]]; [auto|contradiction].
    - intros [H|H]; [auto|]. apply Q4. right. intros H'. apply H, in_or_app. auto. }
  apply bind_Ok_inv in E1. destruct E1 as (s & Es & E1). apply get_Ok in Es.
  assert (Hs : 0 < s) by (rewrite Forall_forall in Hpos; apply Hpos; eapply nth_error_In; eauto).
  apply bind_Ok_inv in E1. destruct E1 as (vs0 & Ev & E1). apply bind_Ok_inv in E1. destruct E1 as (vs & Em & E1).
  apply set_inv in E1. destruct E1 as (Hc & ->).
  assert (Hr2 : 0 < (n2 * s)%num) by (cbn; lra).
  pose proof (@voronoi_cell_Ok l lf rt root old sorted HI d Hd Hsep cfuel ghost i Hi fuel _ vs0 Hr2 Ev) as (GV & GO).
  apply mapr_Ok in Em.
  assert (Lvs : length vs = length vs0) by (clear - Em; induction Em; cbn; auto).
  assert (GC : good_cell d l regs rank (o i) vs).
  { split.
    { intros v v' Hv Hv' Ept. destruct (@Forall2_In_r _ _ _ _ _ _ Em Hv) as (v0 & Hv0 & E0). destruct (@Forall2_In_r _ _ _ _ _ _ Em Hv') as (v1 & Hv1 & E1).
      apply bind_Ok_inv in E0. destruct E0 as (sd & _ & E0). apply bind_Ok_inv in E0. destruct E0 as (ow & Eow & E0).
      apply bind_Ok_inv in E0. destruct E0 as (ow' & Eow' & E0). injection E0 as <-.
      apply bind_Ok_inv in E1. destruct E1 as (sd1 & _ & E1). apply bind_Ok_inv in E1. destruct E1 as (ow1 & Eow1 & E1).
      apply bind_Ok_inv in E1. destruct E1 as (ow1' & Eow1' & E1). injection E1 as <-. cbn [v_pt v_own] in *.
      rewrite (GO v0 v1 Hv0 Hv1 Ept) in Eow. congruence. }
    intros v Hv. destruct (@Forall2_In_r _ _ _ _ _ _ Em Hv) as (v0 & Hv0 & E0).
    rewrite Forall_forall in GV. destruct (GV v0 Hv0) as (V1 & V2 & V3 & V5 & V4 & V8 & V9 & V10).
    apply bind_Ok_inv in E0. destruct E0 as (sd & Esd & E0). apply bind_Ok_inv in E0. destruct E0 as (ow & Eow & E0).
    apply bind_Ok_inv in E0. destruct E0 as (ow' & Eow' & E0). injection E0 as <-. cbn [v_pt v_nb v_sd v_own].
    destruct (v_own v0) as [k|]; [|discriminate]. injection Eow as ->. destruct V4 as (W1 & W2 & W3 & W4).
    rewrite (Hgo ow W1) in Eow'. injection Eow' as <-.
    split; [exact V1|]. split; [intros j Hj; rewrite Lvs; auto|]. split; [|split; [|split; [|split; [|split]]]].
    - intros j Hj. apply mapr_Ok in Esd. destruct (@Forall2_In_r _ _ _ _ _ _ Esd Hj) as (j0 & Hj0 & Ej).
      specialize (V3 j0 Hj0). rewrite (Hgo j0 V3) in Ej. injection Ej as <-. auto.
    - destruct V5 as (j0 & Hj0 & V6 & V7). apply mapr_Ok in Esd. destruct (@Forall2_In_l _ _ _ _ _ _ Esd Hj0) as (j & Hj & Ej).
      rewrite (Hgo j0 (V3 j0 Hj0)) in Ej. injection Ej as <-. exists (o j0). split; [exact Hj|]. split; [exact V6|exact V7].
    - exists (o ow). split; auto. split; [|rewrite !Hrank by auto; apply W4; rewrite (Hgh i Hi); f_equal; apply Nat.eqb_neq; exact Hz].
      split; [apply Hlt; auto|]. split; [|exact W3].
      rewrite (Hgh ow W1) in W2. injection W2 as W2. apply Nat.eqb_neq. exact W2.
    - exact V8.
    - apply mapr_Ok in Esd. rewrite <- (@Forall2_len _ _ _ _ _ Esd). exact V9.
    - intros j Hj. apply mapr_Ok in Esd. destruct (@Forall2_In_r _ _ _ _ _ _ Esd Hj) as (j0 & Hj0 & Ej).
      rewrite (Hgo j0 (V3 j0 Hj0)) in Ej. injection Ej as <-. apply (V10 j0 Hj0). }
  split; [rewrite upd_length; auto|]. intros j Hj. destruct (Q2 j Hj) as (Q3 & Q4).
  rewrite (@nth_upd _ c0 (o i) (Some vs) (o j) None Hc).
  destruct (Nat.eqb_spec (o j) (o i)) as [Eo|Eo].
  - apply Hinj in Eo; auto. subst j. split; [exists vs; auto|]. intros [H|H]; [contradiction|]. exfalso. apply H, in_or_app. right. now left.
  - split.
    + intros Hin Hn. apply in_app_or in Hin. destruct Hin as [Hin|[->|[]]]; [auto|congruence].
    + intros [H|H]; [auto|]. apply Q4. right. intros H'. apply H, in_or_app. auto.
Qed.
