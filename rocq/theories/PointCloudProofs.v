(** Proofs about the surface point clouds. *)
From Coq Require Import Reals Lra.
From Verif Require Import Base Num Vec MemoryHandler Sampling SamplingSpec SamplingProofs Geometry GeometrySpec GeometryProofs
  Spheres PolyMesh PolyMeshProofs Regions InteriorProofs SurfaceShrinkProofs PointCloud PointCloudSpec PropsGeometry.
Local Open Scope R_scope.

Section Cloud.
  Variable points : list (list R).
  Variable recs : list (list nat).
  Variable u : nat -> R.
  Hypothesis rows : Forall (fun p => length p = 3%nat) points.
  Hypothesis valid : Forall (valid_face points) recs.
  Hypothesis draws : forall k, 0 <= u k < 1.
  Notation n := (length recs).
  Notation rec p := (nth p recs []).

  Definition rows_of (f : list nat) : list (list R) :=
    [nth (nth 1 f 0%nat) points []; nth (nth 2 f 0%nat) points []; nth (nth 3 f 0%nat) points []].

  Lemma get_in {A} (l : list A) i d : (i < length l)%nat -> get l i = Ok (nth i l d).
  Proof. intros L. unfold get. now rewrite (nth_error_nth' l d L). Qed.

  Lemma corners_of_ok f : valid_face points f -> corners_of points f = Ok (rows_of f).
  Proof.
    intros (L & V). unfold corners_of, rows_of. cbn [mapr].
    rewrite (@get_in _ f 1 0%nat), (@get_in _ f 2 0%nat), (@get_in _ f 3 0%nat) by lia. cbn [bind].
    rewrite (@get_in _ points _ []) by (apply V; lia). cbn [bind].
    rewrite (@get_in _ points _ []) by (apply V; lia). cbn [bind].
    rewrite (@get_in _ points _ []) by (apply V; lia). reflexivity.
  Qed.

  Lemma corner_tri f i : (i < 3)%nat -> corner (rows_of f) i = tri points f i.
  Proof. intros L. destruct i as [|[|[|]]]; [reflexivity..|lia]. Qed.

  Lemma rec_valid p : (p < n)%nat -> valid_face points (rec p).
  Proof. intros L. eapply Forall_forall in valid; [exact valid|]. now apply nth_In. Qed.

  Lemma rows_of_len f : valid_face points f -> Forall (fun c => length c = 3%nat) (rows_of f).
  Proof.
    intros (L & V). unfold rows_of. repeat constructor; apply (proj1 (Forall_forall _ _) rows), nth_In, V; lia.
  Qed.

  Lemma normal_ok f m : triangle_normal (corner (rows_of f)) = (true, m) ->
    ~ degenerate points f /\ normal_to points f (map m (seq 0 3)).
  Proof.
    intros E. change (triangle_normal (tri points f) = (true, m)) in E. split.
    - intros D. apply C19_normal_fails_iff in D. rewrite E in D. discriminate.
    - destruct (@C19_normal_success _ _ E) as (U & _ & P & M). unfold normal_to. cbn zeta.
      split; [reflexivity|]. split; [|split; [exact P|]].
      + unfold unit in *. rewrite <- U. apply dot_ext; intros d L; (destruct d as [|[|[|]]]; [reflexivity..|lia]).
      + intros d L. destruct d as [|[|[|]]]; [apply M..|lia].
  Qed.
  Lemma normal_fails f m : triangle_normal (corner (rows_of f)) = (false, m) -> degenerate points f.
  Proof.
    intros E. change (triangle_normal (tri points f) = (false, m)) in E. apply C19_normal_fails_iff. now rewrite E.
  Qed.
  Lemma area_ok f : triangle_area (corner (rows_of f)) = face_area points f.
  Proof. change (triangle_area (tri points f) = face_area points f). now rewrite triangle_area_R. Qed.

  Lemma norm_nonneg k v : 0 <= norm k v.
  Proof. apply sqrt_pos. Qed.
  Lemma area_nonneg f : 0 <= face_area points f.
  Proof. unfold face_area. cbn zeta. pose proof (@norm_nonneg 3 (vprod (sub (tri points f 1%nat) (tri points f 0%nat)) (sub (tri points f 2%nat) (tri points f 0%nat)))). lra. Qed.
  Lemma area_pos f : ~ degenerate points f -> 0 < face_area points f.
  Proof.
    intros D. destruct (triangle_normal (tri points f)) as [[] m] eqn:E.
    - destruct (@C19_normal_success _ _ E) as (_ & _ & P & _). unfold face_area. cbn zeta. lra.
    - exfalso. apply D. apply C19_normal_fails_iff. now rewrite E.
  Qed.

  (** One drawn point is on the face. *)
  Lemma drawn f k : valid_face points f -> exists x, simplex_sample u k 3 3 (rows_of f) = Ok x /\ on_face points f x.
  Proof.
    intros V. destruct (@simplex_sample_inside u k 3 (rows_of f)) as (d & w & E & L & Lw & (W & S1) & X);
      [cbn; lia|exact draws|now apply rows_of_len|].
    exists d. split; [exact E|]. split; [exact L|]. exists (fun i => nth i w 0).
    destruct w as [|a [|b [|c [|]]]]; cbn in Lw; try lia. clear Lw.
    unfold rsum in S1. cbn in S1. split.
    - split; [cbn; lra|]. intros i Li. rewrite X by exact Li. unfold weighted_coord, rows_of, rsum, tri. cbn. lra.
    - intros i Li. apply Forall_forall with (x := nth i [a; b; c] 0) in W; [exact W|]. apply nth_In. exact Li.
  Qed.

  (** The six landmark points. *)
  Lemma landmarks_ok f v i : face_points (rows_of f) v i = map (fun x => CPoint x v i) (landmarks points f).
  Proof.
    unfold face_points, landmarks. cbn zeta. cbn [map]. unfold midpoint.
    replace (@nlit R _ 5 1) with (/ 2) by (unfold nlit; cbn [nofZ ndiv RNum]; replace (10 ^ Z.of_nat 1)%Z with 10%Z by reflexivity; lra).
    cbn [seq map]. rewrite !corner_tri by lia.
    repeat f_equal; cbn [nmul nadd RNum]; unfold Rdiv; apply Rmult_comm.
  Qed.

  Lemma landmarks_on f x : In x (landmarks points f) -> on_face points f x.
  Proof.
    unfold landmarks. cbn zeta. cbn [In]. intros H.
    assert (B : forall a b c : R, 0 <= a -> 0 <= b -> 0 <= c -> a + b + c = 1 ->
              forall y : nat -> R, (forall d, (d < 3)%nat -> y d = a * tri points f 0%nat d + b * tri points f 1%nat d + c * tri points f 2%nat d) ->
              on_face points f [y 0%nat; y 1%nat; y 2%nat]).
    { intros a b c A0 B0 C0 S y Y. split; [reflexivity|].
      exists (fun k => match k with 0%nat => a | 1%nat => b | _ => c end). split.
      - split; [exact S|]. intros d L. rewrite <- (Y d L). destruct d as [|[|[|]]]; [reflexivity..|lia].
      - intros [|[|]] _; assumption. }
    repeat (destruct H as [H|H]).
    - subst x. apply (B 1 0 0 ltac:(lra) ltac:(lra) ltac:(lra) ltac:(lra) (tri points f 0%nat)). intros; lra.
    - subst x. apply (B 0 1 0 ltac:(lra) ltac:(lra) ltac:(lra) ltac:(lra) (tri points f 1%nat)). intros; lra.
    - subst x. apply (B 0 0 1 ltac:(lra) ltac:(lra) ltac:(lra) ltac:(lra) (tri points f 2%nat)). intros; lra.
    - subst x. apply (B (/2) (/2) 0 ltac:(lra) ltac:(lra) ltac:(lra) ltac:(lra) (fun d => (tri points f 0%nat d + tri points f 1%nat d) / 2)). intros; lra.
    - subst x. apply (B 0 (/2) (/2) ltac:(lra) ltac:(lra) ltac:(lra) ltac:(lra) (fun d => (tri points f 1%nat d + tri points f 2%nat d) / 2)). intros; lra.
    - subst x. apply (B (/2) 0 (/2) ltac:(lra) ltac:(lra) ltac:(lra) ltac:(lra) (fun d => (tri points f 2%nat d + tri points f 0%nat d) / 2)). intros; lra.
    - destruct H.
  Qed.

  Lemma extra_ok m f v i : valid_face points f -> forall k,
    exists l, extra_points u m (rows_of f) v i k = Ok l /\ length l = m /\
      Forall (fun e => cp_face e = i /\ cp_normal e = v /\ on_face points f (cp_x e)) l.
  Proof.
    intros V. induction m as [|m IH]; intros k; [exists []; repeat split; constructor|].
    cbn [extra_points]. destruct (@drawn f k V) as (x & E & O). rewrite E. cbn [bind].
    destruct (IH (k + 2)%nat) as (l & E' & L & A). rewrite E'. cbn [bind]. eexists. split; [reflexivity|].
    split; [cbn; lia|]. constructor; auto.
  Qed.

  (** What the cloud holds about one processed face. *)
  Definition block (j : nat) (f : list nat) (m : nat) (b : list (cpoint (F := R))) : Prop :=
    exists v more, normal_to points f v /\ length more = m
      /\ b = map (fun x => CPoint x v j) (landmarks points f) ++ more
      /\ Forall (fun e => cp_face e = j /\ cp_normal e = v /\ on_face points f (cp_x e)) more.

  Variable extra : nat -> nat.

  (** The loop invariant: entries below [i] are done, entries from [i] to [num] are not. *)
  Record inv (s : pcloud (F := R)) (i : nat) : Prop := Inv {
    iv_ptr : length (pc_ptr s) = n;
    iv_live : length (pc_live s) = n;
    iv_normal : length (pc_normal s) = n;
    iv_i : (i <= pc_num s)%nat;
    iv_num : (pc_num s <= n)%nat;
    iv_nodup : forall a b, (a < pc_num s)%nat -> (b < pc_num s)%nat -> nth a (pc_ptr s) 0%nat = nth b (pc_ptr s) 0%nat -> a = b;
    iv_bound : forall a, (a < n)%nat -> (nth a (pc_ptr s) 0 < n)%nat;
    iv_alive : forall j, (j < pc_num s)%nat -> nth (nth j (pc_ptr s) 0%nat) (pc_live s) false = true;
    iv_gone : forall p, (p < n)%nat -> (exists j, (j < pc_num s)%nat /\ nth j (pc_ptr s) 0%nat = p) \/ (nth p (pc_live s) false = false /\ degenerate points (rec p));
    iv_same : pc_num s = n -> pc_ptr s = seq 0 n /\ pc_live s = repeat true n;
    iv_less : (pc_num s < n)%nat -> exists p, (p < n)%nat /\ nth p (pc_live s) false = false;
    iv_done : forall j, (j < i)%nat -> ~ degenerate points (rec (nth j (pc_ptr s) 0%nat)) /\
        exists v, nth_error (pc_normal s) j = Some (Some v) /\ normal_to points (rec (nth j (pc_ptr s) 0%nat)) v;
    iv_points : exists blocks, pc_points s = concat blocks /\ length blocks = i /\
        forall j, (j < i)%nat -> exists m, block j (rec (nth j (pc_ptr s) 0%nat)) m (nth j blocks []) /\
                              (pc_num s = n -> m = extra n)
  }.

  Lemma inv_start : inv (start recs) 0.
  Proof.
    unfold start. constructor; cbn [pc_ptr pc_live pc_num pc_normal pc_points].
    - apply seq_length.
    - apply repeat_length.
    - apply repeat_length.
    - lia.
    - lia.
    - intros a b La Lb. rewrite !seq_nth by assumption. lia.
    - intros a La. rewrite seq_nth by assumption. lia.
    - intros j L. rewrite seq_nth by exact L. cbn [Nat.add]. rewrite (@nth_indep _ _ _ false true) by (rewrite repeat_length; exact L). apply nth_repeat.
    - intros p L. left. exists p. rewrite seq_nth by assumption. auto.
    - auto.
    - lia.
    - lia.
    - exists []. repeat split. lia.
  Qed.

  Lemma load_ok s i : inv s i -> forall j, (j < pc_num s)%nat -> load recs s j = Ok (rec (nth j (pc_ptr s) 0%nat)).
  Proof.
    intros IV j L. unfold load. destruct IV.
    rewrite (@get_in _ (pc_ptr s) j 0%nat) by lia. cbn [bind].
    assert (B := iv_bound0 j ltac:(lia)).
    rewrite (@get_in _ (pc_live s) _ false) by lia. cbn [bind]. rewrite iv_alive0 by exact L.
    now apply get_in.
  Qed.

  (** One good face. *)
  Lemma step_good s i v more m :
    inv s i -> (i < pc_num s)%nat -> ~ degenerate points (rec (nth i (pc_ptr s) 0%nat)) ->
    normal_to points (rec (nth i (pc_ptr s) 0%nat)) v -> m = extra (pc_num s) -> length more = m ->
    Forall (fun e => cp_face e = i /\ cp_normal e = v /\ on_face points (rec (nth i (pc_ptr s) 0%nat)) (cp_x e)) more ->
    forall k, inv (PCloud (pc_ptr s) (pc_live s) (pc_num s) (upd (pc_normal s) i (Some v))
           (pc_points s ++ map (fun x => CPoint x v i) (landmarks points (rec (nth i (pc_ptr s) 0%nat))) ++ more) k) (S i).
  Proof.
    intros IV L D N M Lm A k. destruct IV. constructor; cbn [pc_ptr pc_live pc_num pc_normal pc_points]; auto.
    - now rewrite upd_length.
    - intros j Lj. destruct (Nat.eq_dec j i) as [->|Ne].
      + split; [exact D|]. exists v. split; [apply upd_nth_same; lia|exact N].
      + rewrite upd_nth_other by exact Ne. apply iv_done0. lia.
    - destruct iv_points0 as (bl & E & Lb & B). exists (bl ++ [map (fun x => CPoint x v i) (landmarks points (rec (nth i (pc_ptr s) 0%nat))) ++ more]).
      split; [rewrite concat_app; cbn [concat]; rewrite app_nil_r, E; reflexivity|].
      split; [rewrite app_length; cbn; lia|]. intros j Lj. destruct (Nat.eq_dec j i) as [->|Ne].
      + rewrite app_nth2, Lb, Nat.sub_diag by lia. cbn [nth]. exists m. split.
        * exists v, more. auto.
        * intros E'. now rewrite M, E'.
      + rewrite app_nth1 by lia. apply B. lia.
  Qed.

  (** One degenerate face: the last one takes its place. *)
  Lemma step_bad s i :
    inv s i -> (i < pc_num s)%nat -> degenerate points (rec (nth i (pc_ptr s) 0%nat)) ->
    inv (PCloud (upd (pc_ptr s) i (nth (pc_num s - 1) (pc_ptr s) 0%nat)) (upd (pc_live s) (nth i (pc_ptr s) 0%nat) false)
           (pc_num s - 1) (upd (pc_normal s) i None) (pc_points s) (pc_draws s)) i.
  Proof.
    intros IV L D. destruct IV. set (p := nth i (pc_ptr s) 0%nat) in *.
    assert (Bp : (p < n)%nat) by (apply iv_bound0; lia).
    constructor; cbn [pc_ptr pc_live pc_num pc_normal pc_points]; rewrite ?upd_length; auto; try lia.
    - intros a b La Lb. rewrite !nth_upd by lia.
      destruct (Nat.eqb_spec a i), (Nat.eqb_spec b i); intros E; subst; auto; apply iv_nodup0 in E; lia.
    - intros a La. rewrite nth_upd by lia. destruct (Nat.eqb_spec a i); apply iv_bound0; lia.
    - intros j Lj. rewrite (@nth_upd _ (pc_ptr s)) by lia. destruct (Nat.eqb_spec j i).
      + rewrite nth_upd by lia. destruct (Nat.eqb_spec (nth (pc_num s - 1) (pc_ptr s) 0%nat) p) as [E|]; [apply iv_nodup0 in E; lia|].
        apply iv_alive0. lia.
      + rewrite nth_upd by lia. destruct (Nat.eqb_spec (nth j (pc_ptr s) 0%nat) p) as [E|]; [apply iv_nodup0 in E; lia|].
        apply iv_alive0. lia.
    - intros q Lq. rewrite (@nth_upd _ (pc_live s)) by lia. destruct (Nat.eqb_spec q p) as [->|Ne]; [auto|].
      destruct (iv_gone0 q Lq) as [(j & Lj & E)|G]; [|auto]. left.
      destruct (Nat.eq_dec j (pc_num s - 1)) as [->|Nj].
      + exists i. assert (i <> pc_num s - 1)%nat by (intros Ei; apply Ne; rewrite <- E; unfold p; now rewrite Ei). split; [lia|].
        rewrite nth_upd by lia. now rewrite Nat.eqb_refl.
      + exists j. split; [lia|]. rewrite nth_upd by lia. destruct (Nat.eqb_spec j i) as [Ei|]; [exfalso; apply Ne; rewrite <- E; unfold p; now rewrite Ei|exact E].
    - intros _. exists p. split; [exact Bp|]. rewrite nth_upd by lia. now rewrite Nat.eqb_refl.
    - intros j Lj. rewrite nth_upd by lia. destruct (Nat.eqb_spec j i); [lia|]. rewrite upd_nth_other by lia. apply iv_done0. lia.
    - destruct iv_points0 as (bl & E & Lb & B). exists bl. split; [exact E|]. split; [exact Lb|]. intros j Lj.
      rewrite nth_upd by lia. destruct (Nat.eqb_spec j i); [lia|]. destruct (B j Lj) as (m & Bm & Em). exists m. split; [exact Bm|]. lia.
  Qed.

  (** One iteration, written out. *)
  Lemma iterate fu s i (rep : bool) :
    inv s i -> ((if rep then S i else i) < pc_num s)%nat ->
    (~ degenerate points (rec (nth i (pc_ptr s) 0%nat)) /\
     exists s', inv s' (S i) /\ pc_ptr s' = pc_ptr s /\ pc_num s' = pc_num s /\ pc_draws s' = (pc_draws s + 2 * extra (pc_num s))%nat
       /\ face_loop points recs u (S fu) extra s (if rep then S i else i) rep = face_loop points recs u fu extra s' (S i) false)
    \/
    (degenerate points (rec (nth i (pc_ptr s) 0%nat)) /\
     let s' := PCloud (upd (pc_ptr s) i (nth (pc_num s - 1) (pc_ptr s) 0%nat)) (upd (pc_live s) (nth i (pc_ptr s) 0%nat) false)
           (pc_num s - 1) (upd (pc_normal s) i None) (pc_points s) (pc_draws s) in
     inv s' i /\ face_loop points recs u (S fu) extra s (if rep then S i else i) rep = face_loop points recs u fu extra s' (S i) true).
  Proof.
    intros IV L. assert (Li : (i < pc_num s)%nat) by (destruct rep; lia).
    cbn [face_loop]. rewrite (proj2 (Nat.ltb_lt _ _) L).
    assert (Ei : (if rep then (if rep then S i else i) - 1 else (if rep then S i else i))%nat = i) by (destruct rep; lia).
    cbn zeta. rewrite Ei. rewrite (load_ok IV Li). cbn [bind].
    set (f := rec (nth i (pc_ptr s) 0%nat)) in *.
    assert (V : valid_face points f) by (apply rec_valid, (iv_bound IV); pose proof (iv_num IV); lia).
    rewrite (corners_of_ok V). cbn [bind].
    pose proof (iv_normal IV) as Ln. pose proof (iv_num IV) as Lnum. pose proof (iv_ptr IV) as Lp. pose proof (iv_live IV) as Ll.
    destruct (triangle_normal (corner (rows_of f))) as [[] m] eqn:T.
    - left. destruct (normal_ok _ T) as (D & N). split; [exact D|].
      rewrite set_Ok by lia. cbn [bind].
      destruct (@extra_ok (extra (pc_num s)) f (map m (seq 0 3)) i V (pc_draws s)) as (more & E & Lm & A).
      rewrite E. cbn [bind]. eexists. split; [|split; [|split; [|split; [|reflexivity]]]]; [|reflexivity..].
      rewrite landmarks_ok. eapply step_good; eauto.
    - right. pose proof (normal_fails _ T) as D. split; [exact D|]. rewrite set_Ok by lia. cbn [bind].
      rewrite (@get_in _ (pc_ptr s) i 0%nat) by lia. cbn [bind].
      rewrite set_Ok by (rewrite Ll; apply (iv_bound IV); lia). cbn [bind].
      rewrite (@get_in _ (pc_ptr s) _ 0%nat) by lia. cbn [bind].
      rewrite set_Ok by lia. cbn [bind]. cbn zeta. split; [now apply step_bad|reflexivity].
  Qed.

  Lemma loop_ok : forall fu s i (rep : bool), inv s i -> (pc_num s - i < fu)%nat ->
    (rep = true -> (pc_num s < n)%nat /\ nth_error (pc_normal s) i = Some None) ->
    exists s' i', face_loop points recs u fu extra s (if rep then S i else i) rep = Ok s' /\ inv s' i'
      /\ (i' = pc_num s' \/ (S i' = pc_num s' /\ (pc_num s' < n)%nat /\ nth_error (pc_normal s') i' = Some None)).
  Proof.
    induction fu as [|fu IH]; intros s i rep IV L R; [lia|].
    destruct (lt_dec (if rep then S i else i) (pc_num s)) as [Lt|Ge].
    - assert (Li : (i < pc_num s)%nat) by (destruct rep; lia).
      destruct (@iterate fu s i rep IV Lt) as [(D & s' & IV' & _ & En & _ & E)|(D & IV' & E)]; rewrite E.
      + apply (IH s' (S i) false IV'); [rewrite En; lia|discriminate].
      + pose proof (iv_num IV). pose proof (iv_normal IV). refine (IH _ i true IV' _ _); cbn [pc_num pc_normal]; [lia|intros _].
        split; [lia|]. apply upd_nth_same. lia.
    - exists s, i. cbn [face_loop]. rewrite (proj2 (Nat.ltb_ge _ _)) by lia. split; [reflexivity|]. split; [exact IV|].
      pose proof (iv_i IV). destruct rep; [|left; lia]. destruct (R eq_refl). destruct (Nat.eq_dec i (pc_num s)); [now left|right]. split; [lia|auto].
  Qed.

  (** A stretch of good faces. *)
  Lemma good_run : forall m fu s i, inv s i -> (i + m <= pc_num s)%nat ->
    (forall j, (i <= j < i + m)%nat -> ~ degenerate points (rec (nth j (pc_ptr s) 0%nat))) ->
    exists s', inv s' (i + m) /\ pc_ptr s' = pc_ptr s /\ pc_num s' = pc_num s /\ pc_draws s' = (pc_draws s + m * (2 * extra (pc_num s)))%nat
      /\ face_loop points recs u (m + fu) extra s i false = face_loop points recs u fu extra s' (i + m) false.
  Proof.
    induction m as [|m IH]; intros fu s i IV L G.
    - exists s. rewrite !Nat.add_0_r. auto.
    - destruct (@iterate (m + fu) s i false IV ltac:(lia)) as [(_ & s1 & IV1 & P1 & N1 & K1 & E1)|(D & _)].
      + destruct (IH fu s1 (S i) IV1 ltac:(lia)) as (s' & IV' & P' & N' & K' & E').
        { intros j Lj. rewrite P1. apply G. lia. }
        exists s'. replace (i + S m)%nat with (S i + m)%nat by lia. split; [exact IV'|]. split; [congruence|]. split; [congruence|].
        split; [rewrite K', K1, N1; lia|]. etransitivity; [exact E1|exact E'].
      + exfalso. apply (G i ltac:(lia)). exact D.
  Qed.

  (** The areas of the faces that are left. *)
  Definition kept_areas (s : pcloud (F := R)) : list R :=
    map (fun j => face_area points (rec (nth j (pc_ptr s) 0%nat))) (seq 0 (pc_num s)).

  Lemma mapr_map {A B} (g : A -> res B) (h : A -> B) l : (forall x, In x l -> g x = Ok (h x)) -> mapr g l = Ok (map h l).
  Proof.
    induction l as [|a l IH]; intros G; [reflexivity|]. cbn [mapr map]. rewrite G by now left. cbn [bind].
    rewrite IH by (intros; apply G; now right). reflexivity.
  Qed.

  Lemma areas_ok s i : inv s i -> areas points recs s = Ok (kept_areas s).
  Proof.
    intros IV. apply mapr_map. intros j I%in_seq. rewrite (load_ok IV) by lia. cbn [bind].
    rewrite corners_of_ok by (apply rec_valid, (iv_bound IV); pose proof (iv_num IV); lia). cbn [bind]. now rewrite area_ok.
  Qed.

  Lemma rsum_pos l : Forall (fun a => 0 <= a) l -> (exists a, In a l /\ 0 < a) -> 0 < rsum l.
  Proof.
    unfold rsum. induction 1 as [|a l P A IH]; intros (b & I & B); [destruct I|]. cbn [fold_right].
    assert (0 <= fold_right Rplus 0 l) by (clear - A; induction A; cbn; lra).
    destruct I as [->|I]; [lra|]. assert (0 < fold_right Rplus 0 l) by (apply IH; eauto). lra.
  Qed.

  Definition picks (a : list R) (U : R) (i : nat) : Prop :=
    (i < length a)%nat /\ rsum (firstn i a) <= U * rsum a <= rsum (firstn (S i) a).

  Lemma pick_face s i c U : inv s i -> (0 < i)%nat -> make_cdf (kept_areas s) = Ok c -> 0 <= U < 1 ->
    exists j, pool_pick U c = Ok j /\ picks (kept_areas s) U j /\ (j < pc_num s)%nat /\
      forall k, (k < pc_num s)%nat -> rsum (firstn k (kept_areas s)) < U * rsum (kept_areas s) < rsum (firstn (S k) (kept_areas s)) -> j = k.
  Proof.
    intros IV Li C HU. assert (Ln : length (kept_areas s) = pc_num s) by (unfold kept_areas; now rewrite map_length, seq_length).
    pose proof (iv_i IV) as Lin.
    destruct (@pool_pick_ok (kept_areas s) U) as (c' & j & C' & P & Lj & Bj & Q); auto.
    - intros E. rewrite E in Ln. cbn in Ln. lia.
    - apply Forall_forall. intros a (j & <- & _)%in_map_iff. apply area_nonneg.
    - apply rsum_pos.
      + apply Forall_forall. intros a (j & <- & _)%in_map_iff. apply area_nonneg.
      + exists (face_area points (rec (nth 0 (pc_ptr s) 0%nat))). split; [apply in_map_iff; exists 0%nat; split; [reflexivity|apply in_seq; lia]|].
        apply area_pos. apply (iv_done IV). lia.
    - rewrite C in C'. injection C' as <-. exists j. split; [exact P|]. split; [split; auto|]. split; [lia|].
      intros k Lk. apply Q. lia.
  Qed.

  Lemma mc_ok s c : inv s (pc_num s) -> (0 < pc_num s)%nat -> make_cdf (kept_areas s) = Ok c ->
    forall m k, exists l, mc_loop points recs u m s c k = Ok l /\ length l = m /\
      forall t e, nth_error l t = Some e ->
        let f := rec (nth (cp_face e) (pc_ptr s) 0%nat) in
        picks (kept_areas s) (u (k + 3 * t)%nat) (cp_face e) /\ on_face points f (cp_x e) /\ normal_to points f (cp_normal e).
  Proof.
    intros IV Lpos C. induction m as [|m IH]; intros k.
    - exists []. split; [reflexivity|]. split; [reflexivity|]. intros [|] e E; discriminate.
    - cbn [mc_loop]. destruct (@pick_face s (pc_num s) c (u k) IV Lpos C (draws k)) as (j & P & Pj & Lj & _).
      rewrite P. cbn [bind]. rewrite (load_ok IV Lj). cbn [bind].
      set (f := rec (nth j (pc_ptr s) 0%nat)).
      assert (V : valid_face points f) by (apply rec_valid, (iv_bound IV); pose proof (iv_num IV); lia).
      rewrite (corners_of_ok V). cbn [bind]. destruct (@drawn f (k + 1) V) as (x & E & O). rewrite E. cbn [bind].
      destruct (iv_done IV Lj) as (_ & v & Nv & Tv). rewrite (get_some Nv). cbn [bind].
      destruct (IH (k + 3)%nat) as (l & El & Ll & A). rewrite El. cbn [bind]. eexists. split; [reflexivity|].
      split; [cbn; lia|]. intros [|t] e Et; cbn [nth_error] in Et.
      + injection Et as <-. cbn [cp_face cp_x cp_normal]. cbn zeta. rewrite Nat.mul_0_r, Nat.add_0_r. auto.
      + specialize (A t e Et). cbn zeta in A |- *. replace (k + 3 * S t)%nat with (k + 3 + 3 * t)%nat by lia. exact A.
  Qed.

  Lemma all_kept s i : inv s i -> (forall p, (p < n)%nat -> ~ degenerate points (rec p)) -> pc_num s = n.
  Proof.
    intros IV G. pose proof (iv_num IV). destruct (Nat.eq_dec (pc_num s) n) as [E|Ne]; [exact E|exfalso].
    destruct (iv_less IV) as (p & Lp & Dp); [lia|]. destruct (iv_gone IV Lp) as [(j & Lj & <-)|(_ & D)].
    - rewrite (iv_alive IV Lj) in Dp. discriminate.
    - exact (G p Lp D).
  Qed.

  Lemma full_run budget :
    recs <> [] -> (forall p, (p < n)%nat -> ~ degenerate points (rec p)) ->
    exists s r blocks l, surface_cloud points recs u budget extra = Ok (s, r)
      /\ pc_num s = n /\ pc_ptr s = seq 0 n /\ pc_live s = repeat true n
      /\ pc_points s = concat blocks ++ l /\ length blocks = n /\ length l = budget
      /\ (forall j, (j < n)%nat -> block j (rec j) (extra n) (nth j blocks []))
      /\ (forall t e, nth_error l t = Some e ->
            picks (map (face_area points) recs) (u (2 * n * extra n + 3 * t)%nat) (cp_face e)
            /\ on_face points (rec (cp_face e)) (cp_x e) /\ normal_to points (rec (cp_face e)) (cp_normal e))
      /\ r = sqrt (rsum (map (face_area points) recs) / INR budget)
      /\ (forall j, (j < n)%nat -> exists v, nth_error (pc_normal s) j = Some (Some v) /\ normal_to points (rec j) v).
  Proof.
    intros Ne G. assert (Lpos : (0 < n)%nat) by (destruct recs; [congruence|cbn; lia]).
    destruct (@good_run n 1 (start recs) 0 inv_start) as (s & IV & P & N & K & E).
    { cbn. lia. }
    { intros j Lj. cbn [start pc_ptr]. rewrite seq_nth by lia. apply G. lia. }
    cbn [Nat.add] in IV. unfold surface_cloud. cbn [start pc_num pc_draws pc_ptr] in N, K, P.
    replace (S n) with (n + 1)%nat by lia. rewrite E. cbn [Nat.add].
    cbn [face_loop]. rewrite N, Nat.ltb_irrefl. cbn [bind].
    rewrite (areas_ok IV). cbn [bind].
    assert (EA : kept_areas s = map (face_area points) recs).
    { unfold kept_areas. rewrite N, P. apply list_ext. intros k. destruct (lt_dec k n) as [L|L].
      - rewrite !map_nth_error'. rewrite (nth_error_nth' (seq 0 n) 0%nat), (nth_error_nth' recs []) by (rewrite ?seq_length; exact L).
        cbn [option_map]. rewrite (@seq_nth n 0 k 0 L). cbn [Nat.add]. rewrite (@seq_nth n 0 k 0 L). reflexivity.
      - rewrite !(proj2 (nth_error_None _ _)) by (rewrite map_length, ?seq_length; lia). reflexivity. }
    destruct (@make_cdf_ok (kept_areas s)) as (c & C & _). rewrite C. cbn [bind].
    rewrite <- N in IV. destruct (@mc_ok s c IV ltac:(lia) C budget (pc_draws s)) as (l & El & Ll & A).
    rewrite El. cbn [bind]. rewrite N in IV. destruct (iv_points IV) as (blocks & Eb & Lb & Bb).
    eexists _, _, blocks, l. split; [reflexivity|]. cbn [pc_num pc_ptr pc_live pc_points].
    split; [exact N|]. split; [exact P|]. split; [apply (iv_same IV N)|]. split; [now rewrite Eb|]. split; [exact Lb|]. split; [exact Ll|].
    split; [|split; [|split]].
    - intros j Lj. destruct (Bb j Lj) as (m & Bm & Em). rewrite (Em N) in Bm. rewrite P, seq_nth in Bm by exact Lj. exact Bm.
    - intros t e Et. destruct (A t e Et) as (Pk & O & T). rewrite EA, K in Pk.
      assert (Lf : (cp_face e < n)%nat) by (destruct Pk as (L & _); now rewrite map_length in L).
      rewrite P, seq_nth in O, T by exact Lf. cbn [Nat.add] in O, T, Pk.
      replace (2 * n * extra n)%nat with (n * (2 * extra n))%nat by lia. auto.
    - rewrite EA. cbn [nsqrt ndiv nofZ RNum]. f_equal. f_equal.
      + change (@n0 R _) with 0. rewrite fold_symmetric; [reflexivity|intros; cbn; ring|intros; cbn; ring].
      + symmetry. apply INR_IZR_INZ.
    - intros j Lj. cbn [pc_normal]. destruct (iv_done IV Lj) as (_ & v & Ev & Nv). rewrite P, seq_nth in Nv by exact Lj. exists v. auto.
  Qed.

  (** The loop over arbitrary faces. *)
  Lemma any_run :
    exists s i, face_loop points recs u (S n) extra (start recs) 0 false = Ok s /\ inv s i
      /\ (i = pc_num s \/ (S i = pc_num s /\ (pc_num s < n)%nat /\ nth_error (pc_normal s) i = Some None)).
  Proof.
    destruct (@loop_ok (S n) (start recs) 0 false inv_start) as (s & i & E & IV & O); [cbn; lia|discriminate|].
    exists s, i. auto.
  Qed.

  Lemma all_done s i : inv s i -> (0 < i)%nat -> i = pc_num s -> forall budget,
    face_loop points recs u (S n) extra (start recs) 0 false = Ok s ->
    exists r, surface_cloud points recs u budget extra = Ok r.
  Proof.
    intros IV Li -> budget E. unfold surface_cloud. rewrite E. cbn [bind]. rewrite (areas_ok IV). cbn [bind].
    destruct (@make_cdf_ok (kept_areas s)) as (c & C & _). rewrite C. cbn [bind].
    destruct (@mc_ok s c IV Li C budget (pc_draws s)) as (l & El & _). rewrite El. cbn [bind]. eauto.
  Qed.

  (** Exactly one degenerate face. *)
  Lemma one_run d : (d < n)%nat -> degenerate points (rec d) -> (forall p, (p < n)%nat -> p <> d -> ~ degenerate points (rec p)) ->
    exists s i, face_loop points recs u (S n) extra (start recs) 0 false = Ok s /\ inv s i
      /\ pc_num s = (n - 1)%nat /\ pc_ptr s = upd (seq 0 n) d (n - 1)%nat
      /\ ((d + 2)%nat <> n -> i = pc_num s)
      /\ ((d + 2)%nat = n -> i = d /\ nth_error (pc_normal s) d = Some None /\ pc_draws s = (d * (2 * extra n))%nat).
  Proof.
    intros Ld D G.
    destruct (@good_run d (S (n - d)) (start recs) 0 inv_start) as (s & IV & P & N & K & E).
    { cbn. lia. }
    { intros j Lj. cbn [start pc_ptr]. rewrite seq_nth by lia. apply G; lia. }
    cbn [start pc_num pc_draws pc_ptr] in N, K, P. cbn [Nat.add] in IV, E, K.
    replace (S n) with (d + S (n - d))%nat by lia. rewrite E. clear E.
    destruct (@iterate (n - d) s d false IV ltac:(lia)) as [(D' & _)|(_ & IV1 & E1)].
    { exfalso. apply D'. rewrite P, seq_nth by exact Ld. exact D. }
    cbv match in E1. rewrite E1. clear E1. cbn zeta in IV1.
    set (s1 := PCloud _ _ _ _ _ _) in *.
    assert (P1 : pc_ptr s1 = upd (seq 0 n) d (n - 1)%nat).
    { unfold s1. cbn [pc_ptr]. rewrite P, N, seq_nth by lia. reflexivity. }
    assert (N1 : pc_num s1 = (n - 1)%nat) by (unfold s1; cbn [pc_num]; lia).
    assert (Z1 : nth_error (pc_normal s1) d = Some None).
    { unfold s1. cbn [pc_normal]. apply upd_nth_same. rewrite (iv_normal IV). exact Ld. }
    destruct (le_lt_dec n (d + 2)) as [Le|Lt].
    - destruct (n - d)%nat as [|fu] eqn:Efu; [lia|]. cbn [face_loop]. rewrite (proj2 (Nat.ltb_ge _ _)) by lia.
      exists s1, d. split; [reflexivity|]. split; [exact IV1|]. split; [exact N1|]. split; [exact P1|]. split; [lia|].
      intros _. split; [reflexivity|]. split; [exact Z1|]. unfold s1. cbn [pc_draws]. exact K.
    - assert (W : forall j, (d <= j < n - 1)%nat -> ~ degenerate points (rec (nth j (pc_ptr s1) 0%nat))).
      { intros j Lj. rewrite P1, nth_upd by (rewrite seq_length; exact Ld). destruct (Nat.eqb_spec j d); [apply G; lia|].
        rewrite seq_nth by lia. apply G; lia. }
      destruct (n - d)%nat as [|fu] eqn:Efu; [lia|].
      destruct (@iterate fu s1 d true IV1 ltac:(cbv match; rewrite N1; lia)) as [(_ & s2 & IV2 & P2 & N2 & _ & E2)|(D2 & _)]; [|exfalso; exact (W d ltac:(lia) D2)].
      cbv match in E2. rewrite E2. clear E2.
      destruct (@good_run (n - 2 - d) (fu - (n - 2 - d)) s2 (S d) IV2 ltac:(lia)) as (s3 & IV3 & P3 & N3 & _ & E3).
      { intros j Lj. rewrite P2. apply W. lia. }
      replace (n - 2 - d + (fu - (n - 2 - d)))%nat with fu in E3 by lia. rewrite E3.
      destruct (fu - (n - 2 - d))%nat as [|fu'] eqn:Ef; [lia|]. cbn [face_loop]. rewrite (proj2 (Nat.ltb_ge _ _)) by lia.
      exists s3, (S d + (n - 2 - d))%nat. split; [reflexivity|]. split; [exact IV3|]. split; [lia|]. split; [congruence|]. lia.
  Qed.

  (** A draw that falls on the face without a normal. *)
  Lemma missing_normal s i c U : inv s i -> (0 < i)%nat -> S i = pc_num s -> nth_error (pc_normal s) i = Some None ->
    make_cdf (kept_areas s) = Ok c -> 0 <= U < 1 ->
    rsum (firstn i (kept_areas s)) < U * rsum (kept_areas s) -> forall m k, u k = U ->
    mc_loop points recs u (S m) s c k = UB.
  Proof.
    intros IV Li Ei Z C HU Hp m k Ek. destruct (@pick_face s i c U IV Li C HU) as (j & P & _ & _ & Q).
    assert (Ln : length (kept_areas s) = pc_num s) by (unfold kept_areas; now rewrite map_length, seq_length).
    assert (Pos : 0 < rsum (kept_areas s)).
    { apply rsum_pos.
      + apply Forall_forall. intros a (t & <- & _)%in_map_iff. apply area_nonneg.
      + exists (face_area points (rec (nth 0 (pc_ptr s) 0%nat))). split; [apply in_map_iff; exists 0%nat; split; [reflexivity|apply in_seq; lia]|].
        apply area_pos. apply (iv_done IV). lia. }
    assert (j = i).
    { apply Q; [lia|]. split; [exact Hp|]. rewrite (@firstn_all2 _ (S i)) by lia.
      rewrite <- (Rmult_1_l (rsum (kept_areas s))) at 2. apply Rmult_lt_compat_r; lra. }
    subst j. cbn [mc_loop]. rewrite Ek, P. cbn [bind]. rewrite (load_ok IV) by lia. cbn [bind].
    set (f := rec (nth i (pc_ptr s) 0%nat)).
    assert (V : valid_face points f) by (apply rec_valid, (iv_bound IV); pose proof (iv_num IV); lia).
    rewrite (corners_of_ok V). cbn [bind]. destruct (@drawn f (k + 1) V) as (x & E & O). rewrite E. cbn [bind].
    rewrite (get_some Z). reflexivity.
  Qed.

  (** The caller's clean-up. *)
  Lemma deletes ptr : forall l live live',
    fold_res (fun i (live : list bool) => p <- get ptr i ;; b <- get live p ;; if b then set live p false else UB) l live = Ok live' ->
    NoDup (map (fun i => nth i ptr 0%nat) l) /\ Forall (fun i => (i < length ptr)%nat /\ nth (nth i ptr 0%nat) live false = true) l.
  Proof.
    induction l as [|a l IH]; intros live live'; cbn [fold_res map]; [split; constructor|].
    intros (l1 & H & E)%bind_Ok_inv. apply bind_Ok_inv in H as (p & Hp & H). apply bind_Ok_inv in H as (b & Hb & H).
    destruct b; [|discriminate]. apply get_Ok in Hp, Hb. assert (Lp := nth_error_Some_lt _ _ Hp). assert (Lb := nth_error_Some_lt _ _ Hb).
    rewrite set_Ok in H by exact Lb. injection H as <-. apply (nth_error_nth _ _ 0%nat) in Hp. apply (nth_error_nth _ _ false) in Hb.
    destruct (IH _ _ E) as (ND & A). split.
    - constructor; [|exact ND]. rewrite Hp. intros (i & Ei & I)%in_map_iff. eapply Forall_forall in A; [|exact I].
      destruct A as (_ & A). rewrite Ei, nth_upd, Nat.eqb_refl in A by exact Lb. discriminate.
    - constructor; [split; [exact Lp|now rewrite Hp]|]. eapply Forall_impl; [|exact A]. cbn. intros i (Li & Hi). split; [exact Li|].
      rewrite nth_upd in Hi by exact Lb. destruct (Nat.eqb_spec (nth i ptr 0%nat) p); [discriminate|exact Hi].
  Qed.

  Lemma fold_no_fuel {A St} (f : A -> St -> res St) : (forall a s, f a s <> Fuel) -> forall l s, fold_res f l s <> Fuel.
  Proof.
    intros H. induction l as [|a l IH]; intros s; cbn [fold_res]; [discriminate|]. specialize (H a s).
    destruct (f a s); cbn [bind]; [apply IH|discriminate|congruence].
  Qed.

  Lemma delete_twice s i : inv s i -> (pc_num s < n)%nat -> delete_all recs s = UB.
  Proof.
    intros IV L. destruct (delete_all recs s) as [live'| |] eqn:E; [exfalso|reflexivity|exfalso].
    - unfold delete_all in E. destruct (@deletes (pc_ptr s) _ _ _ E) as (ND & A).
      destruct (iv_less IV L) as (p & Lp & Dp).
      assert (I : In p (map (fun i => nth i (pc_ptr s) 0%nat) (seq 0 n))).
      { refine (@NoDup_length_incl _ _ (seq 0 n) ND _ _ p _).
        - rewrite map_length, !seq_length. lia.
        - intros q (j & <- & Ij)%in_map_iff. apply in_seq in Ij. apply in_seq. pose proof (iv_bound IV (a := j)). lia.
        - apply in_seq. lia. }
      apply in_map_iff in I as (j & Ej & Ij). eapply Forall_forall in A; [|exact Ij]. destruct A as (_ & A). rewrite Ej, Dp in A. discriminate.
    - revert E. apply fold_no_fuel. intros a l. unfold get, set. destruct (nth_error (pc_ptr s) a) as [q|]; cbn [bind]; [|discriminate].
      destruct (nth_error l q) as [b|]; cbn [bind]; [|discriminate]. destruct b; [destruct (_ <? _)%nat|]; discriminate.
  Qed.

  Lemma some_removed s i : inv s i -> (i = pc_num s \/ (S i = pc_num s /\ (pc_num s < n)%nat /\ nth_error (pc_normal s) i = Some None)) ->
    (exists p, (p < n)%nat /\ degenerate points (rec p)) -> (pc_num s < n)%nat.
  Proof.
    intros IV O (p & Lp & D). pose proof (iv_num IV). destruct (Nat.eq_dec (pc_num s) n) as [E|]; [exfalso|lia].
    destruct O as [->|(_ & L & _)]; [|lia]. destruct (iv_same IV E) as (P & _).
    destruct (iv_done IV (j := p)) as (ND & _); [lia|]. rewrite P, seq_nth in ND by exact Lp. exact (ND D).
  Qed.
End Cloud.
