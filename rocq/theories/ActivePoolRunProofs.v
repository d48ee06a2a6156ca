(** Proofs about runs of the active pool. *)
From Verif Require Import Base Num MemoryHandler DenseQR KdTree Vec KdSpec SmartTree SmartTreeSpec Geometry GeometrySpec GeometryProofs
  Spheres SpheresSpec SpheresProofs Sampling ActivePool ActivePoolSpec ActivePoolThreadProofs ActivePoolProofs
  ActivePoolStartProofs ActivePoolEdgeProofs ActivePoolRunSpec.
From Coq Require Import Reals Sorted.

(** Indices of the elements for which the answer is no. *)
Fixpoint kept_from (lo : nat) (bs : list bool) : list nat :=
  match bs with
  | [] => []
  | b :: t => if b then kept_from (S lo) t else lo :: kept_from (S lo) t
  end.
Lemma kept_bounds bs : forall lo i, In i (kept_from lo bs) -> lo <= i < lo + length bs.
Proof.
  induction bs as [|b bs IH]; intros lo i; cbn [kept_from length]; [easy|].
  destruct b; [|intros [<-|Hi]; [lia|]]; intros; try apply IH in Hi; try (apply IH in H; lia); lia.
Qed.
Lemma kept_sorted bs : forall lo, StronglySorted lt (kept_from lo bs).
Proof.
  induction bs as [|b bs IH]; intros lo; cbn; [constructor|]. destruct b; auto. constructor; auto.
  apply Forall_forall. intros i Hi. apply kept_bounds in Hi. lia.
Qed.
Lemma kept_in bs : forall lo i, In i (kept_from lo bs) <-> lo <= i /\ nth_error bs (i - lo) = Some false.
Proof.
  induction bs as [|b bs IH]; intros lo i; cbn [kept_from].
  - split; [easy|]. intros (_ & E). destruct (i - lo); discriminate.
  - destruct (Nat.eq_dec i lo) as [->|Hne].
    + rewrite Nat.sub_diag. cbn. destruct b.
      * split; [intros Hi; apply kept_bounds in Hi; lia|intros (_ & E); discriminate].
      * split; [split; [lia|reflexivity]|intros _; left; reflexivity].
    + assert (G : In i (kept_from (S lo) bs) <-> lo <= i /\ nth_error (b :: bs) (i - lo) = Some false).
      { rewrite IH. split; intros (Hi & E).
        - split; [lia|]. replace (i - lo) with (S (i - S lo)) by lia. exact E.
        - split; [lia|]. replace (i - lo) with (S (i - S lo)) in E by lia. exact E. }
      destruct b; [exact G|]. cbn [In]. rewrite <- G. split; [intros [|]; [congruence|auto]|auto].
Qed.
Lemma kept_shift bs lo : kept_from lo bs = map (Nat.add lo) (kept_from 0 bs).
Proof.
  revert lo. induction bs as [|b bs IH]; intros lo; cbn [kept_from map]; auto.
  rewrite (IH (S lo)), (IH 1). destruct b; cbn [map]; [|f_equal; [lia|]]; rewrite map_map; apply map_ext; intros; lia.
Qed.
(** Cutting k pieces out of every element. *)
Lemma nth_flat {A B} (f : A -> nat -> B) k (l : list A) j c a : c < k -> nth_error l j = Some a ->
  nth_error (flat_map (fun a => map (f a) (seq 0 k)) l) (k * j + c) = Some (f a c).
Proof.
  intros Hc. revert j. induction l as [|x l IH]; intros j E; [destruct j; discriminate|].
  cbn [flat_map]. destruct j as [|j]; cbn in E.
  - injection E as ->. rewrite nth_error_app1 by (rewrite map_length, seq_length; lia).
    rewrite Nat.mul_0_r. cbn [Nat.add]. apply map_nth_error.
    rewrite (nth_error_nth' _ 0) by (rewrite seq_length; lia). now rewrite seq_nth by lia.
  - rewrite nth_error_app2 by (rewrite map_length, seq_length; nia).
    rewrite map_length, seq_length. replace (k * S j + c - k) with (k * j + c) by nia. auto.
Qed.
Lemma len_flat {A B} (f : A -> nat -> B) k (l : list A) : length (flat_map (fun a => map (f a) (seq 0 k)) l) = k * length l.
Proof. induction l; cbn [flat_map length]; [lia|]. rewrite app_length, IHl, map_length, seq_length. lia. Qed.

Lemma survivors_kept {A} (els : list A) bs : length bs = length els ->
  Forall2 (fun e i => nth_error els i = Some e) (flat_map (fun eb : A * bool => if snd eb then [] else [fst eb]) (combine els bs)) (kept_from 0 bs).
Proof.
  revert bs. induction els as [|e els IH]; intros [|b bs] Hl; try discriminate; cbn [combine flat_map kept_from]; [constructor|].
  injection Hl as Hl. specialize (IH bs Hl). rewrite (kept_shift bs 1).
  assert (G : Forall2 (fun x i => nth_error (e :: els) i = Some x) (flat_map (fun eb : A * bool => if snd eb then [] else [fst eb]) (combine els bs)) (map (Nat.add 1) (kept_from 0 bs))).
  { clear -IH. induction IH; cbn [map]; constructor; auto. }
  destruct b; cbn [fst snd app]; auto. 
Qed.
Lemma Forall2_nth {A B} (P : A -> B -> Prop) l l' i b : Forall2 P l l' -> nth_error l' i = Some b -> exists a, nth_error l i = Some a /\ P a b.
Proof.
  intros Hf. revert i. induction Hf; intros i E; [destruct i; discriminate|]. destruct i; cbn in *; [injection E as <-; eauto|eauto].
Qed.
Lemma Forall2_nth_l {A B} (P : A -> B -> Prop) l l' i a : Forall2 P l l' -> nth_error l i = Some a -> exists b, nth_error l' i = Some b /\ P a b.
Proof.
  intros Hf. revert i. induction Hf; intros i E; [destruct i; discriminate|]. destruct i; cbn in *; [injection E as <-; eauto|eauto].
Qed.
Lemma Forall2_len {A B} (P : A -> B -> Prop) l l' : Forall2 P l l' -> length l = length l'.
Proof. induction 1; cbn; lia. Qed.

Section FaceRuns.
  Context {F : Type} `{Num F}.
  Variable points : list (list F).
  Variable faces : list (list nat).
  Hypothesis Hpts : good_points points.
  Hypothesis Hfaces : good_faces points faces.

  Lemma denotes_size p els : denotes points faces p els -> p_size p = length els.
  Proof. intros (E & _). unfold p_size. now rewrite E, map_length. Qed.
  Lemma denotes_element p els i e : denotes points faces p els -> nth_error els i = Some e ->
    element points faces p i (abc (shape points faces e)).
  Proof. intros D E. exists (snd (shape points faces e)). rewrite (@face_corners_ok _ _ points faces Hpts Hfaces p els i e D E). unfold abc. now destruct (shape points faces e). Qed.
  Lemma element_unique p i t t' : element points faces p i t -> element points faces p i t' -> t = t'.
  Proof. intros (m & E) (m' & E'). rewrite E in E'. now injection E'. Qed.
  Lemma cov_tested ss es cs Lip ratio t b : cov ss es cs Lip ratio t = Ok b <-> tested ss es cs Lip ratio t b.
  Proof.
    unfold cov, tested. destruct t as [[x y] z].
    destruct (face_covered ss x y z Lip ratio) as [[|]| |] eqn:E1; cbn [bind]; 
      [split; [intros [= <-]; auto|intros [(_ & ->)|[(E & _)|(E & _)]]; [auto|discriminate..]]| |
       split; [discriminate|intros [(E & _)|[(E & _)|(E & _)]]; discriminate]..].
    destruct (face_covered es x y z Lip n0) as [[|]| |] eqn:E2; cbn [bind].
    - split; [intros [= <-]; auto|intros [(E & _)|[(_ & _ & ->)|(_ & E & _)]]; [discriminate|auto|discriminate]].
    - split; [auto|intros [(E & _)|[(_ & E & _)|(_ & _ & ->)]]; [discriminate..|auto]].
    - split; [discriminate|intros [(E & _)|[(_ & E & _)|(_ & E & _)]]; discriminate].
    - split; [discriminate|intros [(E & _)|[(_ & E & _)|(_ & E & _)]]; discriminate].
  Qed.
  Lemma reached_denotes p : reached points faces p -> exists els, denotes points faces p els.
  Proof.
    induction 1 as [ip np p np' Hip E|ss es cs Lip ratio T sched p p' Hr (els & D) Hf E].
    - assert (Hnp : 1 <= np).
      { destruct np; [|lia]. unfold start_faces, patch_range in E. cbn [bind] in E. discriminate. }
      destruct (patch_range_ok (length faces) ip Hnp) as (np2 & bin & lo & hi & Er & Hn & _ & _ & Hb & _).
      assert (np2 = np').
      { unfold start_faces in E. rewrite Er in E. cbn [bind] in E. apply bind_Ok_inv in E. destruct E as (l & _ & E).
        destruct (_ =? _); [|discriminate]. apply bind_Ok_inv in E. destruct E as (c & _ & E). now injection E. }
      subst np2. specialize (Hb Hip).
      destruct (@start_faces_ok _ _ points faces Hpts Hfaces ip np np' lo hi Er Hb) as (p2 & E2 & D & _). rewrite E2 in E. injection E as <-. eauto.
    - destruct (@refine_ok _ _ points faces Hpts Hfaces ss es cs Lip ratio p els T sched D Hf) as (G & _).
      destruct (G _ E) as (bs & _ & D'). eauto.
  Qed.
  (** One refinement, in terms of the elements. *)
  Lemma refine_elements ss es cs Lip ratio p els T sched p' : denotes points faces p els -> finished (p_size p / T + 1) T sched ->
    refine_pool_faces points faces ss es cs Lip ratio T sched p = Ok p' ->
    exists kept, StronglySorted lt kept
      /\ (forall i t, i < p_size p -> element points faces p i t -> exists b, tested ss es cs Lip ratio t b /\ (In i kept <-> b = false))
      /\ (forall i, In i kept -> i < p_size p)
      /\ p_size p' = 4 * length kept
      /\ (forall j i c, nth_error kept j = Some i -> c < 4 ->
           nth_error (p_parent p') (4 * j + c) = nth_error (p_parent p) i
           /\ forall t, element points faces p i t -> element points faces p' (4 * j + c) (quarter center2 c t)).
  Proof.
    intros D Hf E.
    destruct (@refine_ok _ _ points faces Hpts Hfaces ss es cs Lip ratio p els T sched D Hf) as (G & _).
    destruct (G _ E) as (bs & Ha & D'). clear G. unfold answers in Ha.
    pose proof (Forall2_len Ha) as Hlen. pose proof (@denotes_size p els D) as Hs.
    pose proof (@survivors_kept _ els bs (eq_sym Hlen)) as K. fold (survivors els bs) in K.
    exists (kept_from 0 bs). split; [apply kept_sorted|]. split; [|split; [|split]].
    - intros i t Hi He. destruct (nth_error els i) as [e|] eqn:Ee; [|apply nth_error_None in Ee; lia].
      destruct (@Forall2_nth_l _ _ _ _ _ _ _ Ha Ee) as (b & Eb & Hb). exists b.
      pose proof (@element_unique _ _ _ _ He (@denotes_element p els i e D Ee)) as ->. split; [now apply cov_tested|].
      rewrite kept_in, Nat.sub_0_r, Eb. split; [intros (_ & Hx); congruence|intros ->; split; [lia|auto]].
    - intros i Hi. apply kept_bounds in Hi. lia.
    - rewrite (@denotes_size p' _ D'). unfold refined, kids. change [0; 1; 2; 3] with (seq 0 4). rewrite len_flat. now rewrite (Forall2_len K).
    - intros j i c Ej Hc. destruct (@Forall2_nth _ _ _ _ _ _ _ K Ej) as (e & Es & Ee).
      assert (Ek : nth_error (refined els bs) (4 * j + c) = Some (kid e c)).
      { unfold refined, kids. change [0; 1; 2; 3] with (seq 0 4). apply nth_flat; auto. }
      split.
      + destruct D as (P & _), D' as (P' & _). rewrite P, P'. rewrite (map_nth_error _ _ _ Ek), (map_nth_error _ _ _ Ee). reflexivity.
      + intros t He. pose proof (@element_unique _ _ _ _ He (@denotes_element p els i e D Ee)) as ->.
        rewrite <- kid_quarter by auto. eapply denotes_element; eauto.
  Qed.
  Lemma denotes_cdf p els : denotes points faces p els -> exists ts, length ts = p_size p
    /\ (forall i t, nth_error ts i = Some t -> element points faces p i t) /\ make_cdf (map size_of ts) = Ok (p_cdf p).
  Proof.
    intros D. exists (map (fun e => abc (shape points faces e)) els). split; [rewrite map_length; symmetry; eapply denotes_size; eauto|]. split.
    - intros i t E. rewrite nth_error_map in E. destruct (nth_error els i) as [e|] eqn:Ee; [|discriminate]. injection E as <-. eapply denotes_element; eauto.
    - destruct D as (_ & _ & C & _). rewrite map_map. exact C.
  Qed.
End FaceRuns.

Section EdgeRuns.
  Context {F : Type} `{Num F}.
  Variable points : list (list F).
  Variable edges : list (list nat).
  Hypothesis Hpts : good_points points.
  Hypothesis Hedges : good_edges points edges.

  Lemma edenotes_size p els : edenotes points edges p els -> p_size p = length els.
  Proof. intros (E & _). unfold p_size. now rewrite E, map_length. Qed.
  Lemma edenotes_segment p els i e : edenotes points edges p els -> nth_error els i = Some e ->
    segment points edges p i (ends (eshape points edges e)).
  Proof. intros D E. exists (snd (eshape points edges e)). rewrite (@edge_corners_ok _ _ points edges Hpts Hedges p els i e D E). unfold ends. now destruct (eshape points edges e). Qed.
  Lemma segment_unique p i t t' : segment points edges p i t -> segment points edges p i t' -> t = t'.
  Proof. intros (m & E) (m' & E'). rewrite E in E'. now injection E'. Qed.
  Lemma ecov_tested es cs Lip ratio t b : ecov es cs Lip ratio t = Ok b <-> etested es cs Lip ratio t b.
  Proof.
    unfold ecov, etested. destruct t as [x y].
    destruct (edge_covered cs x y Lip n0) as [[|]| |] eqn:E1; cbn [bind].
    - split; [intros [= <-]; auto|intros [(_ & ->)|(E & _)]; [auto|discriminate]].
    - split; [auto|intros [(E & _)|(_ & E)]; [discriminate|auto]].
    - split; [discriminate|intros [(E & _)|(E & _)]; discriminate].
    - split; [discriminate|intros [(E & _)|(E & _)]; discriminate].
  Qed.
  Lemma ereached_denotes p : ereached points edges p -> exists els, edenotes points edges p els.
  Proof.
    induction 1 as [p E|es cs Lip ratio p p' Hr (els & D) E].
    - destruct (@start_edges_ok _ _ points edges Hpts Hedges) as (p2 & E2 & D & _). rewrite E2 in E. injection E as <-. eauto.
    - destruct (@erefine_ok _ _ points edges Hpts Hedges es cs Lip ratio p els D) as (G & _). destruct (G _ E) as (bs & _ & D'). eauto.
  Qed.
  Lemma erefine_segments es cs Lip ratio p els p' : edenotes points edges p els ->
    refine_pool_edges points edges es cs Lip ratio p = Ok p' ->
    exists kept, StronglySorted lt kept
      /\ (forall i t, i < p_size p -> segment points edges p i t -> exists b, etested es cs Lip ratio t b /\ (In i kept <-> b = false))
      /\ (forall i, In i kept -> i < p_size p)
      /\ p_size p' = 2 * length kept
      /\ (forall j i c, nth_error kept j = Some i -> c < 2 ->
           nth_error (p_parent p') (2 * j + c) = nth_error (p_parent p) i
           /\ forall t, segment points edges p i t -> segment points edges p' (2 * j + c) (half center2 c t)).
  Proof.
    intros D E.
    destruct (@erefine_ok _ _ points edges Hpts Hedges es cs Lip ratio p els D) as (G & _).
    destruct (G _ E) as (bs & Ha & D'). clear G. unfold eanswers in Ha.
    pose proof (Forall2_len Ha) as Hlen. pose proof (@edenotes_size p els D) as Hs.
    pose proof (@survivors_kept _ els bs (eq_sym Hlen)) as K. fold (esurvivors els bs) in K.
    exists (kept_from 0 bs). split; [apply kept_sorted|]. split; [|split; [|split]].
    - intros i t Hi He. destruct (nth_error els i) as [e|] eqn:Ee; [|apply nth_error_None in Ee; lia].
      destruct (@Forall2_nth_l _ _ _ _ _ _ _ Ha Ee) as (b & Eb & Hb). exists b.
      pose proof (@segment_unique _ _ _ _ He (@edenotes_segment p els i e D Ee)) as ->. split; [now apply ecov_tested|].
      rewrite kept_in, Nat.sub_0_r, Eb. split; [intros (_ & Hx); congruence|intros ->; split; [lia|auto]].
    - intros i Hi. apply kept_bounds in Hi. lia.
    - rewrite (@edenotes_size p' _ D'). unfold erefined, ekids. change [0; 1] with (seq 0 2). rewrite len_flat. now rewrite (Forall2_len K).
    - intros j i c Ej Hc. destruct (@Forall2_nth _ _ _ _ _ _ _ K Ej) as (e & Es & Ee).
      assert (Ek : nth_error (erefined els bs) (2 * j + c) = Some (ekid e c)).
      { unfold erefined, ekids. change [0; 1] with (seq 0 2). apply nth_flat; auto. }
      split.
      + destruct D as (P & _), D' as (P' & _). rewrite P, P'. rewrite (map_nth_error _ _ _ Ek), (map_nth_error _ _ _ Ee). reflexivity.
      + intros t He. pose proof (@segment_unique _ _ _ _ He (@edenotes_segment p els i e D Ee)) as ->.
        rewrite <- ekid_half by auto. eapply edenotes_segment; eauto.
  Qed.
  Lemma edenotes_cdf p els : edenotes points edges p els -> exists ts, length ts = p_size p
    /\ (forall i t, nth_error ts i = Some t -> segment points edges p i t) /\ make_cdf (map length_of ts) = Ok (p_cdf p).
  Proof.
    intros D. exists (map (fun e => ends (eshape points edges e)) els). split; [rewrite map_length; symmetry; eapply edenotes_size; eauto|]. split.
    - intros i t E. rewrite nth_error_map in E. destruct (nth_error els i) as [e|] eqn:Ee; [|discriminate]. injection E as <-. eapply edenotes_segment; eauto.
    - destruct D as (_ & _ & C & _). rewrite map_map. exact C.
  Qed.
End EdgeRuns.
