(** Proofs about VoroMesh.v: the tables, the walks and the two passes. *)
From Verif Require Import Base Num KdTree SmartTree DenseQR Geometry Spheres
  PolyMesh PolyMeshProofs Regions RegionsProofs SurfaceShrinkProofs
  Interior InteriorProofs InteriorRunProofs Voro VoroProofs VoroMesh VoroMeshSpec.

Lemma pair_eqb_eq a b : pair_eqb a b = true <-> a = b.
Proof.
  destruct a as [a a'], b as [b b']. unfold pair_eqb. cbn [fst snd]. rewrite andb_true_iff, !Nat.eqb_eq. split; [intros (-> & ->); auto|].
  intros E. injection E as -> ->. auto.
Qed.
Lemma pair_eqb_neq a b : pair_eqb a b = false <-> a <> b.
Proof. destruct (pair_eqb a b) eqn:E; [apply pair_eqb_eq in E|]; split; intros; try congruence. intros ->. rewrite (proj2 (pair_eqb_eq b b)) in E; congruence. Qed.

Lemma NoDup_app_intro {A} (l m : list A) : NoDup l -> NoDup m -> (forall x, In x l -> ~ In x m) -> NoDup (l ++ m).
Proof.
  induction l as [|a l IH]; cbn [app]; intros N1 N2 D; auto. inversion N1 as [|? ? Hn N1']; subst. constructor.
  - intros Hin. apply in_app_or in Hin. destruct Hin as [Hin|Hin]; [auto|]. apply (D a); [now left|auto].
  - apply IH; auto. intros x Hx. apply D. now right.
Qed.
Lemma map_fst_combine_seq {A} (l : list A) : forall k, map fst (combine (seq k (length l)) l) = seq k (length l).
Proof. induction l as [|a l IH]; intros k; cbn [length seq combine map fst]; [reflexivity|]. now rewrite IH. Qed.

(** ** Tables *)
Definition valid (t : link_table) (a : nat * nat) : Prop := exists b, link t a = Ok b.
Lemma link_Ok t a b : link t a = Ok b <-> exists row, nth_error t (fst a) = Some row /\ nth_error row (snd a) = Some b.
Proof.
  unfold link. split.
  - intros E. apply bind_Ok_inv in E. destruct E as (row & E1 & E2). apply get_Ok in E1, E2. eauto.
  - intros (row & E1 & E2). rewrite (get_some E1). cbn [bind]. now apply get_some.
Qed.
Lemma set_link_Ok t a b : valid t a -> exists t', set_link t a b = Ok t' /\ length t' = length t
  /\ forall a', link t' a' = if pair_eqb a' a then Ok b else link t a'.
Proof.
  intros (b0 & E). apply link_Ok in E. destruct E as (row & E1 & E2). unfold set_link. rewrite (get_some E1). cbn [bind].
  assert (H2 : snd a < length row) by (apply nth_error_Some; congruence). assert (H1 : fst a < length t) by (apply nth_error_Some; congruence).
  rewrite (@set_Ok _ _ _ b H2). cbn [bind]. rewrite (@set_Ok _ _ _ _ H1). eexists. split; [reflexivity|]. split; [apply upd_length|].
  intros [s c]. destruct a as [s0 c0]. unfold link, get, pair_eqb. cbn [fst snd] in *.
  destruct (Nat.eqb_spec s s0) as [->|Hs]; cbn [andb].
  - rewrite upd_nth_same by auto. cbn [bind]. rewrite E1. cbn [bind].
    destruct (Nat.eqb_spec c c0) as [->|Hc]; [now rewrite upd_nth_same by auto|now rewrite upd_nth_other by auto].
  - rewrite upd_nth_other by auto. reflexivity.
Qed.
Lemma in_places t a : In a (places t) <-> valid t a.
Proof.
  unfold places. rewrite in_flat_map. split.
  - intros ([s row] & H1 & H2). apply in_numbered in H1. apply in_map_iff in H2. destruct H2 as (c & <- & Hc). apply in_seq in Hc.
    destruct (nth_error row c) as [b|] eqn:E; [|apply nth_error_None in E; lia]. exists b. apply link_Ok. eauto.
  - intros (b & E). apply link_Ok in E. destruct E as (row & E1 & E2). exists (fst a, row). split.
    + apply nth_error_In with (fst a). rewrite numbered_nth, E1. reflexivity.
    + destruct a as [s c]. apply in_map. apply in_seq. cbn [snd] in E2. assert (c < length row) by (apply nth_error_Some; congruence). lia.
Qed.
Lemma NoDup_flat_pairs {A} (f : A -> list nat) (l : list (nat * A)) : NoDup (map fst l) -> (forall p, In p l -> NoDup (f (snd p))) ->
  NoDup (flat_map (fun '(s, a) => map (pair s) (f a)) l).
Proof.
  induction l as [|[s a] t IH]; cbn [flat_map map fst]; intros ND Hf; [constructor|]. inversion ND as [|? ? Hn ND']; subst.
  apply NoDup_app_intro.
  - apply FinFun.Injective_map_NoDup; [intros x y E; congruence|]. apply (Hf (s, a)). now left.
  - apply IH; auto. intros p Hp. apply Hf. now right.
  - intros x Hx Hx'. apply in_map_iff in Hx. destruct Hx as (c & <- & _). apply in_flat_map in Hx'. destruct Hx' as ([s' a'] & H1 & H2).
    apply in_map_iff in H2. destruct H2 as (c' & E & _). injection E as -> ->. apply Hn. apply in_map_iff. exists (s, a'). auto.
Qed.
Lemma NoDup_places t : NoDup (places t).
Proof.
  unfold places. apply (@NoDup_flat_pairs _ (fun row => seq 0 (length row)) (numbered t)).
  - unfold numbered. rewrite map_fst_combine_seq. apply seq_NoDup.
  - intros. apply seq_NoDup.
Qed.

(** ** Following the links *)
Section Links.
  Variable mu : nat * nat -> nat.
  (** Every link leads to an existing corner, the corner itself or one of smaller measure. *)
  Definition falls (t : link_table) : Prop := forall a b, link t a = Ok b -> valid t b /\ (b = a \/ mu b < mu a).
  Inductive leads (t : link_table) : nat * nat -> nat * nat -> Prop :=
  | leads_refl a : leads t a a
  | leads_step a b c : link t a = Ok b -> leads t b c -> leads t a c.
  Lemma leads_trans t a b c : leads t a b -> leads t b c -> leads t a c.
  Proof. induction 1; auto. intros. eapply leads_step; eauto. Qed.
  Lemma follow_ok t : falls t -> forall fuel a, valid t a -> mu a < fuel ->
    exists c, follow fuel t a = Ok c /\ link t c = Ok c /\ leads t a c /\ (c = a \/ mu c < mu a).
  Proof.
    intros HF. induction fuel as [|fuel IH]; intros a (b & Eb) Hm; [lia|]. cbn [follow]. rewrite Eb. cbn [bind].
    destruct (HF a b Eb) as (Hv & Hd). destruct (pair_eqb b a) eqn:E.
    - apply pair_eqb_eq in E. subst b. exists a. split; auto. split; auto. split; [constructor|auto].
    - apply pair_eqb_neq in E. destruct Hd as [Hd|Hd]; [contradiction|].
      destruct (IH b Hv ltac:(lia)) as (c & E1 & E2 & E3 & E4). exists c. split; auto. split; auto. split; [eapply leads_step; eauto|].
      right. destruct E4 as [->|E4]; lia.
  Qed.

  Lemma resolve_ok fuel t : falls t -> (forall a, valid t a -> mu a < fuel) ->
    exists t', resolve fuel t = Ok t' /\ (forall a, valid t' a <-> valid t a) /\ length t' = length t
      /\ (forall a b, link t' a = Ok b -> link t' b = Ok b /\ leads t a b).
  Proof.
    intros HF Hm. unfold resolve.
    set (Q := fun (todo : list (nat * nat)) (u : link_table) =>
      (forall a, valid u a <-> valid t a) /\ length u = length t /\ falls u
      /\ (forall a, link t a = Ok a <-> link u a = Ok a)
      /\ (forall a b, link u a = Ok b -> leads t a b)
      /\ (forall a b, ~ In a todo -> link u a = Ok b -> link u b = Ok b)).
    assert (G : forall todo u, (forall a, In a todo -> valid t a) -> Q todo u ->
      exists t', fold_res (fun a t0 => b <- link t0 a ;; c <- follow fuel t0 b ;; set_link t0 a c) todo u = Ok t' /\ Q [] t').
    { induction todo as [|a todo IH]; intros u Hv HQ; cbn [fold_res]; [eauto|].
      destruct HQ as (Q1 & Q2 & Q3 & Q4 & Q5 & Q6).
      assert (Hva : valid u a) by (apply Q1, Hv; now left). destruct Hva as (b & Eb). rewrite Eb. cbn [bind].
      destruct (Q3 a b Eb) as (Hvb & Hdb). destruct (@follow_ok u Q3 fuel b Hvb) as (c & E1 & E2 & E3 & E4); [apply Hm, Q1, Hvb|].
      rewrite E1. cbn [bind]. destruct (@set_link_Ok u a c (ex_intro _ b Eb)) as (u' & Eu & Lu & Hu). rewrite Eu. cbn [bind].
      assert (Hc : c = a \/ mu c < mu a). { destruct E4 as [->|E4], Hdb as [->|Hdb]; auto; right; lia. }
      assert (Hvu : forall a0, valid u' a0 <-> valid u a0).
      { intros a0. unfold valid. rewrite Hu. destruct (pair_eqb a0 a) eqn:E; [apply pair_eqb_eq in E; subst a0|tauto]. split; eauto. }
      assert (Hself : forall a0, link u a0 = Ok a0 <-> link u' a0 = Ok a0).
      { intros a0. rewrite Hu. destruct (pair_eqb a0 a) eqn:E; [apply pair_eqb_eq in E; subst a0|tauto]. split; intros Es.
        - assert (b = a) by congruence. subst b. f_equal. revert E1 Es. clear. destruct fuel; cbn [follow]; [discriminate|].
          intros E1 Es. rewrite Es in E1. cbn [bind] in E1. rewrite (proj2 (pair_eqb_eq a a) eq_refl) in E1. congruence.
        - injection Es as ->. exact E2. }
      apply IH; [intros; apply Hv; now right|]. split; [intros; rewrite Hvu; apply Q1|]. split; [lia|]. split; [|split; [|split]].
      - intros a0 b0 El. rewrite Hu in El. destruct (pair_eqb a0 a) eqn:E.
        + apply pair_eqb_eq in E. subst a0. injection El as <-. split; [apply Hvu; eexists; eauto|auto].
        + destruct (Q3 _ _ El) as (V & D). split; [now apply Hvu|auto].
      - intros a0. rewrite Q4. apply Hself.
      - intros a0 b0 El. rewrite Hu in El. destruct (pair_eqb a0 a) eqn:E; [|auto].
        apply pair_eqb_eq in E. subst a0. injection El as <-. apply leads_trans with b; [auto|].
        clear - E3 Q5. induction E3; [constructor|]. eapply leads_trans; [apply Q5; eauto|auto].
      - intros a0 b0 Hn El. apply Hself. rewrite Hu in El. destruct (pair_eqb a0 a) eqn:E.
        + apply pair_eqb_eq in E. subst a0. injection El as <-. exact E2.
        + apply pair_eqb_neq in E. apply (Q6 a0 b0); auto. intros [Heq|Hin]; [congruence|contradiction]. }
    destruct (G (places t) t) as (t' & E & (R1 & R2 & R3 & R4 & R5 & R6)).
    - intros a Ha. now apply in_places.
    - split; [tauto|]. split; auto. split; auto. split; [tauto|]. split; [intros a b El; eapply leads_step; [exact El|constructor]|].
      intros a b Hn El. exfalso. apply Hn, in_places. eexists; eauto.
    - exists t'. split; auto. split; auto. split; auto. intros a b El. split; [apply (R6 a b); auto|auto].
  Qed.
End Links.

(** ** Numbers *)
Lemma chosen_ok t : exists l, chosen_corners t = Ok l /\ NoDup l /\ forall a, In a l <-> link t a = Ok a.
Proof.
  unfold chosen_corners.
  destruct (@mapr_total _ _ (fun a => b <- link t a ;; Ok (a, pair_eqb b a)) (fun _ _ => True) (places t)) as (l & El & _).
  { intros a Ha. apply in_places in Ha. destruct Ha as (b & ->). cbn [bind]. eauto. }
  rewrite El. cbn [bind]. exists (map fst (filter snd l)). split; auto. apply mapr_Ok in El.
  assert (Em : map fst l = places t).
  { clear - El. induction El as [|a p la lp Hab El IH]; [reflexivity|]. cbn [map]. rewrite IH. f_equal.
    apply bind_Ok_inv in Hab. destruct Hab as (b & _ & E). injection E as <-. reflexivity. }
  assert (Hl : forall p, In p l -> exists b, link t (fst p) = Ok b /\ snd p = pair_eqb b (fst p)).
  { intros p Hp. destruct (@Forall2_In_r _ _ _ _ _ _ El Hp) as (a & _ & E). apply bind_Ok_inv in E. destruct E as (b & E1 & E). injection E as <-.
    exists b. auto. }
  split.
  - assert (ND : NoDup (map fst l)) by (rewrite Em; apply NoDup_places). clear - ND.
    induction l as [|p l IH]; cbn [filter map] in *; [constructor|]. inversion ND as [|? ? Hn ND']; subst.
    destruct (snd p); cbn [map]; auto. constructor; auto. intros H. apply Hn. apply in_map_iff in H. destruct H as (q & E & Hq).
    apply filter_In in Hq. apply in_map_iff. exists q. tauto.
  - intros a. rewrite in_map_iff. split.
    + intros (p & <- & Hp). apply filter_In in Hp. destruct Hp as (Hp & Hs). destruct (Hl p Hp) as (b & Eb & Es). rewrite Hs in Es.
      symmetry in Es. apply pair_eqb_eq in Es. congruence.
    + intros E. assert (Ha : In a (map fst l)) by (rewrite Em; apply in_places; eexists; eauto).
      apply in_map_iff in Ha. destruct Ha as (p & <- & Hp). exists p. split; auto. apply filter_In. split; auto.
      destruct (Hl p Hp) as (b & Eb & ->). apply pair_eqb_eq. congruence.
Qed.
Lemma number_of_ok chosen a k : number_of chosen a = Ok k -> nth_error chosen k = Some a.
Proof.
  unfold number_of, known. destruct (position _ _) as [i|] eqn:E; [|discriminate]. intros Ek. injection Ek as ->.
  apply position_Some in E. destruct E as (b & Eb & Hb & _). apply pair_eqb_eq in Hb. congruence.
Qed.
Lemma number_of_total chosen a : In a chosen -> exists k, number_of chosen a = Ok k.
Proof.
  intros Ha. unfold number_of, known. destruct (position _ _) as [i|] eqn:E; eauto. exfalso. eapply position_None; eauto. now apply pair_eqb_eq.
Qed.

(** ** Sets *)
Lemma set_insert_ok k l : StronglySorted lt l -> StronglySorted lt (set_insert k l) /\ forall a, In a (set_insert k l) <-> a = k \/ In a l.
Proof.
  induction l as [|h t IH]; intros S0; cbn [set_insert]; [split; [repeat constructor|intros a; cbn; intuition]|].
  inversion S0 as [|? ? S1 S2]; subst. destruct (Nat.ltb_spec k h) as [H1|H1].
  - split; [|intros a; cbn; intuition]. constructor; auto. constructor; auto. rewrite Forall_forall in *. intros x Hx. specialize (S2 x Hx). lia.
  - destruct (Nat.eqb_spec k h) as [->|H2]; [split; auto; intros a; cbn; intuition|].
    destruct (IH S1) as (I1 & I2). split.
    + constructor; auto. rewrite Forall_forall in *. intros x Hx. apply I2 in Hx. destruct Hx as [->|Hx]; [lia|auto].
    + intros a. cbn [In]. rewrite I2. intuition.
Qed.
Lemma StronglySorted_lt_NoDup l : StronglySorted lt l -> NoDup l.
Proof. induction 1 as [|a l S0 IH HF]; constructor; auto. intros Hin. rewrite Forall_forall in HF. specialize (HF a Hin). lia. Qed.

Section Walk.
  Context {F : Type} `{Num F}.
  Lemma neighbors_ok (vs : list (vertex F)) : NoDup (neighbors vs) /\ forall k, In k (neighbors vs) <-> exists v, In v vs /\ In k (v_sd v).
  Proof.
    unfold neighbors.
    assert (G : forall l s, StronglySorted lt s -> let r := fold_left (fun s k => set_insert k s) l s in
      StronglySorted lt r /\ forall a, In a r <-> In a l \/ In a s).
    { induction l as [|k l IH]; intros s Hs; cbn [fold_left]; [cbn; split; [auto|tauto]|].
      destruct (@set_insert_ok k s Hs) as (I1 & I2). destruct (IH _ I1) as (I3 & I4). cbn zeta in *. split; auto.
      intros a. rewrite I4, I2. cbn [In]. intuition. }
    destruct (G (flat_map (fun v => v_sd v) vs) [] ltac:(constructor)) as (G1 & G2). cbn zeta in *. split; [now apply StronglySorted_lt_NoDup|].
    intros k. rewrite G2, in_flat_map. cbn [In]. intuition.
  Qed.

  Variables (vs : list (vertex F)) (num : nat -> res nat) (nb : nat).
  Lemma walk_ok : forall fuel first cur iter fc fc', walk fuel vs num nb first cur iter fc = Ok fc' ->
    NoDup fc -> (forall k, In k fc -> exists c, num c = Ok k) ->
    NoDup fc' /\ (forall k, In k fc' -> exists c, num c = Ok k).
  Proof.
    induction fuel as [|fuel IH]; intros first cur iter fc fc' E ND HP; cbn [walk] in E; [discriminate|].
    destruct (_ <? _) in E; [injection E as <-; auto|]. apply bind_Ok_inv in E. destruct E as (id & Eid & E).
    destruct ((2 <? length fc) && (id =? nth 0 fc id)); [injection E as <-; auto|].
    apply bind_Ok_inv in E. destruct E as (v & Ev & E). apply bind_Ok_inv in E. destruct E as (cur' & Ec & E).
    set (fc1 := if existsb (Nat.eqb id) fc then fc else fc ++ [id]) in *.
    assert (H1 : NoDup fc1 /\ forall k, In k fc1 -> exists c, num c = Ok k).
    { unfold fc1. destruct (existsb (Nat.eqb id) fc) eqn:Ex; [auto|]. split.
      - apply NoDup_app_intro; auto; [repeat constructor; intros []|]. intros x Hx [->|[]].
        assert (existsb (Nat.eqb x) fc = true) by (apply existsb_exists; exists x; split; auto; apply Nat.eqb_refl). congruence.
      - intros k Hk. apply in_app_or in Hk. destruct Hk as [Hk|[<-|[]]]; eauto. }
    destruct H1 as (H1 & H2). destruct (cur' =? first); [injection E as <-; auto|]. eapply IH; eauto.
  Qed.
  Variable V : nat.
  Hypothesis Hnum : forall c, c < length vs -> exists k, num c = Ok k /\ k < V.
  Hypothesis Hvs : forall v, In v vs -> length (v_sd v) <= length (v_nb v) /\ forall k, In k (v_nb v) -> k < length vs.
  Lemma walk_total : forall fuel first cur iter fc, cur < length vs -> NoDup fc -> (forall k, In k fc -> k < V) ->
    0 < fuel -> 100 * V + 2 <= iter + fuel -> exists fc', walk fuel vs num nb first cur iter fc = Ok fc'.
  Proof.
    induction fuel as [|fuel IH]; intros first cur iter fc Hc ND HP Hf Hi; [lia|]. cbn [walk].
    destruct (Nat.ltb_spec (100 * length fc) iter) as [Hit|Hit]; [eauto|].
    destruct (@Hnum cur Hc) as (id & Eid & Hid). rewrite Eid. cbn [bind].
    destruct ((2 <? length fc) && (id =? nth 0 fc id)); [eauto|].
    destruct (nth_error vs cur) as [v|] eqn:Ev; [|apply nth_error_None in Ev; lia]. rewrite (get_some Ev). cbn [bind].
    assert (Hin : In v vs) by (eapply nth_error_In; eauto). destruct (@Hvs v Hin) as (H1 & H2).
    assert (Hnx : exists c', next_corner v nb cur = Ok c' /\ c' < length vs).
    { unfold next_corner. destruct (position (Nat.eqb nb) (v_sd v)) as [i|] eqn:Ep; [|eauto].
      apply position_Some in Ep. destruct Ep as (a & Ea & _). assert (i < length (v_sd v)) by (apply nth_error_Some; congruence).
      destruct (nth_error (v_nb v) i) as [c'|] eqn:Ec; [|apply nth_error_None in Ec; lia]. exists c'. split; [now apply get_some|].
      apply H2. eapply nth_error_In; eauto. }
    destruct Hnx as (c' & Ec & Hc'). rewrite Ec. cbn [bind]. destruct (c' =? first); [eauto|].
    assert (HL : length fc <= V).
    { rewrite <- (seq_length V 0). apply NoDup_incl_length; auto. intros k Hk. apply in_seq. specialize (HP k Hk). lia. }
    apply IH; auto; [| |lia|lia].
    - destruct (existsb (Nat.eqb id) fc) eqn:Ex; auto. apply NoDup_app_intro; auto; [repeat constructor; intros []|]. intros x Hx [->|[]].
      assert (existsb (Nat.eqb x) fc = true) by (apply existsb_exists; exists x; split; auto; apply Nat.eqb_refl). congruence.
    - intros k Hk. destruct (existsb (Nat.eqb id) fc); auto. apply in_app_or in Hk. destruct Hk as [Hk|[<-|[]]]; auto.
  Qed.
  Lemma face_total : In nb (neighbors vs) -> exists fc, face_corners_of (100 * V + 2) vs num nb = Ok fc.
  Proof.
    intros Hn. apply neighbors_ok in Hn. destruct Hn as (v & Hv & Hk). unfold face_corners_of.
    destruct (position _ vs) as [c|] eqn:Ep.
    - apply position_Some in Ep. destruct Ep as (a & Ea & _).
      apply walk_total; [apply nth_error_Some; congruence|constructor|intros k []|lia|lia].
    - exfalso. eapply position_None; [exact Ep|exact Hv|]. apply existsb_exists. exists nb. split; auto. apply Nat.eqb_refl.
  Qed.
End Walk.

(** ** The two passes *)
Section Passes.
  Context {F : Type} `{Num F}.
  Variables (regs : list nat) (cells : list (cell F)) (fuel : nat) (num : nat -> nat -> res nat).
  Definition here (i nb : nat) : bool := negb ((nb <? i) && negb (nth nb regs 0 =? 0)).
  Definition rows_of (i : nat) : list nat :=
    if nth i regs 0 =? 0 then []
    else match nth i cells None with Some vs => filter (here i) (neighbors vs) | None => [] end.
  Definition jobs : list (nat * nat) := flat_map (fun '(i, k) => map (pair i) (rows_of k)) (map (fun i => (i, i)) (seq 0 (length cells))).
  Definition corners_at (p : nat * nat) : list nat :=
    match nth (fst p) cells None with
    | Some vs => match face_corners_of fuel vs (num (fst p)) (snd p) with Ok fc => fc | _ => [] end
    | None => []
    end.
  Definition big (p : nat * nat) : bool := 3 <=? length (corners_at p).
  Definition row_of (p : nat * nat) : list nat := length (corners_at p) :: corners_at p ++ [fst p; snd p].

  Lemma NoDup_jobs : NoDup jobs.
  Proof.
    unfold jobs. apply (@NoDup_flat_pairs _ rows_of).
    - rewrite map_map. cbn [fst]. rewrite map_id. apply seq_NoDup.
    - intros p _. unfold rows_of. destruct (_ =? 0); [constructor|]. destruct (nth _ cells None) as [vs|]; [|constructor].
      apply NoDup_filter, neighbors_ok.
  Qed.
  Lemma in_jobs i j : In (i, j) jobs <-> i < length cells /\ nth i regs 0 <> 0 /\ (exists vs, nth i cells None = Some vs /\ In j (neighbors vs))
    /\ (nth j regs 0 = 0 \/ i <= j).
  Proof using regs cells.
    clear num. unfold jobs. rewrite in_flat_map. split.
    - intros ([i' k] & H1 & H2). apply in_map_iff in H1. destruct H1 as (k' & E & H1). injection E as -> ->. apply in_seq in H1.
      apply in_map_iff in H2. destruct H2 as (j' & E & H2). injection E as -> ->. unfold rows_of in H2.
      destruct (Nat.eqb_spec (nth i regs 0) 0) as [|Hr]; [destruct H2|]. destruct (nth i cells None) as [vs|] eqn:Ev; [|destruct H2].
      apply filter_In in H2. destruct H2 as (H2 & H3). split; [lia|]. split; [auto|]. split; [eauto|]. unfold here in H3.
      destruct (Nat.ltb_spec j i); [|right; lia]. destruct (Nat.eqb_spec (nth j regs 0) 0); [now left|discriminate].
    - intros (H1 & H2 & (vs & Ev & H3) & H4). exists (i, i). split; [apply in_map_iff; exists i; split; auto; apply in_seq; lia|].
      apply in_map. unfold rows_of. destruct (Nat.eqb_spec (nth i regs 0) 0); [contradiction|]. rewrite Ev. apply filter_In. split; auto.
      unfold here. destruct (Nat.ltb_spec j i); auto. destruct (Nat.eqb_spec (nth j regs 0) 0); auto. destruct H4; [contradiction|lia].
  Qed.

  Hypothesis Hlen : length cells = length regs.
  Hypothesis Hcells : forall i, i < length cells -> nth i regs 0 <> 0 -> exists vs, nth i cells None = Some vs
    /\ forall nb, In nb (neighbors vs) -> nb < length cells /\ exists fc, face_corners_of fuel vs (num i) nb = Ok fc.
  Lemma corners_at_ok i j vs : In (i, j) jobs -> nth i cells None = Some vs -> face_corners_of fuel vs (num i) j = Ok (corners_at (i, j)).
  Proof.
    intros Hj Ev. apply in_jobs in Hj. destruct Hj as (H1 & H2 & (vs' & Ev' & H3) & _). destruct (Hcells H1 H2) as (vs'' & Ev'' & Hf).
    assert (vs' = vs) by congruence. assert (vs'' = vs) by congruence. subst. destruct (Hf j H3) as (_ & fc & Efc).
    unfold corners_at. cbn [fst snd]. rewrite Ev, Efc. reflexivity.
  Qed.
  Lemma fold_res_app {A S} (f : A -> S -> res S) l m s : fold_res f (l ++ m) s = bind (fold_res f l s) (fold_res f m).
  Proof. revert s. induction l as [|a l IH]; intros s; cbn [app fold_res]; [reflexivity|]. destruct (f a s); cbn [bind]; auto. Qed.
  Lemma each_face_jobs {S} (emit : nat -> nat -> list nat -> S -> res S) s :
    each_face fuel regs cells num emit s = fold_res (fun p s => emit (fst p) (snd p) (corners_at p) s) jobs s.
  Proof.
    unfold each_face, jobs.
    assert (G : forall is, (forall i, In i is -> i < length cells) -> forall s,
      fold_res (fun i s => r <- get regs i ;;
        if r =? 0 then Ok s
        else vs <- cell_of cells i ;;
             fold_res (fun nb s => e <- face_elsewhere regs i nb ;;
               if (e : bool) then Ok s else fc <- face_corners_of fuel vs (num i) nb ;; emit i nb fc s) (neighbors vs) s) is s
      = fold_res (fun p s => emit (fst p) (snd p) (corners_at p) s) (flat_map (fun '(i, k) => map (pair i) (rows_of k)) (map (fun i => (i, i)) is)) s).
    { induction is as [|i is IH]; intros Hi s0; cbn [fold_res map flat_map]; [reflexivity|].
      assert (Hil : i < length cells) by (apply Hi; now left).
      rewrite fold_res_app. rewrite (@get_nth _ regs i 0) by lia. cbn [bind].
      match goal with |- bind ?a _ = bind ?b _ => assert (E : a = b) end.
      2:{ rewrite E. match goal with |- bind ?b _ = _ => destruct b as [s1| |] end; cbn [bind]; auto. apply IH. intros; apply Hi; now right. }
      unfold rows_of. destruct (Nat.eqb_spec (nth i regs 0) 0) as [|Hr]; [reflexivity|].
      destruct (Hcells Hil Hr) as (vs & Ev & Hf). unfold cell_of. rewrite (@get_nth _ cells i None) by auto. cbn [bind]. rewrite Ev. cbn [bind].
      assert (Hinc : forall nb, In nb (neighbors vs) -> In nb (neighbors vs)) by auto. revert Hinc. generalize (neighbors vs) at 1 3 4. intros nbs.
      revert s0. induction nbs as [|nb nbs IHn]; intros s0 Hinc; [reflexivity|]. cbn [fold_res filter].
      destruct (Hf nb) as (Hnb & fc & Efc); [apply Hinc; now left|]. unfold face_elsewhere, here at 1.
      assert (EC : corners_at (i, nb) = fc) by (unfold corners_at; cbn [fst snd]; rewrite Ev, Efc; reflexivity).
      destruct (nb <? i) eqn:El; cbn [andb negb].
      - rewrite (@get_nth _ regs nb 0) by lia. cbn [bind]. destruct (nth nb regs 0 =? 0); cbn [negb map fold_res].
        + rewrite Efc. cbn [bind fst snd]. rewrite EC. destruct (emit i nb fc s0); cbn [bind]; auto. apply IHn. intros; apply Hinc; now right.
        + cbn [bind]. apply IHn. intros; apply Hinc; now right.
      - cbn [bind map fold_res]. rewrite Efc. cbn [bind fst snd]. rewrite EC. destruct (emit i nb fc s0); cbn [bind]; auto. apply IHn. intros; apply Hinc; now right. }
    apply G. intros i Hi. apply in_seq in Hi. lia.
  Qed.
  Lemma count_ok : count_faces fuel regs cells num = Ok (length (filter big jobs)).
  Proof.
    unfold count_faces. rewrite each_face_jobs.
    assert (G : forall l k, fold_res (fun p s => Ok (if 3 <=? length (corners_at p) then S s else s)) l k = Ok (k + length (filter big l))).
    { induction l as [|p l IH]; intros k; cbn [fold_res filter]; [cbn [length]; f_equal; lia|]. cbn [bind]. rewrite IH. unfold big at 2.
      destruct (3 <=? _); cbn [length]; f_equal; lia. }
    rewrite G. reflexivity.
  Qed.
  Lemma fill_ok : fill_faces fuel regs cells num (length (filter big jobs)) = Ok (map row_of (filter big jobs)).
  Proof.
    unfold fill_faces. rewrite each_face_jobs.
    assert (G : forall l done n, n = length done + length (filter big l) ->
      fold_res (fun p faces => if 3 <=? length (corners_at p) then
          if length faces <? n then Ok (faces ++ [length (corners_at p) :: corners_at p ++ [fst p; snd p]]) else UB else Ok faces) l done
      = Ok (done ++ map row_of (filter big l))).
    { induction l as [|p l IH]; intros done n En; cbn [fold_res filter map]; [now rewrite app_nil_r|]. cbn [filter] in En. unfold big at 1 in En.
      unfold big at 1. destruct (3 <=? _).
      - cbn [length] in En. destruct (Nat.ltb_spec (length done) n); [|lia]. cbn [bind]. rewrite IH by (rewrite app_length; cbn [length]; lia).
        cbn [map]. rewrite <- app_assoc. reflexivity.
      - cbn [bind]. apply IH. auto. }
    apply (G jobs [] _ eq_refl).
  Qed.
End Passes.

(** ** Agreement, for any cells *)
(** What a counting step and a filling step, given the room, have in common. *)
Definition agrees {A S} (size : S -> nat) (f : A -> nat -> res nat) (g : nat -> A -> S -> res S) : Prop :=
  forall a k k', f a k = Ok k' -> k <= k' /\ forall room s, k' <= room -> size s = k -> exists s', g room a s = Ok s' /\ size s' = k'.
Lemma agrees_fold {A S} (size : S -> nat) (f : A -> nat -> res nat) (g : nat -> A -> S -> res S) : agrees size f g ->
  agrees size (fold_res f) (fun room => fold_res (g room)).
Proof.
  intros HA. intros l. induction l as [|a l IH]; intros k k' E; cbn [fold_res] in *.
  - injection E as <-. split; [lia|]. eauto.
  - apply bind_Ok_inv in E. destruct E as (k1 & E1 & E). destruct (HA a k k1 E1) as (H1 & H2). destruct (IH k1 k' E) as (H3 & H4). split; [lia|].
    intros room s Hr Hs. destruct (H2 room s ltac:(lia) Hs) as (s1 & E2 & Hs1). destruct (H4 room s1 Hr Hs1) as (s' & E3 & Hs').
    exists s'. rewrite E2. cbn [bind]. auto.
Qed.
Lemma passes_agree {F} `{Num F} fuel regs (cells : list (cell F)) num n :
  count_faces fuel regs cells num = Ok n -> exists faces, fill_faces fuel regs cells num n = Ok faces /\ length faces = n.
Proof.
  unfold count_faces, fill_faces, each_face. intros E.
  match type of E with fold_res ?g ?l _ = _ => set (f := g) in E; set (is := l) in * end.
  set (g := fun (room i : nat) (faces : list (list nat)) =>
    r <- get regs i ;;
    if r =? 0 then Ok faces
    else vs <- cell_of cells i ;;
      fold_res (fun nb s => e <- face_elsewhere regs i nb ;;
        if (e : bool) then Ok s
        else fc <- face_corners_of fuel vs (num i) nb ;;
          if 3 <=? length fc then if length s <? room then Ok (s ++ [length fc :: fc ++ [i; nb]]) else UB else Ok s) (neighbors vs) faces).
  assert (HA : agrees (@length (list nat)) f g).
  { intros i k k' Ei. unfold f, g in *. destruct (get regs i) as [r| |]; cbn [bind] in *; try discriminate.
    destruct (r =? 0); [injection Ei as <-; split; [lia|]; eauto|].
    destruct (cell_of cells i) as [vs| |]; cbn [bind] in *; try discriminate.
    refine (@agrees_fold nat (list (list nat)) (@length (list nat)) _ (fun room nb s => e <- face_elsewhere regs i nb ;;
        if (e : bool) then Ok s
        else fc <- face_corners_of fuel vs (num i) nb ;;
          if 3 <=? length fc then if length s <? room then Ok (s ++ [length fc :: fc ++ [i; nb]]) else UB else Ok s) _ (neighbors vs) k k' Ei).
    clear. intros nb k k' E. destruct (face_elsewhere regs i nb) as [e| |]; cbn [bind] in *; try discriminate.
    destruct e; [injection E as <-; split; [lia|]; eauto|].
    destruct (face_corners_of fuel vs (num i) nb) as [fc| |]; cbn [bind] in *; try discriminate.
    destruct (3 <=? length fc); injection E as <-; (split; [lia|]); [|eauto]. intros room s Hr Hs.
    destruct (Nat.ltb_spec (length s) room); [|lia]. eexists. split; [reflexivity|]. rewrite app_length. cbn [length]. lia. }
  destruct (@agrees_fold _ _ _ f g HA is 0 n E) as (_ & G). destruct (G n [] (le_n _) eq_refl) as (faces & Ef & Lf). exists faces. auto.
Qed.

(** ** Completeness *)
Lemma fold_res_keeps {A S} (P : S -> Prop) (f : A -> S -> res S) : (forall b s s', f b s = Ok s' -> P s -> P s') ->
  forall l s s', fold_res f l s = Ok s' -> P s -> P s'.
Proof.
  intros Hk. induction l as [|b l IH]; intros s s' E Ps; cbn [fold_res] in E; [injection E as <-; auto|].
  apply bind_Ok_inv in E. destruct E as (s1 & E1 & E). eauto.
Qed.
Lemma fold_res_visits {A S} (P : S -> Prop) (f : A -> S -> res S) a : (forall b s s', f b s = Ok s' -> P s -> P s') ->
  (forall s s', f a s = Ok s' -> P s') -> forall l s s', In a l -> fold_res f l s = Ok s' -> P s'.
Proof.
  intros Hk Ha. induction l as [|b l IH]; intros s s' Hin E; [destruct Hin|]. cbn [fold_res] in E.
  apply bind_Ok_inv in E. destruct E as (s1 & E1 & E). destruct Hin as [->|Hin]; [|eauto]. apply (@fold_res_keeps _ _ P f Hk l s1 s' E). eauto.
Qed.
Lemma fill_complete {F} `{Num F} fuel regs (cells : list (cell F)) num n faces i vs v j fc :
  fill_faces fuel regs cells num n = Ok faces -> nth_error cells i = Some (Some vs) -> nth i regs 0 <> 0 ->
  In v vs -> In j (v_sd v) -> (nth j regs 0 = 0 \/ i <= j) ->
  face_corners_of fuel vs (num i) j = Ok fc -> 3 <= length fc -> In (length fc :: fc ++ [i; j]) faces.
Proof.
  intros E Ei Hi Hv Hj Ho Ef L3. unfold fill_faces, each_face in E.
  set (P := fun faces : list (list nat) => In (length fc :: fc ++ [i; j]) faces).
  assert (K : forall i0 (vs0 : list (vertex F)) nb s s', (e <- face_elsewhere regs i0 nb ;;
     if (e : bool) then Ok s
     else fc0 <- face_corners_of fuel vs0 (num i0) nb ;;
       if 3 <=? length fc0 then if length s <? n then Ok (s ++ [length fc0 :: fc0 ++ [i0; nb]]) else UB else Ok s) = Ok s' -> P s -> P s').
  { intros i0 vs0 nb s s' Es Ps. apply bind_Ok_inv in Es. destruct Es as (e & _ & Es). destruct e; [injection Es as <-; auto|].
    apply bind_Ok_inv in Es. destruct Es as (fc0 & _ & Es). destruct (3 <=? _); [|injection Es as <-; auto].
    destruct (_ <? n); [|discriminate]. injection Es as <-. unfold P. apply in_or_app. now left. }
  assert (Hlt : i < length cells) by (apply nth_error_Some; rewrite Ei; discriminate).
  refine (@fold_res_visits _ _ P _ i _ _ _ _ _ _ E); [| |apply in_seq; lia].
  - intros i0 s s' Es Ps. apply bind_Ok_inv in Es. destruct Es as (r & _ & Es). destruct (r =? 0); [injection Es as <-; auto|].
    apply bind_Ok_inv in Es. destruct Es as (vs0 & _ & Es). refine (@fold_res_keeps _ _ P _ _ _ _ _ Es Ps). intros nb. apply K.
  - intros s s' Es. apply bind_Ok_inv in Es. destruct Es as (r & Er & Es). apply get_Ok in Er. apply nth_error_nth with (d := 0) in Er. subst r.
    destruct (Nat.eqb_spec (nth i regs 0) 0); [contradiction|]. unfold cell_of in Es. rewrite (get_some Ei) in Es. cbn [bind] in Es.
    refine (@fold_res_visits _ _ P _ j _ _ _ _ _ _ Es); [intros nb; apply K| |apply neighbors_ok; eauto].
    intros s0 s1 E1. apply bind_Ok_inv in E1. destruct E1 as (e & Ee & E1). assert (e = false).
    { unfold face_elsewhere in Ee. destruct (Nat.ltb_spec j i); [|congruence]. apply bind_Ok_inv in Ee. destruct Ee as (r & Er & Ee).
      apply get_Ok in Er. apply nth_error_nth with (d := 0) in Er. subst r. destruct Ho as [Ho|Ho]; [|lia]. rewrite Ho in Ee. cbn in Ee. congruence. }
    subst e. rewrite Ef in E1. cbn [bind] in E1. destruct (Nat.leb_spec 3 (length fc)); [|lia]. destruct (_ <? n); [|discriminate].
    injection E1 as <-. unfold P. apply in_or_app. right. now left.
Qed.
