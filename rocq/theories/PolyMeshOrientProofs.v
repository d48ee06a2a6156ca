(** Proofs about the orientation of faces. *)
From Verif Require Import Base PolyMesh PolyMeshSpec PolyMeshProofs.

Lemma runs3 a b c x y : runs [a; b; c] x y <-> (x = a /\ y = b) \/ (x = b /\ y = c) \/ (x = c /\ y = a).
Proof.
  unfold runs. simpl length. split.
  - intros (j & Hj & E1 & E2). destruct j as [|[|[|]]]; cbn in E1, E2; try lia;
      injection E1 as <-; injection E2 as <-; auto.
  - intros [(-> & ->)|[(-> & ->)|(-> & ->)]]; [exists 0|exists 1|exists 2]; cbn; repeat split; auto; lia.
Qed.

Definition same_orient (f g : list nat) : Prop := forall x y, runs f x y <-> runs g x y.
Definition opp_orient (f g : list nat) : Prop := forall x y, runs f x y <-> runs g y x.

Lemma triple (f : list nat) : length f = 3 -> exists a b c, f = [a; b; c].
Proof. intros H. destruct f as [|a [|b [|c [|]]]]; try discriminate. eauto. Qed.

Lemma nodup3 (a b c : nat) : NoDup [a; b; c] <-> a <> b /\ b <> c /\ c <> a.
Proof.
  split.
  - intros H. apply NoDup_cons_iff in H as (H1 & H). apply NoDup_cons_iff in H as (H2 & _). simpl in *. intuition.
  - intros (H1 & H2 & H3). repeat constructor; simpl; intuition.
Qed.

Lemma runs_in f x y : runs f x y -> In x f /\ In y f.
Proof.
  intros (j & Hj & E1 & E2). split; eapply nth_error_In; eauto.
Qed.
Lemma runs_ne f x y : length f = 3 -> NoDup f -> runs f x y -> x <> y /\ ~ runs f y x.
Proof.
  intros H3 Hn Hr. destruct (triple _ H3) as (a & b & c & ->). apply nodup3 in Hn.
  rewrite runs3 in *. split; [|intros H']; intuition congruence.
Qed.
Lemma runs_total f x y : length f = 3 -> NoDup f -> In x f -> In y f -> x <> y -> runs f x y \/ runs f y x.
Proof.
  intros H3 Hn Hx Hy Hxy. destruct (triple _ H3) as (a & b & c & ->). rewrite !runs3.
  simpl in Hx, Hy. intuition congruence.
Qed.

Lemma two_orders f g : length f = 3 -> NoDup f -> Permutation f g -> same_orient f g \/ opp_orient f g.
Proof.
  intros H3 Hn Hp. pose proof (Permutation_length Hp) as L. rewrite H3 in L. symmetry in L.
  assert (Hn' : NoDup g) by (eapply Permutation_NoDup; eauto).
  destruct (triple _ H3) as (a & b & c & ->). destruct (triple _ L) as (x & y & z & ->).
  apply nodup3 in Hn, Hn'.
  assert (Hx : In x [a; b; c]) by (eapply Permutation_in; [symmetry; exact Hp|simpl; auto]).
  assert (Hy : In y [a; b; c]) by (eapply Permutation_in; [symmetry; exact Hp|simpl; auto]).
  assert (Hz : In z [a; b; c]) by (eapply Permutation_in; [symmetry; exact Hp|simpl; auto]).
  unfold same_orient, opp_orient. clear Hp.
  destruct Hx as [<-|[<-|[<-|[]]]], Hy as [<-|[<-|[<-|[]]]], Hz as [<-|[<-|[<-|[]]]]; try lia;
    (left; intros u v; rewrite !runs3; tauto) || (right; intros u v; rewrite !runs3; tauto).
Qed.

(** Two orders that agree on one edge agree. *)
Lemma agree_on_edge f g x y : length f = 3 -> NoDup f -> Permutation f g -> runs f x y -> runs g x y -> same_orient f g.
Proof.
  intros H3 Hn Hp Hf Hg. destruct (two_orders H3 Hn Hp) as [H|H]; auto.
  exfalso. apply H in Hf. assert (L : length g = 3) by (now rewrite <- (Permutation_length Hp)).
  assert (NoDup g) by (eapply Permutation_NoDup; eauto). destruct (@runs_ne g x y L H0 Hg). auto.
Qed.

Lemma flip_ok pi pj f : length f = 3 -> NoDup f ->
  exists o, flip_shared pi pj f [0; 1; 2] = Ok o /\
    match o with
    | None => ~ runs f pi pj
    | Some g => runs f pi pj /\ Permutation f g /\ opp_orient f g
    end.
Proof.
  intros H3 Hn. destruct (triple _ H3) as (a & b & c & ->). apply nodup3 in Hn.
  cbn [flip_shared get nth_error bind wrap3 Nat.eqb].
  destruct ((a =? pi) && (b =? pj)) eqn:E1.
  { apply andb_true_iff in E1 as (E1 & E1'). apply Nat.eqb_eq in E1, E1'. subst.
    exists (Some [pj; pi; c]). split; [reflexivity|]. rewrite runs3. split; [tauto|]. split; [constructor|].
    intros x y. rewrite !runs3. tauto. }
  destruct ((b =? pi) && (c =? pj)) eqn:E2.
  { apply andb_true_iff in E2 as (E2 & E2'). apply Nat.eqb_eq in E2, E2'. subst.
    exists (Some [a; pj; pi]). split; [reflexivity|]. rewrite runs3. split; [tauto|]. split; [do 2 constructor|].
    intros x y. rewrite !runs3. tauto. }
  destruct ((c =? pi) && (a =? pj)) eqn:E3.
  { apply andb_true_iff in E3 as (E3 & E3'). apply Nat.eqb_eq in E3, E3'. subst.
    exists (Some [pi; b; pj]). split; [reflexivity|]. rewrite runs3. split; [tauto|]. split.
    - change (Permutation [pj; b; pi] [pi; b; pj]). transitivity [b; pj; pi]; [constructor|].
      transitivity [b; pi; pj]; [do 2 constructor|]. constructor.
    - intros x y. rewrite !runs3. tauto. }
  exists None. split; [reflexivity|]. rewrite runs3.
  apply andb_false_iff in E1, E2, E3. rewrite !Nat.eqb_neq in *. intuition congruence.
Qed.

Lemma fold_res_cons {A St} (f : A -> St -> res St) a l s : fold_res f (a :: l) s = (s' <- f a s ;; fold_res f l s').
Proof. reflexivity. Qed.

(** ** Same corners *)
Lemma same_corners_refl faces : same_corners faces faces.
Proof. split; auto. intros i f f' E1 E2. assert (f = f') by congruence. subst. reflexivity. Qed.
Lemma same_corners_sym faces faces' : same_corners faces faces' -> same_corners faces' faces.
Proof. intros (L & H). split; auto. intros i f f' E1 E2. symmetry. eauto. Qed.
Lemma same_corners_nth faces faces' i : same_corners faces faces' -> Permutation (nth i faces []) (nth i faces' []).
Proof.
  intros (L & H). destruct (lt_dec i (length faces)) as [Hi|Hi].
  - apply (H i); apply nth_error_nth'; lia.
  - rewrite !nth_overflow by lia. reflexivity.
Qed.
Lemma same_corners_trans a b c : same_corners a b -> same_corners b c -> same_corners a c.
Proof.
  intros H1 H2. pose proof H1 as (L1 & _). pose proof H2 as (L2 & _). split; [congruence|].
  intros i f f' E1 E2. apply nth_error_nth with (d := []) in E1, E2. subst.
  etransitivity; apply same_corners_nth; eauto.
Qed.
Lemma existsb_perm (f : nat -> bool) l l' : Permutation l l' -> existsb f l = existsb f l'.
Proof. induction 1; simpl; auto; try congruence. rewrite !orb_assoc. f_equal. apply orb_comm. Qed.
Lemma same_corners_with faces faces' a b : same_corners faces faces' -> faces_with faces a b = faces_with faces' a b.
Proof.
  intros (L & H). unfold faces_with. rewrite <- L. apply filter_ext. intros i.
  pose proof (@same_corners_nth faces faces' i (conj L H)) as Hp.
  now rewrite (existsb_perm _ Hp), (existsb_perm (Nat.eqb b) Hp).
Qed.
Lemma same_corners_at faces faces' p : same_corners faces faces' -> faces_at faces p = faces_at faces' p.
Proof.
  intros (L & H). unfold faces_at. rewrite <- L. apply flat_map_ext. intros i.
  pose proof (@same_corners_nth faces faces' i (conj L H)) as Hp.
  f_equal. now apply Permutation_count_occ.
Qed.
Lemma same_corners_proper n faces faces' : same_corners faces faces' -> proper_triangles n faces -> proper_triangles n faces'.
Proof.
  intros H (Ht & Hn). pose proof H as (L & _).
  assert (G : forall f, In f faces' -> exists g, In g faces /\ Permutation g f).
  { intros f Hf. apply In_nth with (d := []) in Hf as (i & Hi & <-). exists (nth i faces []).
    split; [apply nth_In; lia|now apply same_corners_nth]. }
  split.
  - intros f Hf. destruct (G f Hf) as (g & Hg & Hp). destruct (Ht g Hg) as (L3 & Hc).
    split; [now rewrite <- (Permutation_length Hp)|]. intros c Hcf. apply Hc. eapply Permutation_in; [symmetry; eauto|auto].
  - intros f Hf. destruct (G f Hf) as (g & Hg & Hp). eapply Permutation_NoDup; eauto.
Qed.
Lemma upd_same {A} (l : list A) i a : nth_error l i = Some a -> upd l i a = l.
Proof.
  intros H. apply list_ext. intros k. rewrite upd_nth. destruct (Nat.eqb_spec k i) as [->|]; simpl; auto.
  destruct (i <? length l); auto.
Qed.
Lemma same_corners_upd faces faces' i g g' : same_corners faces faces' -> nth_error faces' i = Some g ->
  Permutation g g' -> same_corners faces (upd faces' i g').
Proof.
  intros (L & H) E Hp. split; [now rewrite upd_length|]. intros j f f' E1 E2. rewrite upd_nth in E2.
  destruct (Nat.eqb_spec j i) as [->|Hn]; simpl in E2.
  - pose proof (nth_error_Some_lt _ _ E) as Hi. apply Nat.ltb_lt in Hi. rewrite Hi in E2. injection E2 as <-.
    transitivity g; eauto.
  - eauto.
Qed.

Lemma wrap3_next f i : length f = 3 -> i < 3 -> wrap3 i = next_corner f i.
Proof. intros H Hi. unfold wrap3, next_corner. rewrite H. destruct i as [|[|[|]]]; auto; lia. Qed.

Section Orient.
  Variables (n : nat) (faces0 pf : list (list nat)).
  Hypothesis Hp0 : proper_triangles n faces0.
  Hypothesis Lpf : length pf = n.
  Hypothesis Hpf : forall p, p < n -> nth p pf [] = faces_at faces0 p.

  Definition I0 (st : ostate) : Prop :=
    same_corners faces0 (fst (fst st)) /\ length (snd (fst st)) = length faces0.

  (** What the visit of the edge from pi to pj of a face does. *)
  Definition edge_step (iface pi pj : nat) (st st' : ostate) : Prop :=
    let '(faces, fixed, done) := st in
    (length (faces_with faces0 pi pj) <> 2 /\ st' = st)
    \/ exists j g, length (faces_with faces0 pi pj) = 2 /\ j <> iface /\ In j (faces_with faces0 pi pj)
         /\ (forall k, In k (faces_with faces0 pi pj) -> k = iface \/ k = j)
         /\ nth_error faces j = Some g
         /\ ((nth_error fixed j = Some true /\ st' = st)
             \/ (nth_error fixed j = Some false /\ exists g' done', st' = (upd faces j g', upd fixed j true, done')
                   /\ Permutation g g' /\ runs g' pj pi
                   /\ ((g' = g /\ done' = done /\ ~ runs g pi pj) \/ (runs g pi pj /\ done' = false)))).

  Lemma orient_edge_ok st iface i f pi pj : I0 st -> i < 3 -> nth_error (fst (fst st)) iface = Some f ->
    nth_error f i = Some pi -> nth_error f (wrap3 i) = Some pj ->
    exists st', orient_edge pf iface i st = Ok st' /\ I0 st' /\ edge_step iface pi pj st st'.
  Proof.
    destruct st as ((faces & fixed) & done). intros (Hs & Lf) Hi Ef E1 E2. cbn [fst snd] in *.
    pose proof (same_corners_proper Hs Hp0) as Hp. pose proof Hp as (Ht & Hn).
    pose proof (nth_error_In _ _ Ef) as Hf. destruct (Ht f Hf) as (H3 & Hc). specialize (Hn f Hf) as Hnf.
    assert (Hr : runs f pi pj).
    { exists i. split; [lia|]. split; auto. rewrite (wrap3_next _ H3 Hi) in E2. exact E2. }
    destruct (runs_in Hr) as (Hpi & Hpj). destruct (runs_ne H3 Hnf Hr) as (Hne & _).
    assert (Lp : length pf = n) by auto.
    assert (Hpf' : forall p, p < n -> nth p pf [] = faces_at faces p).
    { intros p Hlt. rewrite Hpf by auto. now apply same_corners_at. }
    destruct (@edge_exact n faces pf pi pj Hp Lp Hpf' (Hc _ Hpi) Hne) as (G1 & G2).
    unfold orient_edge. rewrite (get_some Ef). cbn [bind]. rewrite (get_some E1), (get_some E2). cbn [bind].
    rewrite G1. cbn [bind]. rewrite <- (same_corners_with pi pj Hs) in *.
    unfold edge_step.
    destruct (Nat.eqb_spec (length (faces_with faces0 pi pj)) 2) as [E|E]; cbn [negb].
    2:{ eexists. split; [reflexivity|]. split; [split; auto|]. left. auto. }
    rewrite G2. cbn [bind].
    destruct (faces_with faces0 pi pj) as [|j1 [|j2 [|]]] eqn:EW; try discriminate.
    assert (Hjj : j1 <> j2).
    { assert (Hnd : NoDup (faces_with faces0 pi pj)) by apply NoDup_filter, seq_NoDup. rewrite EW in Hnd.
      apply NoDup_cons_iff in Hnd as (Hx & _). simpl in Hx. intuition. }
    assert (Hif : In iface [j1; j2]).
    { rewrite <- EW. rewrite (same_corners_with pi pj Hs). apply faces_with_in.
      split; [apply nth_error_Some_lt in Ef; auto|]. rewrite (nth_error_nth _ _ _ Ef). auto. }
    cbn [get nth_error bind].
    assert (Hj : exists j, (if j1 =? iface then Ok j2 else Ok j1) = Ok j /\ j <> iface /\ In j [j1; j2]
      /\ (forall k, In k [j1; j2] -> k = iface \/ k = j)).
    { destruct (Nat.eqb_spec j1 iface) as [->|Hj1].
      - exists j2. split; auto. split; auto. split; [simpl; auto|]. intros k [<-|[<-|[]]]; auto.
      - exists j1. split; auto. split; auto. split; [simpl; auto|]. destruct Hif as [?|[<-|[]]]; [congruence|].
        intros k [<-|[<-|[]]]; auto. }
    destruct Hj as (j & Ej & Hji & Hjin & Hjall). rewrite Ej. cbn [bind].
    assert (Hjb : j < length faces /\ In pi (nth j faces []) /\ In pj (nth j faces [])).
    { rewrite <- EW, (same_corners_with pi pj Hs) in Hjin. apply faces_with_in in Hjin. auto. }
    destruct Hjb as (Hjl & Hgi & Hgj). destruct (nth_error_lt faces Hjl) as (g & Eg).
    rewrite (nth_error_nth _ _ _ Eg) in Hgi, Hgj.
    assert (Hjf : j < length fixed) by (destruct Hs as (L & _); lia).
    destruct (nth_error_lt fixed Hjf) as (b & Eb). rewrite (get_some Eb). cbn [bind]. destruct b.
    { eexists. split; [reflexivity|]. split; [split; auto|]. right. exists j, g. do 4 (split; [solve [auto]|]). split; auto. }
    rewrite (get_some Eg). cbn [bind]. pose proof (nth_error_In _ _ Eg) as Hgin.
    destruct (Ht g Hgin) as (G3 & _). specialize (Hn g Hgin) as Hng.
    destruct (@flip_ok pi pj g G3 Hng) as (o & Eo & Ho). rewrite Eo. cbn [bind]. rewrite set_Ok by auto. cbn [bind].
    destruct o as [g'|].
    - destruct Ho as (Hr' & Hpm & Hopp). rewrite set_Ok by auto. cbn [bind]. eexists. split; [reflexivity|].
      split; [split; [eapply same_corners_upd; eauto|cbn; now rewrite upd_length]|].
      right. exists j, g. do 5 (split; [solve [auto]|]). right. split; [solve [auto]|].
      exists g', false. split; [auto|]. split; [auto|]. split; [apply Hopp; auto|]. right. auto.
    - eexists. split; [reflexivity|]. split; [split; [auto|cbn; now rewrite upd_length]|].
      right. exists j, g. do 5 (split; [solve [auto]|]). right. split; [solve [auto]|].
      exists g, done. rewrite (upd_same _ _ Eg). split; [auto|]. split; [auto|]. split.
      + destruct (@runs_total g pi pj G3 Hng Hgi Hgj Hne); [tauto|auto].
      + left. auto.
  Qed.

  (** An invariant of the visits of the edges of a fixed face is one of the sweep. *)
  Lemma face_inv (P : ostate -> Prop) st iface : I0 st -> P st -> iface < length faces0 ->
    (forall st st' f pi pj, I0 st -> P st -> nth_error (fst (fst st)) iface = Some f -> runs f pi pj ->
       edge_step iface pi pj st st' -> P st') ->
    exists st', fold_res (orient_edge pf iface) [0; 1; 2] st = Ok st' /\ I0 st' /\ P st'.
  Proof.
    intros H0 HP Hi Hstep.
    assert (G : forall l st, (forall i, In i l -> i < 3) -> I0 st -> P st ->
      exists st', fold_res (orient_edge pf iface) l st = Ok st' /\ I0 st' /\ P st').
    2:{ apply G; auto. simpl. intuition lia. }
    clear st H0 HP. induction l as [|i l IH]; intros st Hl H0 HP; cbn [fold_res].
    - exists st. auto.
    - assert (Hlt : iface < length (fst (fst st))) by (destruct H0 as ((L & _) & _); lia).
      destruct (nth_error_lt _ Hlt) as (f & Ef).
      pose proof (same_corners_proper (proj1 H0) Hp0) as (Ht & _).
      destruct (Ht f (nth_error_In _ _ Ef)) as (H3 & _).
      assert (Hi3 : i < 3) by (apply Hl; left; auto).
      destruct (nth_error_lt f (i := i)) as (pi & E1); [lia|].
      destruct (nth_error_lt f (i := wrap3 i)) as (pj & E2).
      { rewrite (wrap3_next _ H3 Hi3). apply next_corner_lt. lia. }
      destruct (@orient_edge_ok st iface i f pi pj H0 Hi3 Ef E1 E2) as (st' & E & H0' & Hst).
      rewrite E. cbn [bind]. apply IH; auto. { intros; apply Hl; right; auto. }
      apply (Hstep st st' f pi pj); auto. exists i. split; [lia|]. split; auto. now rewrite (wrap3_next _ H3 Hi3) in E2.
  Qed.

  Lemma sweep_inv (P : nat -> ostate -> Prop) st : I0 st -> P 0 st ->
    (forall k st, k < length faces0 -> I0 st -> P k st -> nth_error (snd (fst st)) k = Some false -> P (S k) st) ->
    (forall k st, k < length faces0 -> I0 st -> P k st -> nth_error (snd (fst st)) k = Some true ->
       exists st', fold_res (orient_edge pf k) [0; 1; 2] st = Ok st' /\ I0 st' /\ P (S k) st') ->
    exists st', orient_sweep pf st = Ok st' /\ I0 st' /\ P (length faces0) st'.
  Proof.
    intros H0 HP Hskip Hstep. unfold orient_sweep.
    assert (Ln : length (fst (fst st)) = length faces0) by (destruct H0 as ((L & _) & _); lia). rewrite Ln.
    assert (G : forall k lo st, lo + k = length faces0 -> I0 st -> P lo st ->
      exists st', fold_res (fun iface st => fx <- get (snd (fst st)) iface ;;
        if (fx : bool) then fold_res (orient_edge pf iface) [0; 1; 2] st else Ok st) (seq lo k) st = Ok st'
        /\ I0 st' /\ P (length faces0) st').
    2:{ apply (G (length faces0) 0); auto. }
    clear st H0 HP Ln. induction k as [|k IH]; intros lo st Hlo H0 HP; cbn [seq].
    - exists st. rewrite Nat.add_0_r in Hlo. subst. auto.
    - assert (Hl : lo < length (snd (fst st))) by (destruct H0; lia).
      rewrite fold_res_cons.
      destruct (nth_error_lt _ Hl) as (b & Eb). rewrite (get_some Eb). cbn [bind]. destruct b.
      + destruct (Hstep lo st) as (st' & E & H0' & HP'); auto; [lia|]. rewrite E. cbn [bind]. apply IH; auto. lia.
      + cbn [bind]. apply IH; auto; [lia|]. apply Hskip; auto. lia.
  Qed.

  (** ** Termination; faces keep their corners *)
  Definition free (fixed : list bool) : nat := count_occ bool_dec fixed false.
  Lemma free_upd fixed j : nth_error fixed j = Some false -> S (free (upd fixed j true)) = free fixed.
  Proof.
    intros E. destruct (upd_split fixed j true E) as (a & b & E1 & E2 & _).
    unfold free. rewrite E2, E1. rewrite !count_occ_app. simpl. lia.
  Qed.
  Lemma first_free_some fixed i : first_free fixed = Some i -> nth_error fixed i = Some false.
  Proof.
    revert i; induction fixed as [|[|] t IH]; intros i; simpl; try discriminate.
    - destruct (first_free t) eqn:E; [|discriminate]. intros H. injection H as <-. simpl. auto.
    - intros H. injection H as <-. auto.
  Qed.
  Lemma first_free_none fixed : first_free fixed = None -> forall i, i < length fixed -> nth_error fixed i = Some true.
  Proof.
    induction fixed as [|[|] t IH]; simpl; intros H i Hi; try discriminate; [lia|].
    destruct (first_free t) eqn:E; [discriminate|]. destruct i; auto. apply IH; auto. lia.
  Qed.

  Lemma loop_ok : forall fuel faces fixed, free fixed < fuel -> same_corners faces0 faces -> length fixed = length faces0 ->
    exists faces', orient_loop fuel pf faces fixed = Ok faces' /\ same_corners faces0 faces'.
  Proof.
    induction fuel as [|fuel IH]; intros faces fixed Hf Hs Lf; [lia|]. cbn [orient_loop].
    destruct (first_free fixed) as [i|] eqn:E; [|exists faces; auto].
    apply first_free_some in E. rewrite set_Ok by (apply nth_error_Some_lt in E; auto). cbn [bind].
    destruct (@sweep_inv (fun _ st => free (snd (fst st)) <= free (upd fixed i true)) (faces, upd fixed i true, true))
      as (((faces' & fixed') & done) & Es & (Hs' & Lf') & Hfr).
    - split; auto. cbn. now rewrite upd_length.
    - cbn [fst snd]. lia.
    - auto.
    - intros k st Hk H0 HP _. apply (@face_inv (fun st => free (snd (fst st)) <= free (upd fixed i true))); auto.
      intros st1 st2 f pi pj _ HP1 _ _ Hstep. destruct st1 as ((fa & fx) & dn).
      destruct Hstep as [(_ & ->)|(j & g & _ & _ & _ & _ & _ & [(_ & ->)|(Ef & g' & d' & -> & _)])]; auto.
      cbn [fst snd] in *. pose proof (free_upd _ _ Ef). lia.
    - rewrite Es. cbn [bind]. cbn [fst snd] in *. destruct done; [exists faces'; auto|].
      apply IH; auto. pose proof (free_upd _ _ E). lia.
  Qed.

  Lemma start_length (b : bool) (m : nat) : length (match m with O => [] | S k => b :: repeat false k end) = m.
  Proof. destruct m; simpl; auto. now rewrite repeat_length. Qed.

  Lemma orient_ok garbage : exists faces', orient_faces garbage pf faces0 = Ok faces' /\ same_corners faces0 faces'.
  Proof.
    unfold orient_faces. apply loop_ok; [|apply same_corners_refl|apply start_length].
    apply Nat.lt_succ_r. unfold free. rewrite <- (start_length garbage (length faces0)) at 2. apply count_occ_bound.
  Qed.

  (** ** A consistent mesh is left alone *)
  Lemma orient_consistent garbage : consistent faces0 -> orient_faces garbage pf faces0 = Ok faces0.
  Proof.
    intros Hc. unfold orient_faces. cbn [orient_loop].
    destruct (first_free _) as [i|] eqn:E; auto.
    apply first_free_some in E. set (fixed := match length faces0 with O => [] | S k => garbage :: repeat false k end) in *.
    assert (Lf : length fixed = length faces0) by apply start_length.
    rewrite set_Ok by (apply nth_error_Some_lt in E; auto). cbn [bind].
    destruct (@sweep_inv (fun _ st => fst (fst st) = faces0 /\ snd st = true) (faces0, upd fixed i true, true))
      as (((faces' & fixed') & done) & Es & _ & (HP1 & HP2)); auto.
    - split; [apply same_corners_refl|]. cbn. now rewrite upd_length.
    - intros k st Hk H0 HP _.
      apply (@face_inv (fun st => fst (fst st) = faces0 /\ snd st = true)); auto.
      intros st1 st2 f pi pj _ (HP1 & HP2) Ef Hr Hstep. destruct st1 as ((fa & fx) & dn). cbn [fst snd] in *. subst fa dn.
      destruct Hstep as [(_ & ->)|(j & g & L2 & Hji & _ & _ & Eg & [(_ & ->)|(Efx & g' & d' & -> & Hpm & Hr' & Hb)])]; auto.
      destruct Hb as [(-> & -> & _)|(Hbad & _)].
      + cbn. split; auto. now apply upd_same.
      + exfalso. revert Hbad. apply (Hc k j pi pj f g); auto.
    - rewrite Es. cbn [bind]. cbn [fst snd] in *. subst. reflexivity.
  Qed.

  (** ** Growing order *)
  Definition agrees (sol : list (list nat)) (st : ostate) : Prop :=
    forall i f g, nth_error (snd (fst st)) i = Some true -> nth_error (fst (fst st)) i = Some f ->
      nth_error sol i = Some g -> same_orient f g.

  Lemma consistent_of sol faces : same_corners faces0 sol -> same_corners faces0 faces -> consistent sol ->
    (forall i f g, nth_error faces i = Some f -> nth_error sol i = Some g -> same_orient f g) -> consistent faces.
  Proof.
    intros Hs Hs' Hc Ha i j a b f g Hij Ef Eg L2 Hr Hr'.
    assert (Ls : length sol = length faces) by (destruct Hs, Hs'; lia).
    destruct (nth_error_lt sol (i := i)) as (f' & Ef'). { rewrite Ls. apply nth_error_Some_lt in Ef; auto. }
    destruct (nth_error_lt sol (i := j)) as (g' & Eg'). { rewrite Ls. apply nth_error_Some_lt in Eg; auto. }
    apply (Hc i j a b f' g' Hij Ef' Eg').
    - rewrite <- (same_corners_with a b Hs). now rewrite (same_corners_with a b Hs').
    - apply (Ha i f f'); auto.
    - apply (Ha j g g'); auto.
  Qed.

  Lemma agrees_step sol iface : same_corners faces0 sol -> consistent sol ->
    forall st st' f pi pj, I0 st -> agrees sol st -> nth_error (snd (fst st)) iface = Some true ->
      nth_error (fst (fst st)) iface = Some f -> runs f pi pj ->
      edge_step iface pi pj st st' -> agrees sol st'.
  Proof.
    intros Hs Hc ((fa & fx) & dn) st' f pi pj (H0 & Lf) Ha Hfx Ef Hr Hstep. cbn [fst snd] in *.
    destruct Hstep as [(_ & ->)|(j & g & L2 & Hji & Hjin & _ & Eg & [(_ & ->)|(Efx & g' & d' & -> & Hpm & Hr' & _)])]; auto.
    intros i u v E1 E2 E3. cbn [fst snd] in *.
    destruct (Nat.eq_dec i j) as [->|Hn].
    2:{ rewrite upd_nth_other in E1 by auto. rewrite upd_nth_other in E2 by auto. apply (Ha i); auto. }
    rewrite upd_nth_same in E2 by (apply nth_error_Some_lt in Eg; auto). injection E2 as <-.
    pose proof (same_corners_proper H0 Hp0) as (Ht & Hnd).
    pose proof (nth_error_In _ _ Eg) as Hgin. destruct (Ht g Hgin) as (G3 & _). specialize (Hnd g Hgin).
    assert (Hgv : Permutation g v).
    { assert (Hfs : same_corners fa sol) by (eapply same_corners_trans; [apply same_corners_sym; eauto|auto]).
      destruct Hfs as (_ & Hfs). eapply Hfs; eauto. }
    assert (Hg'v : Permutation g' v) by (rewrite <- Hpm; auto).
    assert (G3' : length g' = 3) by (now rewrite <- (Permutation_length Hpm)).
    assert (Nd' : NoDup g') by (eapply Permutation_NoDup; eauto).
    assert (V3 : length v = 3) by (now rewrite <- (Permutation_length Hgv)).
    assert (Ndv : NoDup v) by (eapply Permutation_NoDup; eauto).
    apply (@agree_on_edge g' v pj pi); auto.
    destruct (nth_error_lt sol (i := iface)) as (w & Ew).
    { destruct Hs as (Ls & _). destruct H0 as (L0 & _). apply nth_error_Some_lt in Ef. lia. }
    assert (Hw : runs w pi pj) by (apply (Ha iface f w); auto).
    assert (Hnv : ~ runs v pi pj).
    { apply (Hc iface j pi pj w v); auto. rewrite <- (same_corners_with pi pj Hs). auto. }
    destruct (runs_in Hr') as (Hj1 & Hj2).
    assert (Hne : pj <> pi) by (destruct (runs_ne G3' Nd' Hr'); auto).
    destruct (@runs_total v pj pi V3 Ndv) as [?|?]; auto; [eapply Permutation_in; eauto|eapply Permutation_in; eauto|tauto].
  Qed.

  (** After the visit of its edges, every neighbour of a face is fixed. *)
  Lemma fixed_mono st st' iface pi pj i : edge_step iface pi pj st st' ->
    nth_error (snd (fst st)) i = Some true -> nth_error (snd (fst st')) i = Some true.
  Proof.
    destruct st as ((fa & fx) & dn). cbn [fst snd].
    intros [(_ & ->)|(j & g & _ & _ & _ & _ & _ & [(_ & ->)|(Ef & g' & d' & -> & _)])] H; auto.
    cbn. rewrite upd_nth. destruct ((i =? j) && (j <? length fx)); auto.
  Qed.

  Lemma neighbours_fixed st iface f : I0 st -> nth_error (fst (fst st)) iface = Some f ->
    nth_error (snd (fst st)) iface = Some true ->
    exists st', fold_res (orient_edge pf iface) [0; 1; 2] st = Ok st' /\ I0 st'
      /\ (forall i, nth_error (snd (fst st)) i = Some true -> nth_error (snd (fst st')) i = Some true)
      /\ nth_error (fst (fst st')) iface = Some f
      /\ (forall sol, same_corners faces0 sol -> consistent sol -> agrees sol st -> agrees sol st')
      /\ forall a b j, runs f a b -> length (faces_with faces0 a b) = 2 -> In j (faces_with faces0 a b) ->
           nth_error (snd (fst st')) j = Some true.
  Proof.
    intros H0 Ef Hfx.
    pose proof (same_corners_proper (proj1 H0) Hp0) as (Ht & Hnd).
    destruct (Ht f (nth_error_In _ _ Ef)) as (H3 & _). destruct (triple _ H3) as (x & y & z & ->).
    assert (Hstep1 : forall st i pi pj, I0 st -> i < 3 -> nth_error (fst (fst st)) iface = Some [x; y; z] ->
      nth_error (snd (fst st)) iface = Some true ->
      nth_error [x; y; z] i = Some pi -> nth_error [x; y; z] (wrap3 i) = Some pj ->
      exists st', orient_edge pf iface i st = Ok st' /\ I0 st'
        /\ (forall i, nth_error (snd (fst st)) i = Some true -> nth_error (snd (fst st')) i = Some true)
        /\ nth_error (fst (fst st')) iface = Some [x; y; z]
        /\ (forall sol, same_corners faces0 sol -> consistent sol -> agrees sol st -> agrees sol st')
        /\ (length (faces_with faces0 pi pj) = 2 -> forall j, In j (faces_with faces0 pi pj) ->
             nth_error (snd (fst st')) j = Some true)).
    { intros s i pi pj Hs Hi Es Hfs E1 E2. destruct (@orient_edge_ok s iface i _ pi pj Hs Hi Es E1 E2) as (s' & E & Hs' & St).
      exists s'. split; auto. split; auto. split; [intros; eapply fixed_mono; eauto|].
      split.
      { destruct s as ((fa & fx) & dn). cbn [fst snd] in *.
        destruct St as [(_ & ->)|(j & g & _ & Hj & _ & _ & _ & [(_ & ->)|(_ & g' & d' & -> & _)])]; auto.
        cbn. now rewrite upd_nth_other by auto. }
      split.
      { intros sol Hss Hcs Has. apply (@agrees_step sol iface Hss Hcs s s' [x; y; z] pi pj); auto. exists i. split; [simpl; lia|]. split; auto.
        rewrite (@wrap3_next [x; y; z] i eq_refl Hi) in E2. exact E2. }
      intros L2 j Hj. pose proof (@fixed_mono _ _ _ _ _ iface St Hfs) as Hfi. destruct s as ((fa & fx) & dn). cbn [fst snd] in *.
      destruct St as [(Hn & _)|(j' & g & _ & Hj' & _ & Hall & Eg & Hcase)]; [tauto|].
      destruct (Hall j Hj) as [->| ->]; auto.
      destruct Hcase as [(Ht' & ->)|(Hf' & g' & d' & -> & _)]; auto. cbn. apply upd_nth_same.
      apply nth_error_Some_lt in Hf'. auto. }
    cbn [fold_res].
    destruct (Hstep1 st 0 x y) as (s1 & E1 & I1 & M1 & F1 & A1 & N1); auto.
    rewrite E1. cbn [bind].
    destruct (Hstep1 s1 1 y z) as (s2 & E2 & I2 & M2 & F2 & A2 & N2); auto.
    rewrite E2. cbn [bind].
    destruct (Hstep1 s2 2 z x) as (s3 & E3 & I3 & M3 & F3 & A3 & N3); auto.
    rewrite E3. cbn [bind]. exists s3. split; auto. split; auto. split; auto. split; auto. split; auto.
    intros a b j Hr L2 Hj. apply runs3 in Hr.
    destruct Hr as [(-> & ->)|[(-> & ->)|(-> & ->)]]; eauto.
  Qed.

  Lemma rev_runs f x y : length f = 3 -> runs (rev f) x y <-> runs f y x.
  Proof. intros H3. destruct (triple _ H3) as (a & b & c & ->). simpl. rewrite !runs3. tauto. Qed.

  Lemma rev_same : forall sol, same_corners faces0 sol -> same_corners faces0 (map (@rev nat) sol).
  Proof.
    intros sol (L & H). split; [now rewrite map_length|]. intros i f f' E1 E2. rewrite map_nth_error' in E2.
    destruct (nth_error sol i) as [g|] eqn:E; [|discriminate]. injection E2 as <-.
    etransitivity; [eapply H; eauto|]. apply Permutation_rev.
  Qed.
  Lemma rev_consistent sol : same_corners faces0 sol -> consistent sol -> consistent (map (@rev nat) sol).
  Proof.
    intros Hs Hc i j a b f g Hij Ef Eg L2 Hr Hr'. rewrite map_nth_error' in Ef, Eg.
    destruct (nth_error sol i) as [f'|] eqn:Ef'; [|discriminate]. injection Ef as <-.
    destruct (nth_error sol j) as [g'|] eqn:Eg'; [|discriminate]. injection Eg as <-.
    pose proof (same_corners_proper Hs Hp0) as (Ht & _).
    rewrite rev_runs in Hr by (apply Ht; eapply nth_error_In; eauto).
    rewrite rev_runs in Hr' by (apply Ht; eapply nth_error_In; eauto).
    apply (Hc i j b a f' g'); auto. rewrite faces_with_sym.
    rewrite <- (same_corners_with a b Hs). now rewrite (same_corners_with a b (rev_same Hs)).
  Qed.

  Lemma orient_growing : orientable faces0 -> growing faces0 ->
    exists faces', orient_faces false pf faces0 = Ok faces' /\ same_corners faces0 faces' /\ consistent faces'.
  Proof.
    intros (sol & Hs & Hc) Hg.
    destruct (length faces0) as [|m] eqn:Ln.
    { assert (E0 : faces0 = []) by (apply length_zero_iff_nil; auto). exists []. rewrite E0. split; [reflexivity|].
      split; [apply same_corners_refl|]. intros i j a b f g _ E. destruct i; discriminate. }
    unfold orient_faces. rewrite Ln. cbn [orient_loop first_free set length Nat.ltb Nat.leb bind upd].
    set (st0 := (faces0, true :: repeat false m, true)).
    assert (H0 : I0 st0). { split; [apply same_corners_refl|]. cbn. rewrite repeat_length. lia. }
    (* a solution that agrees with face 0 *)
    assert (Hsol : exists sol, same_corners faces0 sol /\ consistent sol /\ agrees sol st0).
    { destruct (nth_error_lt faces0 (i := 0)) as (f0 & E0); [lia|].
      destruct (nth_error_lt sol (i := 0)) as (g0 & G0); [destruct Hs; lia|].
      destruct Hp0 as (Ht & Hnd). destruct (Ht f0 (nth_error_In _ _ E0)) as (H3 & _).
      specialize (Hnd f0 (nth_error_In _ _ E0)).
      assert (Hpm : Permutation f0 g0) by (destruct Hs as (_ & Hs); eapply Hs; eauto).
      assert (Hst : forall sol', (forall g, nth_error sol' 0 = Some g -> same_orient f0 g) -> agrees sol' st0).
      { intros sol' H' i f g E1 E2 E3. cbn [st0 fst snd] in E1, E2. destruct i as [|i].
        - assert (f = f0) by congruence. subst f. auto.
        - simpl in E1. apply nth_error_In, repeat_spec in E1. discriminate. }
      destruct (two_orders H3 Hnd Hpm) as [Ho|Ho].
      - exists sol. split; auto. split; auto. apply Hst. intros g Eg. assert (g = g0) by congruence. subst g. auto.
      - exists (map (@rev nat) sol). split; [now apply rev_same|]. split; [now apply rev_consistent|]. apply Hst.
        intros g Eg. rewrite map_nth_error', G0 in Eg. injection Eg as <-. intros x y.
        rewrite rev_runs by (now rewrite <- (Permutation_length Hpm)). apply Ho. }
    clear sol Hs Hc. destruct Hsol as (sol & Hs & Hc & Ha).
    (* P k: the faces before k have been visited *)
    set (P := fun k (st : ostate) => agrees sol st /\ nth_error (snd (fst st)) 0 = Some true /\
       forall i a b j, i < k -> In i (faces_with faces0 a b) -> In j (faces_with faces0 a b) -> a <> b ->
         length (faces_with faces0 a b) = 2 -> nth_error (snd (fst st)) j = Some true).
    assert (Hready : forall k st, k < length faces0 -> P k st -> nth_error (snd (fst st)) k = Some true).
    { intros k st Hk (_ & H00 & HP). destruct k as [|k]; auto.
      destruct (Hg (S k)) as (i & a & b & Hi & Hab & Hia & Hja & L2); [lia|]. eapply HP; eauto. }
    destruct (@sweep_inv P st0) as (((faces' & fixed') & done) & Es & (Hs' & Lf') & HP); auto.
    - split; [auto|]. split; [reflexivity|]. intros i a b j Hi. lia.
    - intros k st Hk HI HP Hfalse. specialize (Hready k st Hk HP). congruence.
    - intros k st Hk HI (Ha' & H00 & HP) Htrue.
      destruct (nth_error_lt (fst (fst st)) (i := k)) as (f & Ef). { destruct HI as ((L & _) & _). lia. }
      destruct (@neighbours_fixed st k f HI Ef Htrue) as (st' & E & HI' & Hm & _ & Hag & Hnb).
      exists st'. split; auto. split; auto. split; [apply Hag; auto|]. split; [auto|].
      intros i a b j Hi Hia Hja Hab L2. destruct (Nat.eq_dec i k) as [->|Hn]; [|apply Hm; eapply (HP i a b j); eauto; lia].
      pose proof (same_corners_proper (proj1 HI) Hp0) as (Ht & Hnd). pose proof (nth_error_In _ _ Ef) as Hin.
      destruct (Ht f Hin) as (H3 & _). specialize (Hnd f Hin).
      rewrite (same_corners_with a b (proj1 HI)) in Hia. apply faces_with_in in Hia as (_ & Hfa & Hfb).
      rewrite (nth_error_nth _ _ _ Ef) in Hfa, Hfb.
      destruct (@runs_total f a b H3 Hnd Hfa Hfb Hab) as [Hr|Hr]; [apply (Hnb a b); auto|].
      apply (Hnb b a); auto; now rewrite faces_with_sym.
    - fold st0. rewrite Es. cbn [bind]. cbn [fst snd] in *.
      assert (Hall : forall i, i < length faces0 -> nth_error fixed' i = Some true).
      { intros i Hi. destruct i as [|i]; [destruct HP as (_ & H00 & _); exact H00|].
        destruct (Hg (S i)) as (i' & a & b & Hi' & Hab & Hia & Hja & L2); [lia|].
        destruct HP as (_ & _ & HP). eapply (HP i' a b); eauto. lia. }
      assert (Hcons : consistent faces').
      { apply (@consistent_of sol); auto. intros i f g Ef Eg. destruct HP as (Ha' & _). apply (Ha' i f g); auto.
        apply Hall. destruct Hs' as (L & _). apply nth_error_Some_lt in Ef. lia. }
      assert (Hnone : first_free fixed' = None).
      { destruct (first_free fixed') as [i|] eqn:E; auto. apply first_free_some in E.
        rewrite Hall in E by (apply nth_error_Some_lt in E; lia). discriminate. }
      exists faces'. split; auto. destruct done; auto. now rewrite Hnone.
  Qed.
End Orient.
