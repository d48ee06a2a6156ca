(** Proofs about Regions.v that do not need numbers. *)
From Coq Require Import Relations Sorted.
From Verif Require Import Base Num KdTree SmartTree PolyMesh PolyMeshSpec PolyMeshProofs Regions RegionsSpec.

Lemma mapr_ok {A B} (f : A -> res B) g l : (forall a, In a l -> f a = Ok (g a)) -> mapr f l = Ok (map g l).
Proof.
  induction l as [|a l IH]; intros H; auto. cbn [mapr map]. rewrite (H a (or_introl eq_refl)). cbn [bind].
  rewrite IH by (intros; apply H; right; auto). reflexivity.
Qed.

Lemma face_seeds_ok f i j : face_between f i j -> face_seeds f = Ok (i, j).
Proof.
  intros (l & ->). unfold face_seeds.
  assert (E1 : get (length l :: l ++ [i; j]) (length l + 1) = Ok i).
  { unfold get. replace (length l + 1) with (S (length l)) by lia. cbn [nth_error].
    rewrite nth_error_app2 by lia. now rewrite Nat.sub_diag. }
  assert (E2 : get (length l :: l ++ [i; j]) (length l + 2) = Ok j).
  { unfold get. replace (length l + 2) with (S (length l + 1)) by lia.
    change (nth_error (length l :: l ++ [i; j]) (S (length l + 1))) with (nth_error (l ++ [i; j]) (length l + 1)).
    rewrite nth_error_app2 by lia. now replace (length l + 1 - length l) with 1 by lia. }
  unfold get at 1. cbn [nth_error bind]. rewrite E1. cbn [bind]. now rewrite E2.
Qed.
Lemma face_seeds_inv f i j : (exists a b, face_between f a b) -> face_seeds f = Ok (i, j) -> face_between f i j.
Proof. intros (a & b & H) E. rewrite (face_seeds_ok H) in E. now inversion E; subst. Qed.
Lemma face_between_fun f i j i' j' : face_between f i j -> face_between f i' j' -> i = i' /\ j = j'.
Proof. intros H H'. apply face_seeds_ok in H, H'. rewrite H in H'. now inversion H'. Qed.
Lemma sides_ok f i j : face_between f i j -> sides f = [i; j].
Proof. intros (l & ->). unfold sides. cbn [hd skipn]. now rewrite skipn_app, skipn_all, Nat.sub_diag. Qed.

Lemma count_regions_lt regs r : In r regs -> r < count_regions regs.
Proof.
  unfold count_regions.
  enough (G : forall l m, m <= fold_left (fun m r => if m <? r then r else m) l m
    /\ forall r, In r l -> r <= fold_left (fun m r => if m <? r then r else m) l m).
  { intros H. apply (proj2 (G regs 0)) in H. lia. }
  induction l as [|a l IH]; intros m; cbn [fold_left]; [split; [lia|intros ? []]|].
  destruct (IH (if m <? a then a else m)) as (G1 & G2). destruct (Nat.ltb_spec m a).
  - split; [lia|]. intros x [->|Hx]; auto.
  - split; [lia|]. intros x [->|Hx]; auto. lia.
Qed.

Lemma iter_S {A} m (f : A -> A) x : Nat.iter (S m) f x = f (Nat.iter m f x).
Proof. reflexivity. Qed.
Lemma iter_succ_r {A} m (f : A -> A) x : Nat.iter (S m) f x = Nat.iter m f (f x).
Proof. induction m as [|m IH]; auto. change (Nat.iter (S (S m)) f x) with (f (Nat.iter (S m) f x)). now rewrite IH. Qed.

(** ** Merging *)
Section Merge.
  Context (nss : nat) (regs : list nat) (faces : list (list nat)).
  Context (Hm : mesh_of (length regs) faces).
  Let n := count_regions regs.
  Definition stepf (rni : list nat) (i : nat) : nat := nth i rni i.

  Lemma stepf_get rni i : i < length rni -> get rni i = Ok (stepf rni i).
  Proof. intros H. apply get_nth. auto. Qed.
  Lemma stepf_upd rni i a k : i < length rni -> stepf (upd rni i a) k = if k =? i then a else stepf rni k.
  Proof. intros H. unfold stepf. now apply nth_upd. Qed.
  Lemma stepf_seq i : stepf (seq 0 n) i = i.
  Proof.
    unfold stepf. destruct (Nat.lt_ge_cases i n).
    - rewrite seq_nth by auto. auto.
    - apply nth_overflow. now rewrite seq_length.
  Qed.

  (** One face, whatever the state. *)
  Lemma merge_face_cases f rni : In f faces -> length rni = n ->
    (merge_face nss regs f rni = Ok rni /\ forall a b, meet nss regs [f] a b -> stepf rni a = stepf rni b)
    \/ exists r p, (meet nss regs [f] r p \/ meet nss regs [f] p r) /\ r < n /\ p < n
         /\ stepf rni p < stepf rni r
         /\ (forall a b, meet nss regs [f] a b -> (a = r /\ b = p) \/ (a = p /\ b = r))
         /\ merge_face nss regs f rni = Ok (upd rni r (stepf rni p)).
  Proof.
    intros Hf Hl. destruct (Hm f Hf) as (i & j & Hb & Hi & Hj).
    unfold merge_face. rewrite (face_seeds_ok Hb). cbn [bind].
    assert (U : forall a b, meet nss regs [f] a b -> nss <= i /\ nss <= j /\ nth_error regs i = Some a /\ nth_error regs j = Some b).
    { intros a b (f' & i' & j' & [<-|[]] & Hb' & H1 & H2 & H3 & H4).
      destruct (face_between_fun Hb Hb') as (-> & ->). auto. }
    destruct (Nat.ltb_spec i nss); cbn [orb].
    { left. split; auto. intros a b HM. apply U in HM. lia. }
    destruct (Nat.ltb_spec j nss); cbn [orb].
    { left. split; auto. intros a b HM. apply U in HM. lia. }
    destruct (nth_error_lt regs Hi) as (ri & Ei), (nth_error_lt regs Hj) as (rj & Ej).
    assert (Li : ri < n) by (apply count_regions_lt; eapply nth_error_In; eauto).
    assert (Lj : rj < n) by (apply count_regions_lt; eapply nth_error_In; eauto).
    assert (M : meet nss regs [f] ri rj).
    { exists f, i, j. split; [left; auto|]. auto. }
    assert (Gi : get regs i = Ok ri) by (unfold get; now rewrite Ei).
    assert (Gj : get regs j = Ok rj) by (unfold get; now rewrite Ej).
    rewrite Gi. cbn [bind]. rewrite Gj. cbn [bind].
    rewrite (@stepf_get rni ri), (@stepf_get rni rj) by lia. cbn [bind].
    destruct (Nat.eqb_spec (stepf rni ri) (stepf rni rj)) as [He|Hne].
    { left. split; auto. intros a b HM. apply U in HM. destruct HM as (_ & _ & E1 & E2).
      rewrite Ei in E1. rewrite Ej in E2. inversion E1; inversion E2; subst. auto. }
    right. destruct (Nat.ltb_spec (stepf rni ri) (stepf rni rj)).
    - exists rj, ri. split; auto. split; auto. split; auto. split; auto. split.
      + intros a b HM. apply U in HM. destruct HM as (_ & _ & E1 & E2).
        rewrite Ei in E1. rewrite Ej in E2. inversion E1; inversion E2; subst. auto.
      + rewrite set_upd by lia. auto.
    - exists ri, rj. split; auto. split; auto. split; auto. split; [lia|]. split.
      + intros a b HM. apply U in HM. destruct HM as (_ & _ & E1 & E2).
        rewrite Ei in E1. rewrite Ej in E2. inversion E1; inversion E2; subst. auto.
      + rewrite set_upd by lia. auto.
  Qed.

  Lemma meet_incl l l' a b : incl l l' -> meet nss regs l a b -> meet nss regs l' a b.
  Proof. intros Hi (f & i & j & Hf & R). exists f, i, j. split; auto. Qed.
  Lemma meet_one f l a b : In f l -> meet nss regs [f] a b -> meet nss regs l a b.
  Proof. intros Hf. apply meet_incl. intros x [<-|[]]. auto. Qed.
  Lemma meet_app l l' a b : meet nss regs (l ++ l') a b -> meet nss regs l a b \/ meet nss regs l' a b.
  Proof.
    intros (f & i & j & Hf & R). apply in_app_iff in Hf. destruct Hf; [left|right]; exists f, i, j; auto.
  Qed.

  Definition lk := linked nss regs faces.
  Lemma lk_refl a : lk a a. Proof. apply rst_refl. Qed.
  Lemma lk_sym a b : lk a b -> lk b a. Proof. apply rst_sym. Qed.
  Lemma lk_trans a b c : lk a b -> lk b c -> lk a c. Proof. apply rst_trans. Qed.
  Lemma lk_meet a b : meet nss regs faces a b -> lk a b. Proof. apply rst_step. Qed.

  (** The merging loop: it always runs, numbers only decrease, and an entry is linked to
      its region. *)
  Lemma merge_ok : exists rni, fold_res (merge_face nss regs) faces (seq 0 n) = Ok rni /\ length rni = n
    /\ (forall i, stepf rni i <= i /\ lk i (stepf rni i))
    /\ forall a b, a < n -> b < n -> one_smaller nss regs faces -> meet nss regs faces a b ->
         forall g : nat -> nat, (forall i, g (stepf rni i) = g i) -> g a = g b.
  Proof.
    set (P := fun pre a b => (meet nss regs pre a b \/ meet nss regs pre b a) /\ b < a).
    set (Anc := fun pre => clos_refl_trans_1n nat (P pre)).
    destruct (@fold_res_inv _ _ (fun pre rni => length rni = n /\ (forall i, stepf rni i <= i /\ lk i (stepf rni i))
      /\ (one_smaller nss regs faces ->
          (forall i, Anc pre i (stepf rni i))
          /\ (forall r p, P pre r p -> stepf rni p <= stepf rni r <= p)
          /\ (forall r, (forall p, ~ P pre r p) -> stepf rni r = r)))
      (merge_face nss regs) faces (seq 0 n)) as (rni & E & L & G1 & G2).
    - rewrite seq_length. split; auto. split.
      { intros i. rewrite stepf_seq. split; auto. apply lk_refl. }
      intros _. split; [|split].
      + intros i. rewrite stepf_seq. constructor.
      + intros r p ([(f & ? & ? & [] & _)|(f & ? & ? & [] & _)] & _).
      + intros. apply stepf_seq.
    - intros pre f post rni El (L & G1 & G2).
      assert (Hf : In f faces) by (rewrite El; apply in_app_iff; right; left; auto).
      assert (Hpre : incl pre faces) by (rewrite El; intros x Hx; apply in_app_iff; auto).
      assert (Hap : forall a b, P (pre ++ [f]) a b -> P pre a b \/ ((meet nss regs [f] a b \/ meet nss regs [f] b a) /\ b < a)).
      { intros a b ([HM|HM] & Hlt); apply meet_app in HM; destruct HM as [HM|HM].
        - left. split; auto.
        - right. split; auto.
        - left. split; auto.
        - right. split; auto. }
      assert (Hmono : forall a b, P pre a b -> P (pre ++ [f]) a b).
      { intros a b ([HM|HM] & Hlt); (split; [|auto]); [left|right]; (eapply meet_incl; [|exact HM]); intros x Hx; apply in_app_iff; auto. }
      assert (Hanc : forall a b, Anc pre a b -> Anc (pre ++ [f]) a b).
      { intros a b HA. induction HA; [constructor|]. econstructor; eauto. }
      assert (Hfull : forall a b, P (pre ++ [f]) a b -> meet nss regs faces a b \/ meet nss regs faces b a).
      { intros a b ([HM|HM] & Hlt); [left|right]; (eapply meet_incl; [|exact HM]);
          intros x Hx; apply in_app_iff in Hx; destruct Hx as [Hx|[<-|[]]]; auto. }
      destruct (merge_face_cases f rni Hf L) as [(E & Heq)|(r & p & HM & Hr & Hp & Hlt & Huniq & E)]; rewrite E.
      + exists rni. split; auto. split; auto. split; auto. intros H1. destruct (G2 H1) as (A1 & A2 & A3).
        split; [intros i; auto|]. split.
        * intros r p HP. destruct (Hap r p HP) as [HP'|(HM & Hlt)]; [apply A2; auto|].
          assert (Es : stepf rni r = stepf rni p).
          { destruct HM as [HM|HM]; [auto|symmetry; auto]. }
          destruct (G1 p) as (Hpp & _). lia.
        * intros r Hno. apply A3. intros p HP. apply (Hno p). auto.
      + exists (upd rni r (stepf rni p)). split; auto. split; [now rewrite upd_length|].
        assert (U : forall k, stepf (upd rni r (stepf rni p)) k = if k =? r then stepf rni p else stepf rni k)
          by (intros; apply stepf_upd; lia).
        assert (Lrp : lk r p).
        { destruct HM as [HM|HM]; [|apply lk_sym]; apply lk_meet; eapply meet_one; eauto. }
        split.
        { intros i. rewrite U. destruct (Nat.eqb_spec i r) as [->|]; auto. destruct (G1 p) as (B1 & B2), (G1 r) as (B3 & B4).
          split; [lia|]. apply lk_trans with p; auto. }
        intros H1. destruct (G2 H1) as (A1 & A2 & A3).
        destruct (Nat.lt_trichotomy r p) as [Hrp|[->|Hrp]]; [exfalso|lia|].
        { (* the smaller region never has the larger number *)
          assert (HPq : P (pre ++ [f]) p r).
          { split; auto. destruct HM as [HM|HM]; [right|left]; (eapply meet_one; [|exact HM]); apply in_app_iff; right; left; auto. }
          assert (D : P pre p r \/ forall q, ~ P pre p q).
          { destruct (Nat.eq_dec (stepf rni p) p) as [Es|Es].
            - right. intros q HP. pose proof (A2 p q HP) as B. destruct HP. lia.
            - left. specialize (A1 p). inversion A1 as [Eq|q z HP HA Eq]; [congruence|]. subst.
              assert (q = r); [|subst; auto]. destruct HP as (HMq & Hq).
              apply (H1 p q r); auto. apply Hfull. apply Hmono. split; auto. }
          destruct D as [HP|HP].
          - specialize (A2 p r HP). lia.
          - rewrite (A3 p HP) in Hlt. destruct (G1 r). lia. }
        assert (HPq : P (pre ++ [f]) r p).
        { split; auto. destruct HM as [HM|HM]; [left|right]; (eapply meet_one; [|exact HM]); apply in_app_iff; right; left; auto. }
        split; [|split].
        * intros i. rewrite U. destruct (Nat.eqb_spec i r) as [->|]; auto. eapply Relation_Operators.rt1n_trans; [exact HPq|apply Hanc; apply A1].
        * intros r' p' HP.
          assert (Hone : r' = r -> p' = p).
          { intros ->. apply (H1 r p' p); auto; destruct HP; auto. }
          rewrite !U. destruct (Nat.eqb_spec r' r) as [->|Hn1].
          { rewrite (Hone eq_refl). destruct (Nat.eqb_spec p r); [lia|]. destruct (G1 p). lia. }
          destruct (Hap r' p' HP) as [HP'|(HM' & Hlt')].
          2:{ exfalso. destruct HM' as [HM'|HM']; apply Huniq in HM'; lia. }
          specialize (A2 r' p' HP'). destruct (Nat.eqb_spec p' r) as [->|]; lia.
        * intros k Hno. rewrite U. destruct (Nat.eqb_spec k r) as [->|]; [destruct (Hno p HPq)|].
          apply A3. intros q HP. apply (Hno q). auto.
    - exists rni. split; auto. split; auto. split; auto. intros a b Ha Hb H1 HM g Hg.
      destruct (G2 H1) as (A1 & A2 & A3).
      assert (K : forall p s, Anc faces p s -> g p = g s).
      { induction p as [p IH] using lt_wf_ind. intros s HA. inversion HA as [|p' z HP HA']; subst; auto.
        assert (Hlt : p' < p) by (destruct HP; auto).
        rewrite <- (IH p' Hlt s HA'). pose proof (A2 p p' HP) as B.
        pose proof (A1 p) as HA2. inversion HA2 as [Eq|q z HQ HA3]; [lia|]. subst.
        assert (q = p'). { destruct HQ, HP. apply (H1 p q p'); auto. }
        subst q. rewrite <- (Hg p). symmetry. apply (IH p' Hlt). auto. }
      destruct (Nat.lt_trichotomy a b) as [Hab|[->|Hab]]; auto.
      + symmetry. apply K. econstructor; [|constructor]. split; auto.
      + apply K. econstructor; [|constructor]. split; auto.
  Qed.

  (** The chase. *)
  Section Chase.
    Context (rni : list nat) (L : length rni = n) (D : forall i, stepf rni i <= i).
    Definition rootf (i : nat) : nat := Nat.iter n (stepf rni) i.
    Lemma iter_fix m : forall i, i <= m -> stepf rni (Nat.iter m (stepf rni) i) = Nat.iter m (stepf rni) i.
    Proof.
      induction m as [|m IH]; intros i Hi.
      - cbn. specialize (D i). lia.
      - rewrite iter_succ_r. destruct (Nat.eq_dec (stepf rni i) i) as [E|E].
        + rewrite E. clear IH Hi. induction m as [|m IH]; cbn; auto.
        + apply IH. specialize (D i). lia.
    Qed.
    Lemma rootf_fix i : i < n -> stepf rni (rootf i) = rootf i.
    Proof. intros H. apply iter_fix. lia. Qed.
    Lemma rootf_step i : rootf (stepf rni i) = rootf i.
    Proof.
      unfold rootf. rewrite <- iter_succ_r. cbn. destruct (Nat.lt_ge_cases i n) as [H|H].
      - now apply rootf_fix.
      - assert (E : stepf rni i = i) by (apply nth_overflow; lia).
        assert (G : forall m, Nat.iter m (stepf rni) i = i).
        { induction m as [|m IH]; auto. change (stepf rni (Nat.iter m (stepf rni) i) = i). congruence. }
        change (stepf rni (Nat.iter n (stepf rni) i) = Nat.iter n (stepf rni) i). rewrite !G. exact E.
    Qed.
    Lemma rootf_le i : rootf i <= i.
    Proof.
      unfold rootf. generalize n. intros m. revert i. induction m as [|m IH]; intros i; cbn; auto.
      etransitivity; [apply D|apply IH].
    Qed.
    Lemma rootf_fixed i : stepf rni i = i -> rootf i = i.
    Proof. intros E. unfold rootf. generalize n. intros q. induction q as [|m IH]; auto. rewrite iter_S. congruence. Qed.
    Lemma rootf_idem i : i < n -> rootf (rootf i) = rootf i.
    Proof. intros H. apply rootf_fixed. now apply rootf_fix. Qed.
    Lemma rootf_lk i : (forall j, lk j (stepf rni j)) -> lk i (rootf i).
    Proof.
      intros H. unfold rootf. generalize n. intros q. induction q as [|m IH]; [apply lk_refl|]. rewrite iter_S. eapply lk_trans; eauto.
    Qed.

    Lemma adjust_ok : adjust_regions n rni = Ok (map rootf (seq 0 n)).
    Proof.
      unfold adjust_regions.
      destruct (@for_res_inv _ (fun k st => length st = n /\ forall i, i < n -> stepf st i = if i <? k then rootf i else stepf rni i)
        n 0 (adjust_region (S n)) rni) as (st & E & Ls & G).
      - split; auto.
      - intros k st Hk (Ls & G). unfold adjust_region. rewrite stepf_get by lia. cbn [bind].
        rewrite (G k) by lia. rewrite Nat.ltb_irrefl.
        destruct (Nat.eqb_spec (stepf rni k) k) as [Ek|Ek].
        + exists st. split; auto. split; auto. intros i Hi. rewrite (G i Hi).
          destruct (Nat.ltb_spec i k), (Nat.ltb_spec i (S k)); auto; try lia.
          assert (i = k) by lia. subst. rewrite Ek. symmetry. now apply rootf_fixed.
        + assert (Hv : stepf rni k < k) by (specialize (D k); lia).
          set (v := stepf rni k) in *.
          assert (Er : stepf st v = rootf v).
          { rewrite (G v) by lia. destruct (Nat.ltb_spec v k); [auto|lia]. }
          assert (Lv : rootf v <= v) by apply rootf_le.
          assert (Ec : chase (S n) st v = Ok (rootf v)).
          { cbn [chase]. rewrite stepf_get by lia. cbn [bind]. rewrite Er.
            destruct (Nat.eqb_spec (rootf v) v) as [->|Hnv]; auto.
            destruct n as [|n'] eqn:En; [lia|]. cbn [chase]. rewrite stepf_get by lia. cbn [bind].
            replace (stepf st (rootf v)) with (rootf v); [now rewrite Nat.eqb_refl|].
            rewrite (G (rootf v)) by lia. destruct (Nat.ltb_spec (rootf v) k); [|lia].
            symmetry. rewrite <- En in *. apply rootf_idem. lia. }
          rewrite Ec. cbn [bind]. rewrite set_upd by lia. eexists. split; [reflexivity|].
          split; [now rewrite upd_length|]. intros i Hi. rewrite stepf_upd by lia.
          destruct (Nat.eqb_spec i k) as [->|].
          * destruct (Nat.ltb_spec k (S k)); [|lia]. unfold v. apply rootf_step.
          * rewrite (G i Hi). destruct (Nat.ltb_spec i k), (Nat.ltb_spec i (S k)); auto; lia.
      - rewrite E. f_equal. apply (@list_ext nat). intros i.
        destruct (Nat.lt_ge_cases i n) as [Hi|Hi].
        + rewrite (nth_error_nth' st i) by lia. rewrite nth_error_map.
          rewrite (nth_error_nth' (seq 0 n) 0) by (rewrite seq_length; auto). rewrite seq_nth by auto. cbn [option_map Nat.add].
          f_equal. specialize (G i Hi). cbn [Nat.add] in G. destruct (Nat.ltb_spec i n); [exact G|lia].
        + rewrite (proj2 (nth_error_None _ _)) by lia. symmetry. apply nth_error_None. rewrite map_length, seq_length. lia.
    Qed.

    Lemma active_ok : active_regions (map rootf (seq 0 n)) = length (nodup Nat.eq_dec (map rootf (seq 0 n))) /\ (0 < active_regions (map rootf (seq 0 n))).
    Proof.
      set (l := filter (fun i => rootf i =? i) (seq 0 n)).
      assert (El : active_regions (map rootf (seq 0 n)) = length l).
      { unfold active_regions, numbered. rewrite map_length, seq_length. unfold l.
        generalize (seq 0 n). intros q. induction q as [|i q IH]; cbn [map combine filter length]; auto.
        destruct (rootf i =? i); cbn [length]; congruence. }
      rewrite El.
      assert (Hp : forall x, In x l <-> In x (nodup Nat.eq_dec (map rootf (seq 0 n)))).
      { intros x. rewrite nodup_In, in_map_iff. unfold l. rewrite filter_In, Nat.eqb_eq. split.
        - intros (Hs & E). eauto.
        - intros (i & <- & Hs). apply in_seq in Hs. rewrite rootf_idem by lia. split; auto. apply in_seq.
          pose proof (rootf_le i). lia. }
      split.
      - apply Permutation_length, NoDup_Permutation; auto.
        + apply NoDup_filter, seq_NoDup.
        + apply NoDup_nodup.
      - assert (H0 : In 0 l).
        { unfold l. apply filter_In. split; [apply in_seq; unfold n, count_regions; lia|].
          pose proof (rootf_le 0). apply Nat.eqb_eq. lia. }
        destruct l; [destruct H0|cbn; lia].
    Qed.
  End Chase.

  Theorem merge_regions_ok : exists g k, merge_regions nss regs faces = Ok (map g regs, k)
    /\ S k = length (nodup Nat.eq_dec (map g (seq 0 n)))
    /\ (forall r, r < n -> g r <= r /\ g (g r) = g r /\ lk r (g r))
    /\ (one_smaller nss regs faces -> forall a b, a < n -> b < n -> lk a b -> g a = g b).
  Proof.
    destruct merge_ok as (rni & E & L & G1 & G2).
    assert (D : forall i, stepf rni i <= i) by (intros; apply G1).
    exists (rootf rni), (pred (active_regions (map (rootf rni) (seq 0 n)))).
    unfold merge_regions. fold n. rewrite E. cbn [bind]. rewrite (@adjust_ok rni L D). cbn [bind].
    rewrite (@mapr_ok _ _ _ (rootf rni)).
    2:{ intros r Hr. apply count_regions_lt in Hr. fold n in Hr.
        rewrite (get_nth _ 0) by (rewrite map_length, seq_length; auto). f_equal.
        rewrite (nth_indep _ 0 (rootf rni 0)) by (rewrite map_length, seq_length; auto).
        rewrite map_nth. now rewrite seq_nth. }
    cbn [bind]. destruct (@active_ok rni L D) as (A1 & A2).
    split; auto. split; [rewrite <- A1; lia|]. split.
    - intros r Hr. split; [now apply (@rootf_le rni D)|]. split; [now apply (@rootf_idem rni L D)|]. apply rootf_lk. apply G1.
    - intros H1 a b Ha Hb HL.
      assert (Hin : forall x y, meet nss regs faces x y -> x < n /\ y < n).
      { intros x y (f & i & j & _ & _ & _ & _ & E1 & E2).
        split; apply count_regions_lt; eapply nth_error_In; eauto. }
      clear Ha Hb. induction HL as [x y HM|x|x y HL IH|x y z H IH H' IH']; auto; [|congruence].
      destruct (Hin x y HM). apply (G2 x y); auto. intros i. apply (@rootf_step rni L D).
  Qed.
End Merge.

(** ** Cells *)
Section Cells.
  Context (regs : list nat) (faces : list (list nat)) (Hm : mesh_of (length regs) faces).
  Let inside c := negb (nth c regs 0 =? 0).
  Let S f := filter inside (sides f).

  Lemma cell_sides_ok f : In f faces -> cell_sides regs f = Ok (S f) /\ forall c, In c (S f) -> c < length regs.
  Proof.
    intros Hf. destruct (Hm f Hf) as (i & j & Hb & Hi & Hj). unfold cell_sides, S.
    rewrite (face_seeds_ok Hb), (sides_ok Hb). cbn [bind]. unfold if_inside.
    rewrite (get_nth regs 0 Hi), (get_nth regs 0 Hj). cbn [bind filter]. unfold inside.
    split.
    - destruct (nth i regs 0 =? 0), (nth j regs 0 =? 0); reflexivity.
    - intros c Hc. assert (In c [i; j]); [|destruct H as [<-|[<-|[]]]; auto].
      destruct (nth i regs 0 =? 0), (nth j regs 0 =? 0); cbn in *; tauto.
  Qed.

  Lemma faces_at_S c : c < length regs ->
    faces_at (map S faces) c = if nth c regs 0 =? 0 then [] else faces_around faces c.
  Proof.
    intros Hc. unfold faces_at, faces_around. rewrite map_length.
    assert (C : forall l, count_occ Nat.eq_dec (filter inside l) c = if nth c regs 0 =? 0 then 0 else count_occ Nat.eq_dec l c).
    { induction l as [|a l IH]; cbn [filter count_occ]; [now destruct (_ =? 0)|].
      destruct (inside a) eqn:Ea; cbn [count_occ]; rewrite IH; destruct (Nat.eq_dec a c) as [->|]; auto;
        unfold inside in Ea; destruct (nth c regs 0 =? 0); cbn in Ea; congruence. }
    destruct (nth c regs 0 =? 0) eqn:E0.
    - transitivity (flat_map (fun _ : nat => @nil nat) (seq 0 (length faces))).
      + generalize (seq 0 (length faces)). intros q. induction q as [|k q IH]; cbn [flat_map]; auto. rewrite IH.
        replace (nth k (map S faces) []) with (S (nth k faces [])) by (rewrite <- (map_nth S); reflexivity).
        unfold S. rewrite C. reflexivity.
      + induction (seq 0 (length faces)); auto.
    - apply flat_map_ext. intros k.
      replace (nth k (map S faces) []) with (S (nth k faces [])) by (rewrite <- (map_nth S); reflexivity).
      unfold S. now rewrite C.
  Qed.

  Theorem cell_faces_ok : exists rows, cell_faces regs faces
      = Ok (rows, length (filter (fun r => negb (r =? 0)) regs))
    /\ length rows = length regs
    /\ forall c, c < length regs -> nth_error rows c = Some (if nth c regs 0 =? 0 then [] else faces_around faces c).
  Proof.
    set (L := incidences (map S faces)).
    assert (HL : forall x, In x L -> snd x < length regs).
    { intros x Hx. unfold L, incidences in Hx. apply in_flat_map in Hx. destruct Hx as ((i, l) & H1 & H2).
      apply in_map_iff in H2. destruct H2 as (c & <- & H2). cbn. apply in_numbered in H1.
      rewrite nth_error_map in H1. destruct (nth_error faces i) as [f|] eqn:Ef; [|discriminate]. inversion H1; subst.
      apply nth_error_In in Ef. apply (proj2 (cell_sides_ok f Ef)) in H2. auto. }
    assert (Ec : exists cnt, count_cells regs faces = Ok cnt /\ length cnt = length regs
      /\ forall p, p < length regs -> nth p cnt 0 = count_occ Nat.eq_dec (map snd L) p).
    { destruct (@count_ok (concat (map S faces)) (repeat 0 (length regs))) as (cnt & E & Lc & N).
      - rewrite repeat_length. unfold L in HL. rewrite <- incidences_snd. intros p Hp. apply in_map_iff in Hp.
        destruct Hp as (x & <- & Hx). now apply HL.
      - exists cnt. rewrite repeat_length in Lc, N. split.
        + unfold count_cells. rewrite <- E, <- flat_map_concat_map, <- fold_res_flat.
          apply fold_res_ext. intros f st Hf. now rewrite (proj1 (cell_sides_ok f Hf)).
        + split; auto. intros p Hp. rewrite N by auto. unfold L. rewrite incidences_snd, nth_repeat_eq. reflexivity. }
    destruct Ec as (cnt & E & Lc & N).
    destruct (@fill_ok cnt L (repeat [] (length regs))) as (rows & E1 & L1 & N1).
    - now rewrite repeat_length.
    - now rewrite repeat_length.
    - rewrite repeat_length. intros p Hp. rewrite nth_repeat_eq, row_of_count, N by auto. cbn. lia.
    - rewrite repeat_length in *. exists rows. split.
      + unfold cell_faces. rewrite E. cbn [bind].
        replace (fold_res _ (numbered faces) _) with (Ok rows); [reflexivity|].
        rewrite <- E1. unfold L, incidences. rewrite <- fold_res_flat.
        assert (En : numbered (map S faces) = map (fun '(i, f) => (i, S f)) (numbered faces)).
        { unfold numbered. rewrite map_length. generalize (seq 0 (length faces)).
          clear. induction faces as [|f l IH]; intros q; destruct q; cbn; auto. now rewrite IH. }
        rewrite En, fold_res_map. apply fold_res_ext. intros (i, f) st Hf. apply in_numbered in Hf.
        apply nth_error_In in Hf. rewrite (proj1 (cell_sides_ok f Hf)). cbn [bind]. now rewrite fold_res_map.
      + split; auto. intros c Hc. rewrite (nth_error_nth' rows []) by lia. f_equal.
        rewrite N1, nth_repeat_eq by auto. cbn. unfold L. rewrite row_of_incidences. now apply faces_at_S.
  Qed.
End Cells.
