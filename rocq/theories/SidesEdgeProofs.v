(** Proofs about the seeds in the same sector of an edge sphere. *)
From Coq Require Import Reals Lra.
From Verif Require Import Base Num Vec KdSpec DenseQR DenseQRProofs Geometry GeometrySpec GeometryProofs GeometryAngle PropsGeometry
  MemoryHandler MemoryHandlerProofs SeedSides SidesSpec SidesProofs.
Local Open Scope nat_scope.

(** A list sorted by different keys is determined by its elements. *)
Lemma sorted_unique {K : Type} (lt : K -> K -> Prop) {A} (key : A -> K) : (forall x, ~ lt x x) -> (forall x y z, lt x y -> lt y z -> lt x z) ->
  forall l l' : list A, StronglySorted (fun a b => lt (key a) (key b)) l -> StronglySorted (fun a b => lt (key a) (key b)) l' ->
  Permutation l l' -> l = l'.
Proof.
  intros Irr Tr. induction l as [|a l IH]; intros l' S S' P.
  - symmetry. now apply Permutation_nil.
  - destruct l' as [|b l']; [apply Permutation_sym, Permutation_nil in P; discriminate|].
    apply StronglySorted_inv in S as (S & Fa). apply StronglySorted_inv in S' as (S' & Fb).
    assert (a = b).
    { assert (Ha : In a (b :: l')) by (eapply Permutation_in; [exact P|now left]). destruct Ha as [|Ha]; auto.
      assert (Hb : In b (a :: l)) by (eapply Permutation_in; [symmetry; exact P|now left]). destruct Hb as [|Hb]; auto.
      rewrite Forall_forall in Fa, Fb. exfalso. apply (Irr (key a)). eapply Tr; eauto. }
    subst b. f_equal. apply IH; auto. eapply Permutation_cons_inv; eauto.
Qed.

Local Open Scope R_scope.
(** A right-handed orthonormal frame spans the space. *)
Lemma span3 (e : nat -> nat -> R) (w : nat -> R) d : orthonormal_family 3 3 e ->
  (forall d, (d < 3)%nat -> e 2%nat d = vprod (e 0%nat) (e 1%nat) d) -> (d < 3)%nat ->
  w d = dot 3 w (e 0%nat) * e 0%nat d + dot 3 w (e 1%nat) * e 1%nat d + dot 3 w (e 2%nat) * e 2%nat d.
Proof.
  intros HO HE Hd. pose proof (HO 0%nat 0%nat ltac:(lia) ltac:(lia)) as H00. pose proof (HO 1%nat 1%nat ltac:(lia) ltac:(lia)) as H11.
  pose proof (HO 0%nat 1%nat ltac:(lia) ltac:(lia)) as H01. cbn [Nat.eqb] in *.
  assert (Id : dot 3 w (vprod (e 0%nat) (e 1%nat)) * vprod (e 0%nat) (e 1%nat) d
    = w d * (dot 3 (e 0%nat) (e 0%nat) * dot 3 (e 1%nat) (e 1%nat) - dot 3 (e 0%nat) (e 1%nat) * dot 3 (e 0%nat) (e 1%nat))
      - dot 3 (e 1%nat) (e 1%nat) * dot 3 w (e 0%nat) * e 0%nat d - dot 3 (e 0%nat) (e 0%nat) * dot 3 w (e 1%nat) * e 1%nat d
      + dot 3 (e 0%nat) (e 1%nat) * (dot 3 w (e 1%nat) * e 0%nat d + dot 3 w (e 0%nat) * e 1%nat d)).
  { rewrite !dot3. destruct d as [|[|[|d]]]; [| | |lia]; cbn [vprod]; ring. }
  rewrite H00, H11, H01 in Id.
  rewrite (@dot_ext 3 w w (e 2%nat) (vprod (e 0%nat) (e 1%nat))) by (auto; intros; apply HE; auto). rewrite (HE d Hd), Id. ring.
Qed.

(** The angle is determined by the direction. *)
Lemma angle_unique r s t : 0 < r -> 0 <= s < 2 * PI -> 0 <= t < 2 * PI -> r * cos s = r * cos t -> r * sin s = r * sin t -> s = t.
Proof.
  intros Hr Hs Ht Ec Esn. apply Rmult_eq_reg_l in Ec; [|lra]. apply Rmult_eq_reg_l in Esn; [|lra].
  assert (C : cos (s - t) = 1).
  { rewrite cos_minus, Ec, Esn. pose proof (sin2_cos2 t) as H. unfold Rsqr in H. lra. }
  destruct (Rtotal_order s t) as [Hl|[E|Hg]]; auto; exfalso.
  - assert (H : cos (t - s) = 1) by (rewrite <- C, <- cos_neg; f_equal; ring).
    assert (cos (t - s) < 1); [|lra]. clear H C.
    destruct (Rle_or_lt (t - s) PI) as [Hp|Hp].
    + rewrite <- cos_0. apply cos_decreasing_1; lra.
    + rewrite <- cos_2PI. apply cos_increasing_1; lra.
  - assert (cos (s - t) < 1); [|lra]. clear C.
    destruct (Rle_or_lt (s - t) PI) as [Hp|Hp].
    + rewrite <- cos_0. apply cos_decreasing_1; lra.
    + rewrite <- cos_2PI. apply cos_increasing_1; lra.
Qed.
Local Close Scope R_scope.

Section Sides.
  Variables (sph : list (list R)) (seeds : list (pseed R)).
  Notation cfrom := (comes_from seeds).
  Notation sof := (seeds_of sph seeds).
  Variables (ns i : nat) (ss : list nat) (p L : nat) (m : nat -> nat) (c lo up : nat -> nat -> nat).
  Hypothesis HB : sheets sph seeds ns i ss p L m c lo up.

  Lemma b_tri l k s : l < L -> k < m l -> s = lo l k \/ s = up l k -> cfrom s i (c l k) (c l (S k)).
  Proof.
    destruct HB as (_ & _ & HS & _). intros Hl Hk Es. destruct (HS l Hl) as (_ & _ & _ & _ & _ & HT).
    destruct (HT k Hk) as (_ & _ & _ & _ & C1 & C2 & _). destruct Es as [->| ->]; auto.
  Qed.
  Lemma b_at : at_i seeds i ss.
  Proof.
    pose proof HB as (_ & _ & HS & _ & _ & HI). intros s Hs. apply HI in Hs as (l & k & Hl & Hk & Ek).
    destruct (HS l Hl) as (_ & _ & _ & _ & _ & HT). destruct (sof_neq (HT k Hk)) as (Na & Nb & _).
    exists (c l k), (c l (S k)). split; auto. now apply b_tri.
  Qed.
  (** A triangle with an inner sphere of a sheet. *)
  Lemma b_touch l t l' k s b : l < L -> 1 <= t < m l -> l' < L -> k < m l' -> s = lo l' k \/ s = up l' k -> cfrom s i (c l t) b ->
    l' = l /\ ((k = t /\ b = c l (S t)) \/ (S k = t /\ b = c l k)).
  Proof.
    intros Hl Ht Hl' Hk Es Hc. pose proof HB as (_ & Hp & HS & HD & _). destruct (HS l Hl) as (Hm & C0 & Ce & Cp & Ci & _).
    destruct (HS l' Hl') as (Hm' & C0' & Ce' & Cp' & Ci' & _). pose proof (Ci t Ht) as Lt.
    destruct (cfrom_same (b_tri Hl' Hk Es) Hc) as [(E & ->)|(E & ->)].
    - destruct (Nat.eq_dec k 0) as [->|Nk]; [rewrite C0' in E; lia|].
      destruct (@HD l l' t k Hl Hl' Ht ltac:(lia) E) as (-> & ->). auto.
    - destruct (Nat.eq_dec (S k) (m l')) as [E1|Nk]; [rewrite E1 in E; lia|].
      destruct (@HD l l' t (S k) Hl Hl' Ht ltac:(lia) E) as (-> & ->). auto.
  Qed.
  Lemma b_apart l k : l < L -> 1 <= k < m l -> c l (S k) <> c l (k - 1).
  Proof.
    intros Hl Hk E. pose proof HB as (_ & Hp & HS & HD & _). destruct (HS l Hl) as (Hm & C0 & Ce & Cp & Ci & _).
    destruct (Nat.eq_dec (S k) (m l)) as [Ne|Ne], (Nat.eq_dec k 1) as [->|N1].
    - cbn [Nat.sub] in E. congruence.
    - rewrite Ne in E. pose proof (Ci (k - 1) ltac:(lia)). lia.
    - cbn [Nat.sub] in E. pose proof (Ci 2 ltac:(lia)). lia.
    - destruct (@HD l l (S k) (k - 1) Hl Hl ltac:(lia) ltac:(lia) E). lia.
  Qed.
  Lemma b_same s l k l' k' : l < L -> k < m l -> l' < L -> k' < m l' -> s = lo l k \/ s = up l k -> s = lo l' k' \/ s = up l' k' ->
    l = l' /\ k = k'.
  Proof.
    intros Hl Hk Hl' Hk' E E'. pose proof HB as (_ & Hp & HS & HD & _). destruct (HS l Hl) as (Hm & _). 
    pose proof (b_tri Hl Hk E) as Ct. destruct (Nat.eq_dec k 0) as [->|Nk].
    - destruct (@b_touch l 1 l' k' s (c l 0) Hl ltac:(lia) Hl' Hk' E' (cfrom_sym Ct)) as (-> & [(-> & E1)|(E1 & _)]).
      + exfalso. apply (@b_apart l 1 Hl ltac:(lia)). auto.
      + split; auto. lia.
    - destruct (@b_touch l k l' k' s (c l (S k)) Hl ltac:(lia) Hl' Hk' E' Ct) as (-> & [(-> & E1)|(E1 & E2)]); auto.
      exfalso. apply (@b_apart l k Hl ltac:(lia)). rewrite E2. f_equal. lia.
  Qed.
  Lemma b_neq l k l' k' : l < L -> k < m l -> l' < L -> k' < m l' -> l <> l' \/ k <> k' ->
    lo l k <> lo l' k' /\ lo l k <> up l' k' /\ up l k <> lo l' k' /\ up l k <> up l' k'.
  Proof.
    intros Hl Hk Hl' Hk' N. repeat split; intros E.
    - destruct (@b_same (lo l k) l k l' k'); auto. lia.
    - destruct (@b_same (lo l k) l k l' k'); auto. lia.
    - destruct (@b_same (up l k) l k l' k'); auto. lia.
    - destruct (@b_same (up l k) l k l' k'); auto. lia.
  Qed.
  Lemma b_in l k : l < L -> k < m l -> In (lo l k) ss /\ In (up l k) ss.
  Proof. intros Hl Hk. pose proof HB as (_ & _ & _ & _ & _ & HI). split; apply HI; exists l, k; auto. Qed.

  (** The triangles with p. *)
  Lemma b_at_p s b : In s ss -> cfrom s i p b -> exists l, l < L /\ (s = lo l 0 \/ s = up l 0) /\ b = c l 1.
  Proof.
    intros Hs Hc. pose proof HB as (_ & Hp & HS & HD & _ & HI). apply HI in Hs as (l & k & Hl & Hk & Ek).
    destruct (HS l Hl) as (Hm & C0 & Ce & Cp & Ci & _).
    assert (K : k = 0).
    { destruct (Nat.eq_dec k 0) as [|N]; auto. exfalso. pose proof (Ci k ltac:(lia)).
      destruct (cfrom_same (b_tri Hl Hk Ek) Hc) as [(E & _)|(E & _)]; [lia|].
      destruct (Nat.eq_dec (S k) (m l)) as [E1|N1]; [congruence|]. pose proof (Ci (S k) ltac:(lia)). lia. }
    subst k. exists l. split; auto. split; auto. pose proof (Ci 1 ltac:(lia)).
    destruct (cfrom_same (b_tri Hl Hk Ek) Hc) as [(_ & E)|(E & _)]; auto. lia.
  Qed.

  Lemma b_lt s : In s ss -> s < length seeds.
  Proof. intros H. destruct (b_at s H) as (a & b & Hc & _). eapply cfrom_lt; eauto. Qed.
  Lemma b_rot s : In s ss -> exists q a b, get seeds s = Ok q /\ rotate i (q_tri q) = Ok (a, b) /\ cfrom s i a b.
  Proof.
    intros H. destruct (b_at s H) as (a & b & Hc & Na & Nb). pose proof Hc as (q & _ & _ & _ & Hq & _).
    exists q. destruct (rotate_ok Hc Na Nb Hq) as [E|E]; rewrite E; [exists a, b|exists b, a]; split; try exact (get_some Hq); auto using cfrom_sym.
  Qed.

  Lemma neighbor_ok : starts_at seeds ns i ss p (c 0 1) -> feature_neighbor seeds ns i ss = Ok p.
  Proof.
    intros (l1 & s & l2 & Es & Hs & H1). pose proof HB as (H1L & Hp & HS & _). destruct (HS 0 ltac:(lia)) as (Hm & _ & _ & _ & Ci & _).
    pose proof (Ci 1 ltac:(lia)) as Lt.
    assert (G : forall l0, incl (l0 ++ s :: l2) ss -> (forall t, In t l0 -> In t l1) -> feature_neighbor seeds ns i (l0 ++ s :: l2) = Ok p).
    { induction l0 as [|t l0 IH]; intros Hi Hl0.
      - cbn [app feature_neighbor]. destruct (@b_rot s) as (q & a & b & E1 & E2 & Hc); [apply Hi; now left|]. rewrite E1. cbn [bind]. rewrite E2. cbn [bind].
        destruct (cfrom_same Hs Hc) as [(-> & ->)|(-> & ->)].
        + now rewrite (proj2 (Nat.leb_le ns p) Hp).
        + rewrite (proj2 (Nat.leb_gt ns (c 0 1)) Lt). now rewrite (proj2 (Nat.leb_le ns p) Hp).
      - cbn [app feature_neighbor]. destruct (@b_rot t) as (q & a & b & E1 & E2 & Hc); [apply Hi; now left|]. rewrite E1. cbn [bind]. rewrite E2. cbn [bind].
        destruct (H1 t a b (Hl0 t (or_introl eq_refl)) Hc) as (La & Lb).
        rewrite (proj2 (Nat.leb_gt ns a) La), (proj2 (Nat.leb_gt ns b) Lb). apply IH.
        + intros x Hx. apply Hi. now right.
        + intros x Hx. apply Hl0. now right. }
    rewrite Es. apply G; auto. rewrite <- Es. apply incl_refl.
  Qed.

  Lemma count_gen l : incl l ss -> exists n, count_at seeds i p l = Ok n
    /\ exists ls, n = length ls /\ (NoDup l -> NoDup ls) /\ forall s, In s ls <-> In s l /\ exists b, cfrom s i p b.
  Proof.
    induction l as [|s t IH]; intros Hi.
    - exists 0. split; auto. exists []. split; auto. split; auto. intros s. cbn. tauto.
    - destruct IH as (n & En & ls & Hn & ND & Hls); [intros x Hx; apply Hi; now right|].
      cbn [count_at]. destruct (@b_rot s) as (q & a & b & E1 & E2 & Hc); [apply Hi; now left|]. rewrite E1. cbn [bind]. rewrite E2. cbn [bind].
      rewrite En. cbn [bind]. eexists. split; [reflexivity|].
      destruct ((a =? p) || (b =? p)) eqn:O.
      + exists (s :: ls). split; [cbn; lia|]. split.
        * intros N. inversion N; subst. constructor; auto. rewrite Hls. tauto.
        * intros x. cbn [In]. rewrite Hls. split; [|tauto]. intros [<-|(? & ?)]; [split; auto|split; auto].
          apply orb_true_iff in O as [O|O]; apply Nat.eqb_eq in O; subst; eauto using cfrom_sym.
      + exists ls. split; auto. split; [intros N; inversion N; auto|]. intros x. rewrite Hls. cbn [In]. split; [tauto|].
        intros ([<-|Hx] & b' & Hb'); eauto. exfalso. apply orb_false_iff in O as (O1 & O2). apply Nat.eqb_neq in O1, O2.
        destruct (cfrom_same Hc Hb') as [(? & _)|(? & _)]; congruence.
  Qed.
  Lemma pages_nodup n : n <= L -> NoDup (flat_map (fun l => [lo l 0; up l 0]) (seq 0 n))
     /\ length (flat_map (fun l => [lo l 0; up l 0]) (seq 0 n)) = 2 * n.
  Proof.
    pose proof HB as (_ & _ & HS & _). induction n as [|n IH]; intros Hn; [split; auto; constructor|].
    destruct (IH ltac:(lia)) as (ND & Le). rewrite seq_S, flat_map_app. cbn [flat_map app Nat.add]. split; [|rewrite app_length; cbn; lia].
    apply (Permutation_NoDup (l := [lo n 0; up n 0] ++ flat_map (fun l => [lo l 0; up l 0]) (seq 0 n))); [apply Permutation_app_comm|].
    destruct (HS n ltac:(lia)) as (Hm & _ & _ & _ & _ & HT). destruct (sof_neq (HT 0 ltac:(lia))) as (_ & _ & N).
    assert (X : forall s, s = lo n 0 \/ s = up n 0 -> ~ In s (flat_map (fun l => [lo l 0; up l 0]) (seq 0 n))).
    { intros s Es Hs. apply in_flat_map in Hs as (l & Hl & Hs). apply in_seq in Hl. destruct (HS l ltac:(lia)) as (Hm' & _).
      destruct (@b_same s n 0 l 0) as (E & _); try lia; auto. destruct Hs as [<-|[<-|[]]]; auto. }
    cbn [app]. constructor; [|constructor; auto]. intros [H|H]; [congruence|]. revert H. apply X. auto.
  Qed.
  Lemma count_ok : exists n, count_at seeds i p ss = Ok n /\ Nat.div2 n = L.
  Proof.
    pose proof HB as (_ & _ & HS & _ & ND & _).
    destruct (@count_gen ss (incl_refl _)) as (n & En & ls & Hn & N & Hls). exists n. split; auto.
    destruct (@pages_nodup L (le_n _)) as (N2 & Le).
    assert (P : Permutation ls (flat_map (fun l => [lo l 0; up l 0]) (seq 0 L))).
    { apply NoDup_Permutation; auto. intros s. rewrite Hls, in_flat_map. split.
      - intros (Hs & b & Hb). destruct (b_at_p Hs Hb) as (l & Hl & Es & _). exists l. split; [apply in_seq; lia|]. cbn. destruct Es; auto.
      - intros (l & Hl & Hs). apply in_seq in Hl. destruct (HS l ltac:(lia)) as (Hm & C0 & _).
        assert (Es : s = lo l 0 \/ s = up l 0) by (cbn in Hs; destruct Hs as [<-|[<-|[]]]; auto).
        split; [destruct (@b_in l 0 ltac:(lia) ltac:(lia)); destruct Es as [->| ->]; auto|].
        exists (c l 1). rewrite <- C0. apply b_tri; auto; lia. }
    apply Permutation_length in P. rewrite Hn, P, Le. rewrite Nat.div2_double. reflexivity.
  Qed.

  (** The first spheres of the sheets. *)
  Lemma firsts_inj l l' : l < L -> l' < L -> c l 1 = c l' 1 -> l = l'.
  Proof.
    intros Hl Hl' E. pose proof HB as (_ & _ & HS & HD & _). destruct (HS l Hl) as (Hm & _), (HS l' Hl') as (Hm' & _).
    destruct (@HD l l' 1 1 Hl Hl' ltac:(lia) ltac:(lia) E). auto.
  Qed.
  Lemma sigma_short sg : NoDup sg -> (forall l, In l sg -> l < L) -> length sg <= L.
  Proof.
    intros ND H. rewrite <- (seq_length L 0). apply NoDup_incl_length; auto. intros l Hl. apply in_seq. specialize (H l Hl). lia.
  Qed.
  Lemma layer_gen l : incl l ss -> forall sg, NoDup sg -> (forall x, In x sg -> x < L) ->
    exists sg', first_layer seeds L i p l (map (fun x => c x 1) sg) = Ok (map (fun x => c x 1) (sg ++ sg'))
      /\ NoDup (sg ++ sg') /\ (forall x, In x (sg ++ sg') <-> In x sg \/ (x < L /\ exists s, In s l /\ cfrom s i p (c x 1)))
      /\ (forall s t b, l = s :: t -> sg = [] -> cfrom s i p b -> exists x u, sg' = x :: u /\ c x 1 = b).
  Proof.
    pose proof HB as (_ & _ & HS & _). induction l as [|s t IH]; intros Hi sg ND Hsg.
    - exists []. rewrite app_nil_r. split; auto. split; auto. split; [|discriminate]. intros x. split; auto. intros [|(_ & s & [] & _)]; auto.
    - cbn [first_layer]. destruct (@b_rot s) as (q & a & b & E1 & E2 & Hc); [apply Hi; now left|]. rewrite E1. cbn [bind]. rewrite E2. cbn [bind].
      assert (Hit : incl t ss) by (intros x Hx; apply Hi; now right).
      destruct ((a =? p) || (b =? p)) eqn:O; cbn [negb].
      + assert (Hk : cfrom s i p (if a =? p then b else a)).
        { destruct (Nat.eqb_spec a p) as [->|N]; auto. cbn [orb] in O. apply Nat.eqb_eq in O. subst b. auto using cfrom_sym. }
        destruct (b_at_p (Hi s (or_introl eq_refl)) Hk) as (x & Hx & Es & Ex). cbn zeta. rewrite Ex.
        assert (Only : forall y, y < L -> cfrom s i p (c y 1) -> y = x).
        { intros y Hy Cy. destruct (cfrom_same Hk Cy) as [(_ & Ey)|(Ey & _)].
          - apply firsts_inj; auto. congruence.
          - destruct (HS x Hx) as (Hmx & _ & _ & _ & Cix & _). pose proof (Cix 1 ltac:(lia)). destruct HB as (_ & Hp & _). lia. }
        destruct (existsb (Nat.eqb (c x 1)) (map (fun x => c x 1) sg)) eqn:Ee.
        * apply existsb_exists in Ee as (y & Hy & Ey). apply Nat.eqb_eq in Ey. apply in_map_iff in Hy as (z & Ez & Hz).
          assert (z = x) by (apply firsts_inj; auto; congruence). subst z.
          destruct (IH Hit sg ND Hsg) as (sg' & E & N & I1 & _). exists sg'. split; auto. split; auto. split.
          -- intros y'. rewrite I1. split; [intros [?|(? & s' & ? & ?)]; auto; right; split; auto; exists s'; split; auto; now right|].
             intros [?|(Hy' & s' & [<-|Hs'] & Cs')]; auto.
             ++ rewrite (Only _ Hy' Cs'). auto.
             ++ right. eauto.
          -- intros s' t' b' _ -> _. destruct Hz.
        * assert (Nx : ~ In x sg).
          { intros Hx'. enough (existsb (Nat.eqb (c x 1)) (map (fun x => c x 1) sg) = true) by congruence.
            apply existsb_exists. exists (c x 1). split; [apply in_map_iff; eauto|apply Nat.eqb_refl]. }
          assert (ND' : NoDup (sg ++ [x])).
          { apply (Permutation_NoDup (l := x :: sg)); [apply Permutation_cons_append|]. constructor; auto. }
          assert (Hsg' : forall y, In y (sg ++ [x]) -> y < L).
          { intros y Hy. apply in_app_iff in Hy as [Hy|[<-|[]]]; auto. }
          pose proof (sigma_short ND' Hsg') as Le. rewrite app_length in Le. cbn [length] in Le.
          rewrite map_length, (proj2 (Nat.leb_gt L (length sg))) by lia.
          replace (map (fun x0 => c x0 1) sg ++ [c x 1]) with (map (fun x0 => c x0 1) (sg ++ [x])) by (now rewrite map_app).
          destruct (IH Hit (sg ++ [x]) ND' Hsg') as (sg' & E & N & I1 & _). exists (x :: sg'). 
          replace (sg ++ x :: sg') with ((sg ++ [x]) ++ sg') by (now rewrite <- app_assoc). split; auto. split; auto. split.
          -- intros y'. rewrite I1, in_app_iff. cbn [In]. split.
             ++ intros [[?|[<-|[]]]|(? & s' & ? & ?)]; auto.
                ** right. split; auto. exists s. split; auto. rewrite <- Ex. auto.
                ** right. split; auto. exists s'. auto.
             ++ intros [?|(Hy' & s' & [<-|Hs'] & Cs')]; auto.
                ** rewrite (Only _ Hy' Cs'). auto.
                ** right. eauto.
          -- intros s' t' b' [= <- <-] -> Hb'. exists x, sg'. split; auto. destruct (cfrom_same Hk Hb') as [(_ & Ey)|(Ey1 & Ey2)]; [congruence|].
             rewrite Ey2, <- Ex. congruence.
      + destruct (IH Hit sg ND Hsg) as (sg' & E & N & I1 & _). exists sg'. split; auto. split; auto.
        apply orb_false_iff in O as (O1 & O2). apply Nat.eqb_neq in O1, O2.
        assert (No : forall y, ~ cfrom s i p y). { intros y Cy. destruct (cfrom_same Hc Cy) as [(? & _)|(? & _)]; congruence. }
        split; [|intros s' t' b' [= <- <-] _ Hb'; destruct (No _ Hb')].
        intros y'. rewrite I1. split; [intros [?|(? & s' & ? & ?)]; auto; right; split; auto; exists s'; split; auto; now right|].
        intros [?|(Hy' & s' & [<-|Hs'] & Cs')]; auto.
        * destruct (No _ Cs').
        * right. eauto.
  Qed.
  Lemma layer_skip l1 : incl l1 ss -> (forall t b, In t l1 -> ~ cfrom t i p b) -> forall l js,
    first_layer seeds L i p (l1 ++ l) js = first_layer seeds L i p l js.
  Proof.
    intros Hi Hn l js. induction l1 as [|s t IH]; auto. cbn [app first_layer].
    destruct (@b_rot s) as (q & a & b & E1 & E2 & Hc); [apply Hi; now left|]. rewrite E1. cbn [bind]. rewrite E2. cbn [bind].
    assert (O : (a =? p) || (b =? p) = false).
    { apply not_true_is_false. intros O. apply orb_true_iff in O as [O|O]; apply Nat.eqb_eq in O; subst.
      - apply (Hn s b (or_introl eq_refl)); auto.
      - apply (Hn s a (or_introl eq_refl)); auto using cfrom_sym. }
    rewrite O. cbn [negb]. apply IH; [intros x Hx; apply Hi; now right|]. intros x y Hx. apply Hn. now right.
  Qed.
  Lemma layer_ok : starts_at seeds ns i ss p (c 0 1) ->
    exists sg, first_layer seeds L i p ss [] = Ok (map (fun x => c x 1) (0 :: sg)) /\ Permutation (0 :: sg) (seq 0 L).
  Proof.
    intros (l1 & s & l2 & Es & Hs & H1). pose proof HB as (H1L & Hp & HS & _).
    assert (Hi : incl (s :: l2) ss) by (rewrite Es; apply incl_appr, incl_refl).
    assert (Hi1 : incl l1 ss) by (rewrite Es; apply incl_appl, incl_refl).
    assert (No : forall t b, In t l1 -> ~ cfrom t i p b). { intros t b Ht Hc. destruct (H1 t p b Ht Hc). lia. }
    destruct (@layer_gen (s :: l2) Hi [] (NoDup_nil _)) as (sg' & E & N & I1 & Hd); [intros x []|]. cbn [app map] in *.
    destruct (Hd s l2 (c 0 1) eq_refl eq_refl Hs) as (x & u & -> & Ex).
    assert (x = 0).
    { apply firsts_inj; auto; try lia. destruct (proj1 (I1 x) (or_introl eq_refl)) as [[]|(? & _)]; auto. }
    subst x. exists u. rewrite Es at 1. rewrite (layer_skip Hi1 No). split; [exact E|].
    apply NoDup_Permutation; auto; [apply seq_NoDup|]. intros x. rewrite I1, in_seq. cbn [In]. split; [intros [[]|(? & _)]; lia|].
    intros Hx. right. split; [lia|]. destruct (HS x ltac:(lia)) as (Hm & C0 & _).
    assert (Hc : cfrom (lo x 0) i p (c x 1)) by (rewrite <- C0; apply b_tri; auto; lia).
    exists (lo x 0). split; auto. destruct (@b_in x 0 ltac:(lia) ltac:(lia)) as (Hin & _). rewrite Es in Hin.
    apply in_app_iff in Hin as [Hin|Hin]; auto. destruct (No _ _ Hin Hc).
  Qed.

  (** The basis is the frame and the angles are the angles. *)
  Section Angle.
    Local Open Scope R_scope.
    Variables (e : nat -> nat -> R) (h : R) (theta r : nat -> R).
    Notation x := (fun l => c l 1%nat).
    Hypothesis HO : orthonormal_family 3 3 e.
    Hypothesis HE : forall d, (d < 3)%nat -> e 2%nat d = vprod (e 0%nat) (e 1%nat) d.
    Hypothesis Hh : 0 < h.
    Hypothesis Hax : forall d, (d < 3)%nat -> centre sph p d - centre sph i d = h * e 0%nat d.
    Hypothesis H0 : theta 0%nat = 0.
    Hypothesis Hth : forall l, (l < L)%nat -> 0 <= theta l < 2 * PI.
    Hypothesis Hang : forall l, (l < L)%nat ->
           let X := dot 3 (sub (centre sph (x l)) (centre sph i)) (e 1%nat) in
           let Y := dot 3 (sub (centre sph (x l)) (centre sph i)) (e 2%nat) in
           0 < r l /\ X = r l * cos (theta l) /\ Y = r l * sin (theta l)
           /\ (1 / 10 ^ 10 <= Rabs X \/ 1 / 10 ^ 10 <= Rabs Y)
           /\ (X <= - (1 / 10 ^ 10) \/ 0 <= X) /\ (Y <= - (1 / 10 ^ 10) \/ 0 <= Y).

    Lemma sum3 (f : nat -> R) : range_sum 0 3 f = f 0%nat + f 1%nat + f 2%nat.
    Proof. unfold range_sum. cbn [loop_sum Nat.sub]. change nadd with Rplus. change (@n0 R _) with 0. ring. Qed.

    Lemma norm_scaled (v u : nat -> R) t : 0 < t -> dot 3 u u = 1 -> (forall d, (d < 3)%nat -> v d = t * u d) ->
      sqrt (range_sum 0 3 (fun d => v d * v d)) = t.
    Proof.
      intros Ht Hu Hv. rewrite sum3, !Hv by lia. rewrite dot3 in Hu.
      replace (_ + _ + _) with (t * t * (u 0%nat * u 0%nat + u 1%nat * u 1%nat + u 2%nat * u 2%nat)) by ring.
      rewrite Hu, Rmult_1_r. apply sqrt_square. lra.
    Qed.
    Lemma basis_gen (a b e1 b' e2 : nat -> R) na dt nb al rr : (forall d, (d < 3)%nat -> a d = h * e 0%nat d) -> 0 < rr ->
      (forall d, (d < 3)%nat -> b d = al * e 0%nat d + rr * e 1%nat d) ->
      na = sqrt (range_sum 0 3 (fun d => a d * a d)) -> (forall d, e1 d = a d / na) ->
      dt = range_sum 0 3 (fun d => b d * e1 d) -> (forall d, b' d = b d - dt * e1 d) ->
      nb = sqrt (range_sum 0 3 (fun d => b' d * b' d)) -> (forall d, e2 d = b' d / nb) ->
      forall d, (d < 3)%nat -> e1 d = e 0%nat d /\ e2 d = e 1%nat d.
    Proof.
      pose proof (@HO 0%nat 0%nat ltac:(lia) ltac:(lia)) as H00. pose proof (@HO 1%nat 1%nat ltac:(lia) ltac:(lia)) as H11.
      pose proof (@HO 1%nat 0%nat ltac:(lia) ltac:(lia)) as H01. cbn [Nat.eqb] in *.
      intros Ha Hrr Hb Ena Ee1 Edt Eb' Enb Ee2. rewrite (@norm_scaled a (e 0%nat) h) in Ena by auto. subst na.
      assert (F1 : forall d, (d < 3)%nat -> e1 d = e 0%nat d) by (intros d Hd; rewrite Ee1, Ha by auto; field; lra).
      assert (Dt : dt = al).
      { rewrite Edt, sum3, !F1, !Hb by lia. rewrite dot3 in H00, H01.
        replace (_ + _ + _) with (al * (e 0%nat 0%nat * e 0%nat 0%nat + e 0%nat 1%nat * e 0%nat 1%nat + e 0%nat 2%nat * e 0%nat 2%nat)
          + rr * (e 1%nat 0%nat * e 0%nat 0%nat + e 1%nat 1%nat * e 0%nat 1%nat + e 1%nat 2%nat * e 0%nat 2%nat)) by ring.
        rewrite H00, H01. ring. }
      assert (F : forall d, (d < 3)%nat -> b' d = rr * e 1%nat d) by (intros d Hd; rewrite Eb', Hb, F1, Dt by auto; ring).
      rewrite (@norm_scaled b' (e 1%nat) rr) in Enb by auto. subst nb.
      intros d Hd. split; auto. rewrite Ee2, F by auto. field. lra.
    Qed.
    Lemma basis_ok e1 e2 e3 : (1 <= L)%nat -> edge_basis (nth i sph []) (nth p sph []) (nth (c 0%nat 1%nat) sph []) = (e1, e2, e3) ->
      forall d, (d < 3)%nat -> e2 d = e 1%nat d /\ e3 d = e 2%nat d.
    Proof.
      intros H1 E. unfold edge_basis in E. cbn zeta in E.
      set (w := sub (centre sph (c 0%nat 1%nat)) (centre sph i)).
      destruct (@Hang 0%nat ltac:(lia)) as (Hr & HX & HY & _). rewrite H0, cos_0, sin_0 in *. fold w in HX, HY.
      assert (W : forall d, (d < 3)%nat -> w d = dot 3 w (e 0%nat) * e 0%nat d + r 0%nat * e 1%nat d).
      { intros d Hd. rewrite (@span3 e w d HO HE Hd) at 1. rewrite HX, HY. ring. }
      pose (a := fun d => nth d (nth p sph []) 0 - nth d (nth i sph []) 0).
      pose (na := sqrt (range_sum 0 3 (fun d => a d * a d))). pose (f1 := fun d => a d / na).
      pose (dt := range_sum 0 3 (fun d => w d * f1 d)). pose (b' := fun d => w d - dt * f1 d).
      pose (nb := sqrt (range_sum 0 3 (fun d => b' d * b' d))). pose (f2 := fun d => b' d / nb).
      pose proof (@basis_gen a w f1 b' f2 na dt nb (dot 3 w (e 0%nat)) (r 0%nat) Hax Hr W eq_refl (fun _ => eq_refl) eq_refl (fun _ => eq_refl) eq_refl (fun _ => eq_refl)) as F.
      change ((f1, f2, cross f1 f2) = (e1, e2, e3)) in E. clearbody f2 f1. injection E as -> -> E3.
      intros d Hd. split; [now apply F|]. rewrite <- E3, (@HE d Hd). unfold cross, vprod.
      change nsub with Rminus. change nmul with Rmult.
      destruct (F 0%nat ltac:(lia)) as (-> & ->), (F 1%nat ltac:(lia)) as (-> & ->), (F 2%nat ltac:(lia)) as (-> & ->).
      destruct d as [|[|d]]; reflexivity.
    Qed.

    Lemma angle_ok e2 e3 l : (forall d, (d < 3)%nat -> e2 d = e 1%nat d /\ e3 d = e 2%nat d) -> (l < L)%nat ->
      layer_angle sph point_angle (nth i sph []) e2 e3 (c l 1%nat) = Ok (theta l).
    Proof.
      intros HE2 Hl. unfold layer_angle.
      assert (Hlt : (c l 1 < length sph)%nat).
      { pose proof HB as (_ & _ & HS & _). destruct (HS l Hl) as (Hm & _ & _ & _ & _ & HT). destruct (HT 0%nat ltac:(lia)) as (_ & _ & ? & _). auto. }
      rewrite (get_some (nth_error_nth' sph [] Hlt)). cbn [bind]. f_equal.
      change nsub with Rminus. change nmul with Rmult. change (@n0 R _) with 0. rewrite !sum3.
      destruct (@Hang l Hl) as (Hr & HX & HY & T1 & T2 & T3). set (w := sub (centre sph (c l 1%nat)) (centre sph i)) in *.
      assert (W' : forall d, nth d (nth (c l 1%nat) sph []) 0 - nth d (nth i sph []) 0 = w d) by reflexivity.
      destruct (HE2 0%nat ltac:(lia)) as (-> & ->), (HE2 1%nat ltac:(lia)) as (-> & ->), (HE2 2%nat ltac:(lia)) as (-> & ->).
      rewrite !W'. replace (w 0%nat * e 1%nat 0%nat + _ + _) with (dot 3 w (e 1%nat)) by (rewrite dot3; reflexivity).
      replace (w 0%nat * e 2%nat 0%nat + _ + _) with (dot 3 w (e 2%nat)) by (rewrite dot3; reflexivity).
      destruct (@C62_point_angle _ _ T1 T2 T3) as (Hp & PX & PY). cbn zeta in PX, PY.
      set (t := point_angle _ _) in *. set (rr := sqrt _) in *.
      assert (Rr : rr = r l).
      { unfold rr. rewrite HX, HY. replace (_ + _) with (r l * r l * (Rsqr (sin (theta l)) + Rsqr (cos (theta l)))) by (unfold Rsqr; ring).
        rewrite sin2_cos2, Rmult_1_r. apply sqrt_square. lra. }
      rewrite Rr in *. apply (@angle_unique (r l)); auto; congruence.
    Qed.
    Lemma angles_ok e2 e3 sg : (forall d, (d < 3)%nat -> e2 d = e 1%nat d /\ e3 d = e 2%nat d) -> (forall l, In l sg -> (l < L)%nat) ->
      layer_angles sph point_angle (nth i sph []) e2 e3 (map x sg) = Ok (map theta sg).
    Proof.
      intros HE2. induction sg as [|l sg IH]; intros Hsg; [reflexivity|]. cbn [map layer_angles].
      rewrite (@angle_ok e2 e3 l HE2) by (apply Hsg; now left). cbn [bind]. rewrite IH by (intros y Hy; apply Hsg; now right). reflexivity.
    Qed.
  End Angle.

  Lemma sort_ok (theta : nat -> R) sg : (1 <= L) -> Permutation sg (seq 0 L) -> (forall l l', l < l' < L -> (theta l < theta l')%R) ->
    exists th', quicksort2 (@nltb R RNum) (map theta sg) (map (fun l => c l 1) sg) 0 (length (map (fun l => c l 1) sg) - 1)
      = Ok (th', map (fun l => c l 1) (seq 0 L)).
  Proof.
    intros H1 P Hlt. assert (Le : length sg = L) by (rewrite (Permutation_length P), seq_length; reflexivity).
    destruct (@quicksort2_correct R nat (@nltb R RNum) Rltb_sw (map theta sg) (map (fun l => c l 1) sg) 0 (length (map (fun l => c l 1) sg) - 1))
      as (th' & js' & E & L1 & L2 & Pm & Hs & _).
    { lia. } { rewrite !map_length. lia. } { now rewrite !map_length. }
    exists th'. rewrite E. do 2 f_equal. rewrite !map_length in *.
    set (f := fun l => (theta l, c l 1)).
    assert (Ec : combine (map theta sg) (map (fun l => c l 1) sg) = map f sg).
    { clear. induction sg as [|y t IH]; [reflexivity|]. cbn [map combine]. rewrite IH. reflexivity. }
    rewrite Ec in Pm.
    assert (Pf : Permutation (combine th' js') (map f (seq 0 L))) by (rewrite <- Pm; now apply Permutation_map).
    assert (SS1 : StronglySorted (fun a b => (fst a < fst b)%R) (map f (seq 0 L))).
    { assert (G : forall n a, a + n <= L -> StronglySorted (fun a b => (fst a < fst b)%R) (map f (seq a n))); [|apply G; lia].
      induction n as [|n IH]; intros a Ha; [constructor|]. cbn [seq map]. constructor; [apply IH; lia|].
      apply Forall_forall. intros y Hy. apply in_map_iff in Hy as (z & <- & Hz). apply in_seq in Hz. cbn. apply Hlt. lia. }
    assert (ND : NoDup th').
    { assert (Pt : Permutation th' (map theta (seq 0 L))).
      { apply (Permutation_map fst) in Pf. rewrite map_map in Pf. cbn [fst f] in Pf.
        replace (map fst (combine th' js')) with th' in Pf; [exact Pf|].
        clear - L1 L2. assert (Le' : length th' = length js') by lia. clear L1 L2. revert js' Le'. induction th' as [|y t IH]; intros [|z js'] Le'; try discriminate; auto. cbn. f_equal. apply IH. now injection Le'. }
      apply (Permutation_NoDup (Permutation_sym Pt)). clear - Hlt.
      assert (G : forall n a, a + n <= L -> NoDup (map theta (seq a n))); [|apply G; lia].
      induction n as [|n IH]; intros a Ha; [constructor|]. cbn [seq map]. constructor; [|apply IH; lia].
      intros Hy. apply in_map_iff in Hy as (z & Ez & Hz). apply in_seq in Hz. specialize (Hlt a z ltac:(lia)). lra. }
    assert (SS2 : StronglySorted (fun a b => (fst a < fst b)%R) (combine th' js')).
    { assert (G : forall k k' y z, k < k' -> nth_error th' k = Some y -> nth_error th' k' = Some z -> (y < z)%R).
      { intros k k' y z Hk Hy Hz. pose proof (nth_error_Some_lt _ _ Hz) as Hlz.
        assert (Le1 : (y <= z)%R). { assert (B := Hs k k' y z ltac:(lia) ltac:(lia) ltac:(lia) Hy Hz). apply Rltb_false in B. exact B. }
        destruct (Rle_lt_or_eq_dec _ _ Le1) as [|Ez]; auto. exfalso. subst z.
        rewrite NoDup_nth_error in ND. assert (k = k') by (apply ND; [eapply nth_error_Some_lt; eauto|congruence]). lia. }
      clear - G. revert js'. induction th' as [|y t IH]; intros [|z js']; try (cbn; constructor).
      - apply IH. intros k k' a b Hk Ha Hb. apply (G (S k) (S k')); auto. lia.
      - apply Forall_forall. intros (a & b) Hab. apply in_combine_l in Hab. apply In_nth_error in Hab as (k & Hk). cbn.
        apply (G 0 (S k)); auto. lia. }
    assert (Ef := @sorted_unique R Rlt (R * nat) fst Rlt_irrefl Rlt_trans _ _ SS2 SS1 Pf).
    apply (f_equal (map snd)) in Ef. rewrite map_map in Ef. cbn [snd f] in Ef. rewrite <- Ef.
    clear - L1 L2. assert (Le' : length th' = length js') by lia. clear L1 L2. revert js' Le'. induction th' as [|y t IH]; intros [|z js'] Le'; try discriminate; auto. cbn. f_equal. apply IH. now injection Le'.
  Qed.

  (** The markers of sheet l. *)
  Definition ip_of (l : nat) : nat := if L <? S (S l) then 1 else S (S l).
  Definition sheet_marked (col : list nat) (l : nat) : Prop :=
    forall k, k < m l -> nth (lo l k) col 0 = S l /\ nth (up l k) col 0 = ip_of l.
  Definition sheet_clear (col : list nat) (l : nat) : Prop :=
    forall k, k < m l -> nth (lo l k) col 0 = 0 /\ nth (up l k) col 0 = 0.

  Lemma sheets_ok n : forall l0 col, l0 + n = L -> length col = length seeds ->
    (forall l, l < l0 -> sheet_marked col l) -> (forall l, l0 <= l < L -> sheet_clear col l) ->
    exists col', mark_sheets sph seeds ns i p L l0 (map (fun l => c l 1) (seq l0 n)) ss col = Ok col' /\ length col' = length seeds
      /\ (forall l, l < L -> sheet_marked col' l) /\ (forall x, ~ In x ss -> nth x col' 0 = nth x col 0).
  Proof.
    pose proof HB as (_ & Hp & HS & HD & _ & HI).
    induction n as [|n IH]; intros l0 col Hl0 Lc HM HC.
    - exists col. cbn. split; auto. split; auto. split; auto. intros l Hl. apply HM. lia.
    - cbn [seq map mark_sheets]. assert (Hl : l0 < L) by lia. destruct (HS l0 Hl) as (Hm & C0 & Ce & Cp & Ci & HT).
      destruct (@find_ok seeds i (fun sj sk => ((sj =? p) || (sj =? c l0 1)) && ((sk =? p) || (sk =? c l0 1))) ss col b_at Lc) as (o & Eo & Ho).
      rewrite Eo. cbn [bind]. destruct (HC l0 ltac:(lia) 0 ltac:(lia)) as (Z1 & Z2). destruct (@b_in l0 0 Hl ltac:(lia)) as (In1 & In2).
      assert (C1 : cfrom (lo l0 0) i p (c l0 1)) by (rewrite <- C0; apply b_tri; auto; lia).
      pose proof (Ci 1 ltac:(lia)) as Lt1.
      destruct o as [((s, sj), sk)|].
      2:{ exfalso. destruct (Ho (lo l0 0) _ _ In1 Z1 C1) as [F|F]; rewrite !Nat.eqb_refl, ?orb_true_r in F; discriminate. }
      destruct Ho as (Is & Zs & Ok1 & Cs).
      assert (Es : s = lo l0 0 \/ s = up l0 0).
      { pose proof Is as Is'. apply HI in Is' as (l & k & Hl' & Hk & Ek). pose proof (b_tri Hl' Hk Ek) as Ct.
        destruct (HS l Hl') as (Hm' & C0' & Ce' & Cp' & Ci' & _).
        apply andb_true_iff in Ok1 as (O1 & O2). apply orb_true_iff in O1, O2. rewrite !Nat.eqb_eq in O1, O2.
        assert (Ok' : (c l k = p \/ c l k = c l0 1) /\ (c l (S k) = p \/ c l (S k) = c l0 1)).
        { destruct (cfrom_same Ct Cs) as [(<- & <-)|(<- & <-)]; auto. }
        destruct Ok' as (K1 & K2). destruct (Nat.eq_dec k 0) as [->|Nk].
        - pose proof (Ci' 1 ltac:(lia)). destruct K2 as [K2|K2]; [lia|]. apply firsts_inj in K2; auto. subst l. auto.
        - pose proof (Ci' k ltac:(lia)). destruct K1 as [K1|K1]; [lia|]. destruct (@HD l l0 k 1 Hl' Hl ltac:(lia) ltac:(lia) K1) as (-> & ->).
          exfalso. destruct K2 as [K2|K2].
          + apply (@b_apart l0 1 Hl ltac:(lia)). cbn [Nat.sub]. congruence.
          + destruct (Nat.eq_dec 2 (m l0)) as [E2|N2]; [rewrite E2 in K2; lia|].
            destruct (@HD l0 l0 2 1 Hl Hl ltac:(lia) ltac:(lia) K2). lia. }
      assert (Cst : cfrom s i p (c l0 1)) by (rewrite <- C0; apply b_tri; auto; lia).
      assert (Ejk : (if sj =? p then sj else sk) = p /\ (if sj =? p then sk else sj) = c l0 1).
      { destruct (cfrom_same Cst Cs) as [(-> & ->)|(-> & ->)].
        - rewrite Nat.eqb_refl. auto.
        - rewrite (proj2 (Nat.eqb_neq (c l0 1) p)) by lia. auto. }
      destruct Ejk as (Ej & Ek). cbn zeta. rewrite Ej, Ek. fold (ip_of l0).
      assert (HT0 : sof i p (c l0 1) (lo l0 0) (up l0 0)) by (rewrite <- C0; apply HT; lia).
      destruct (@mark_ok sph seeds i p (c l0 1) (lo l0 0) (up l0 0) s (S l0) (ip_of l0) col HT0 Es Lc) as (c1 & E1 & L1 & M1 & M2 & M3).
      rewrite E1. cbn [bind].
      assert (Hip : ip_of l0 <> 0) by (unfold ip_of; destruct (L <? S (S l0)); lia).
      assert (Hinj : forall k k', k < m l0 -> k' < m l0 -> k <> k' -> lo l0 k <> lo l0 k' /\ lo l0 k <> up l0 k' /\ up l0 k <> up l0 k').
      { intros k k' Hk Hk' N. destruct (@b_neq l0 k l0 k') as (? & ? & ? & ?); auto. }
      assert (Hin : forall k, k < m l0 -> In (lo l0 k) ss /\ In (up l0 k) ss) by (intros k Hk; now apply b_in).
      destruct (@walk_ok sph seeds i (S l0) (ip_of l0) (m l0) (fun k => ns <=? k) ss (c l0) (lo l0) (up l0) b_at HT Hin Hinj)
        with (r := m l0 - 2) (t := 1) (fuel := S (length ss)) (col := c1) as (c2 & E2 & L2 & A & B); auto; try lia.
      + intros t s' b Ht Hs' Hc'. apply HI in Hs' as (l & k & Hl' & Hk & Ek').
        destruct (@b_touch l0 t l k s' b Hl Ht Hl' Hk Ek' Hc') as (-> & [(-> & _)|(<- & _)]); [tauto|].
        replace (S k - 1) with k by lia. tauto.
      + intros t Ht. apply Nat.leb_gt. apply Ci. lia.
      + pose proof (@chain_short (m l0) ss (lo l0) (up l0) Hin Hinj). lia.
      + intros k Hk. destruct (@b_neq l0 k l0 0) as (? & ? & ? & ?); try lia. rewrite !M3 by auto. apply HC; lia.
      + cbn [Nat.sub]. rewrite M1. lia.
      + cbn [Nat.sub]. rewrite M2. exact Hip.
      + rewrite E2. cbn [bind].
        assert (Far : forall l k, l < L -> k < m l -> l <> l0 -> nth (lo l k) c2 0 = nth (lo l k) col 0 /\ nth (up l k) c2 0 = nth (up l k) col 0).
        { intros l k Hl' Hk N. destruct (@b_neq l k l0 0) as (? & ? & ? & ?); try lia.
          rewrite !B by (intros k' Hk'; destruct (@b_neq l k l0 k') as (? & ? & ? & ?); try lia; auto). rewrite !M3 by auto. auto. }
        destruct (IH (S l0) c2) as (c3 & E3 & L3 & HM3 & K3); auto; try lia.
        * intros l Hl'. destruct (Nat.eq_dec l l0) as [->|N].
          -- intros k Hk. destruct (Nat.eq_dec k 0) as [->|Nk]; [|apply A; lia].
             rewrite !B by (intros k' Hk'; destruct (@b_neq l0 0 l0 k') as (? & ? & ? & ?); try lia; auto). auto.
          -- intros k Hk. destruct (Far l k ltac:(lia) Hk N) as (-> & ->). apply HM; auto. lia.
        * intros l Hl' k Hk. destruct (Far l k ltac:(lia) Hk ltac:(lia)) as (-> & ->). apply HC; auto. lia.
        * exists c3. split; auto. split; auto. split; auto. intros x Hx. rewrite K3 by auto.
          rewrite B by (intros k Hk; destruct (Hin k ltac:(lia)); split; intros ->; contradiction).
          apply M3; intros ->; contradiction.
  Qed.

  Lemma edge_ok col : length col = length seeds -> starts_at seeds ns i ss p (c 0 1) -> by_angle sph i p L (fun l => c l 1) ->
    exists col' l, edge_sphere sph seeds point_angle ns i ss col = Ok (col', l) /\ length col' = length seeds
      /\ (forall x, In x ss -> nth x col' 0 = 0) /\ (forall x, ~ In x ss -> nth x col' 0 = nth x col 0)
      /\ (forall a b, In (a, b) l -> In a ss /\ In b ss)
      /\ (forall a b, joined l a b <-> a <> b /\ same_sector L m lo up a b).
  Proof.
    intros Lc Hst (e & h & theta & r & HO & HE & Hh & Hax & H0 & Hth & Hlt & Hang).
    pose proof HB as (H1L & Hp & HS & HD & ND & HI).
    unfold edge_sphere. destruct (@clear_ok ss col) as (c0 & E0 & L0 & Z0 & K0 & _); [rewrite Lc; apply b_lt|]. rewrite E0. cbn [bind].
    rewrite (neighbor_ok Hst). cbn [bind]. destruct count_ok as (n & En & Hn). rewrite En. cbn [bind]. rewrite Hn.
    destruct (layer_ok Hst) as (sg & Ej & P). rewrite Ej. cbn [bind].
    destruct (HS 0 ltac:(lia)) as (Hm & C0 & _ & _ & _ & HT). destruct (HT 0 ltac:(lia)) as (Hi & Hpl & Hx & _). rewrite C0 in Hpl.
    rewrite (get_some (nth_error_nth' sph [] Hi)), (get_some (nth_error_nth' sph [] Hpl)). cbn [bind].
    change (get (map (fun x => c x 1) (0 :: sg)) 0) with (Ok (c 0 1)). cbn [bind].
    rewrite (get_some (nth_error_nth' sph [] Hx)). cbn [bind].
    destruct (edge_basis (nth i sph []) (nth p sph []) (nth (c 0 1) sph [])) as ((e1, e2), e3) eqn:Eb.
    pose proof (@basis_ok e h theta r HO HE Hh Hax H0 Hth Hang e1 e2 e3 ltac:(lia) Eb) as HE2.
    rewrite (@angles_ok e h theta r HE Hax Hth Hang e2 e3 (0 :: sg) HE2).
    2:{ intros l Hl. apply (Permutation_in l) in P; auto. apply in_seq in P. lia. }
    cbn [bind]. destruct (@sort_ok theta (0 :: sg) H1L P Hlt) as (th' & Eq). rewrite Eq. cbn [bind].
    assert (Le : length (map (fun x => c x 1) (0 :: sg)) = L) by (rewrite map_length, (Permutation_length P), seq_length; reflexivity).
    rewrite Le.
    destruct (@sheets_ok L 0 c0) as (c1 & E1 & L1 & HM & K1); auto; try lia.
    { intros l Hl k Hk. destruct (@b_in l k ltac:(lia) Hk). auto. }
    rewrite E1. cbn [bind]. destruct (@link_ok c1 ss) as (l & El & Il & Jl); [rewrite L1; apply b_lt|]. rewrite El. cbn [bind].
    destruct (@clear_ok ss c1) as (c3 & E3 & L3 & Z3 & K3 & _); [rewrite L1; apply b_lt|]. rewrite E3. cbn [bind].
    exists c3, l. split; auto. split; [lia|]. split; auto. split; [intros x Hx'; rewrite K3, K1, K0; auto|]. split; auto.
    assert (Sec : forall a, In a ss -> exists n, in_sector L m lo up a n /\ nth a c1 0 = S n).
    { intros a Ha. apply HI in Ha as (l' & k & Hl' & Hk & Ek). destruct (HM l' Hl' k Hk) as (M1 & M2). destruct Ek as [->| ->].
      - exists l'. split; auto. exists l', k. auto.
      - exists (if S l' =? L then 0 else S l'). split; [exists l', k; auto|]. rewrite M2. unfold ip_of.
        destruct (Nat.ltb_spec L (S (S l'))), (Nat.eqb_spec (S l') L); auto; lia. }
    assert (Sec' : forall a n, in_sector L m lo up a n -> In a ss /\ nth a c1 0 = S n).
    { intros a n' (l' & k & Hl' & Hk & Ek). destruct (HM l' Hl' k Hk) as (M1 & M2), (@b_in l' k Hl' Hk).
      destruct Ek as [(-> & ->)|(-> & ->)]; auto. split; auto. rewrite M2. unfold ip_of.
      destruct (Nat.ltb_spec L (S (S l'))), (Nat.eqb_spec (S l') L); auto; lia. }
    intros a b. rewrite (Jl ND). split.
    - intros (N & Ha & Hb & Em). split; auto. destruct (Sec a Ha) as (na & Sa & Ma), (Sec b Hb) as (nb & Sb & Mb).
      exists na. split; auto. replace na with nb by lia. auto.
    - intros (N & n' & Sa & Sb). apply Sec' in Sa as (? & ?). apply Sec' in Sb as (? & ?). repeat split; auto. congruence.
  Qed.
End Sides.
