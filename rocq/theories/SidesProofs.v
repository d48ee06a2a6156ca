(** Proofs about the seeds on the same side of a surface sphere. *)
From Coq Require Import Reals Lra.
From Verif Require Import Base Num Vec KdSpec DenseQR DenseQRProofs Geometry GeometrySpec GeometryProofs SeedSides SidesSpec.
Local Open Scope nat_scope.

Lemma set_nth (l : list nat) i v : i < length l ->
  exists l', set l i v = Ok l' /\ length l' = length l /\ forall x, nth x l' 0 = if x =? i then v else nth x l 0.
Proof.
  intros H. exists (upd l i v). rewrite set_Ok by auto. split; auto. split; [apply upd_length|]. intros x.
  destruct (Nat.eqb_spec x i) as [->|N].
  - apply nth_error_nth. now apply upd_nth_same.
  - assert (E := upd_nth_other l v N). revert E. generalize (upd l i v) as l2. intros l2 E.
    destruct (nth_error l x) as [a|] eqn:E1.
    + rewrite (nth_error_nth l x 0 E1). now apply nth_error_nth.
    + apply nth_error_None in E1. apply nth_error_None in E. rewrite !nth_overflow; auto.
Qed.
Lemma get_nth (l : list nat) i : i < length l -> get l i = Ok (nth i l 0).
Proof. intros H. apply get_some. now apply nth_error_nth'. Qed.

Lemma clear_ok ss : forall col, (forall s, In s ss -> s < length col) ->
  exists c, clear_marks ss col = Ok c /\ length c = length col
    /\ (forall x, In x ss -> nth x c 0 = 0) /\ (forall x, ~ In x ss -> nth x c 0 = nth x col 0)
    /\ (forall x, nth x col 0 = 0 -> nth x c 0 = 0).
Proof.
  induction ss as [|s t IH]; intros col H.
  - exists col. cbn. repeat split; auto. intros x [].
  - cbn [clear_marks]. destruct (@set_nth col s 0 (H s (or_introl eq_refl))) as (c1 & E1 & L1 & N1). rewrite E1. cbn [bind].
    destruct (IH c1) as (c & E & L & A & B & Z); [intros x Hx; rewrite L1; apply H; now right|].
    exists c. split; auto. split; [lia|].
    assert (Z' : forall x, nth x col 0 = 0 -> nth x c 0 = 0).
    { intros x Hx. apply Z. rewrite N1. destruct (x =? s); auto. }
    split; [|split; auto].
    + intros x [<-|Hx]; auto. destruct (in_dec Nat.eq_dec s t); auto. rewrite B by auto. rewrite N1, Nat.eqb_refl. reflexivity.
    + intros x Hx. rewrite B by (intros Hy; apply Hx; now right). rewrite N1.
      destruct (Nat.eqb_spec x s) as [->|]; auto. exfalso. apply Hx. now left.
Qed.

Lemma with_mark_ok c col l : (forall s, In s l -> s < length col) ->
  exists r, with_mark c l col = Ok r /\ forall b, In b r <-> In b l /\ nth b col 0 = c.
Proof.
  induction l as [|s t IH]; intros H.
  - exists []. split; auto. intros b. cbn. tauto.
  - cbn [with_mark]. rewrite (@get_nth col s) by (apply H; now left). cbn [bind].
    destruct IH as (r & -> & Hr); [intros x Hx; apply H; now right|]. cbn [bind].
    eexists. split; [reflexivity|]. intros b. destruct (Nat.eqb_spec c (nth s col 0)) as [E|N].
    + cbn [In]. rewrite Hr. split; [intros [<-|[]]; auto|intros [[<-|] ]; auto].
    + rewrite Hr. cbn [In]. split; [tauto|]. intros [[<-|] ]; auto. congruence.
Qed.
Lemma link_ok col ss : (forall s, In s ss -> s < length col) ->
  exists l, link_equal ss col = Ok l
    /\ (forall a b, In (a, b) l -> In a ss /\ In b ss)
    /\ (NoDup ss -> forall a b, joined l a b <-> a <> b /\ In a ss /\ In b ss /\ nth a col 0 = nth b col 0).
Proof.
  induction ss as [|s t IH]; intros H.
  - exists []. split; auto. unfold joined. cbn. split; [tauto|]. intros _ a b. tauto.
  - cbn [link_equal]. rewrite (@get_nth col s) by (apply H; now left). cbn [bind].
    destruct (@with_mark_ok (nth s col 0) col t) as (w & -> & Hw); [intros x Hx; apply H; now right|]. cbn [bind].
    destruct IH as (l & -> & Hin & Hl); [intros x Hx; apply H; now right|]. cbn [bind].
    eexists. split; [reflexivity|]. split.
    { intros a b Hab. apply in_app_iff in Hab as [Hab|Hab].
      - apply in_map_iff in Hab as (y & [= <- <-] & Hy). apply Hw in Hy as (Hy & _). split; [now left|now right].
      - destruct (Hin _ _ Hab). split; now right. }
    intros ND a b. inversion ND as [|? ? Ns NDt]; subst. specialize (Hl NDt). unfold joined in *.
    assert (M : forall a b, In (a, b) (map (pair s) w ++ l) <-> (a = s /\ In b t /\ nth b col 0 = nth s col 0) \/ In (a, b) l).
    { intros x y. rewrite in_app_iff, in_map_iff. split.
      - intros [(z & [= <- <-] & Hz)|Hz]; auto. apply Hw in Hz. left. tauto.
      - intros [(-> & Hz)|Hz]; auto. left. exists y. split; auto. apply Hw. tauto. }
    rewrite !M. cbn [In]. specialize (Hl a b). split.
    + intros [[(-> & Hb & Hc)|Hb]|[(-> & Hb & Hc)|Hb]].
      * split; [intros ->; contradiction|]. auto.
      * destruct (proj1 Hl (or_introl Hb)) as (? & ? & ? & ?). auto.
      * split; [intros ->; contradiction|]. auto.
      * destruct (proj1 Hl (or_intror Hb)) as (? & ? & ? & ?). auto.
    + intros (Nab & [<-|Ha] & [<-|Hb] & Ec); try congruence; auto.
      destruct (proj2 Hl) as [?|?]; auto.
Qed.

Lemma put_ok (b : bool) lo up im ip col : lo < length col -> up < length col -> lo <> up ->
  exists c, (if b then put_marks true lo up im ip col else put_marks false up lo im ip col) = Ok c
    /\ length c = length col
    /\ nth lo c 0 = im /\ nth up c 0 = ip /\ (forall x, x <> lo -> x <> up -> nth x c 0 = nth x col 0).
Proof.
  intros Hl Hu N. unfold put_marks. destruct b.
  - destruct (@set_nth col lo im Hl) as (c1 & E1 & L1 & N1). rewrite E1. cbn [bind].
    destruct (@set_nth c1 up ip ltac:(lia)) as (c & E & L & N2). exists c. split; auto. split; [lia|].
    rewrite !N2, !N1, !Nat.eqb_refl. rewrite (proj2 (Nat.eqb_neq lo up)) by auto. repeat split; auto.
    intros x X1 X2. rewrite N2, N1, (proj2 (Nat.eqb_neq x up)), (proj2 (Nat.eqb_neq x lo)); auto.
  - destruct (@set_nth col up ip Hu) as (c1 & E1 & L1 & N1). rewrite E1. cbn [bind].
    destruct (@set_nth c1 lo im ltac:(lia)) as (c & E & L & N2). exists c. split; auto. split; [lia|].
    rewrite !N2, !N1, !Nat.eqb_refl. rewrite (proj2 (Nat.eqb_neq up lo)) by auto. repeat split; auto.
    intros x X1 X2. rewrite N2, N1, (proj2 (Nat.eqb_neq x up)), (proj2 (Nat.eqb_neq x lo)); auto.
Qed.

Section Sides.
  Variables (sph : list (list R)) (seeds : list (pseed R)).
  Notation cfrom := (comes_from seeds).
  Notation sof := (seeds_of sph seeds).

  Lemma cfrom_sym s i a b : cfrom s i a b -> cfrom s i b a.
  Proof.
    intros (q & x & y & z & Hq & Ht & P). exists q, x, y, z. split; auto. split; auto.
    rewrite P. constructor. apply perm_swap.
  Qed.
  Lemma cfrom_same s i a b a' b' : cfrom s i a b -> cfrom s i a' b' -> (a' = a /\ b' = b) \/ (a' = b /\ b' = a).
  Proof.
    intros (q & x & y & z & Hq & Ht & P) (q' & x' & y' & z' & Hq' & Ht' & P').
    unfold seed_at in *. rewrite Hq in Hq'. injection Hq' as <-. rewrite Ht in Ht'. injection Ht' as <- <- <-.
    assert (Q : Permutation [i; a; b] [i; a'; b']) by (rewrite <- P; exact P'). apply Permutation_cons_inv in Q.
    apply Permutation_length_2_inv in Q. destruct Q as [Q|Q]; injection Q as -> ->; auto.
  Qed.
  Lemma cfrom_lt s i a b : cfrom s i a b -> s < length seeds.
  Proof. intros (q & x & y & z & Hq & _). eapply nth_error_Some_lt; eauto. Qed.
  Lemma rotate_ok s i a b q : cfrom s i a b -> a <> i -> b <> i -> seed_at seeds s q ->
    rotate i (q_tri q) = Ok (a, b) \/ rotate i (q_tri q) = Ok (b, a).
  Proof.
    intros (q' & x & y & z & Hq' & Ht & P) Na Nb Hq. unfold seed_at in *. rewrite Hq in Hq'. injection Hq' as <-.
    rewrite Ht. unfold rotate.
    destruct (Nat.eqb_spec x i) as [->|Nx].
    { apply Permutation_cons_inv in P. apply Permutation_length_2_inv in P as [P|P]; injection P as -> ->; auto. }
    destruct (Nat.eqb_spec y i) as [->|Ny].
    { assert (Q : Permutation (i :: [x; z]) [i; a; b]) by (rewrite <- P; constructor).
      apply Permutation_cons_inv in Q. apply Permutation_length_2_inv in Q as [Q|Q]; injection Q as -> ->; auto. }
    destruct (Nat.eqb_spec z i) as [->|Nz].
    { assert (Q : Permutation (i :: [x; y]) [i; a; b]).
      { rewrite <- P. change [x; y; i] with ([x; y] ++ [i]). apply Permutation_cons_append. }
      apply Permutation_cons_inv in Q. apply Permutation_length_2_inv in Q as [Q|Q]; injection Q as -> ->; auto. }
    exfalso. assert (Hi : In i [x; y; z]) by (eapply Permutation_in; [symmetry; exact P|now left]).
    destruct Hi as [?|[?|[?|[]]]]; congruence.
  Qed.

  Section Geometry.
    Local Open Scope R_scope.
    Definition three (i a b : nat) : nat -> nat -> R :=
      fun m => match m with 0%nat => centre sph i | 1%nat => centre sph a | _ => centre sph b end.
    Lemma norm_same x : norm 3 (sub x x) = 0.
    Proof.
      unfold norm. replace (dot 3 _ _) with 0; [apply sqrt_0|]. rewrite dot3. unfold sub. ring.
    Qed.
    Lemma not_sliver_neq i a b : ~ sliver (three i a b) -> a <> i /\ b <> i.
    Proof.
      unfold sliver, three. intros H. pose proof tol_pos as TP. split; intros ->; apply H.
      - left. rewrite norm_same. exact TP.
      - right. left. rewrite norm_same. exact TP.
    Qed.
    Lemma partner_above_ok i a b s t : sof i a b s t ->
      partner_above sph seeds i a b s t = Ok true /\ partner_above sph seeds i a b t s = Ok false.
    Proof.
      intros (Hi & Ha & Hb & NS & _ & _ & _ & (q & r & Hq & Hr & Hd)).
      unfold partner_above. unfold seed_at in *. rewrite (get_some Hq), (get_some Hr). cbn [bind].
      rewrite (get_some (nth_error_nth' sph [] Hi)), (get_some (nth_error_nth' sph [] Ha)), (get_some (nth_error_nth' sph [] Hb)).
      cbn [bind]. set (cc := fun m d => nth d (nth m [nth i sph []; nth a sph []; nth b sph []] []) n0).
      set (N := vprod (sub (centre sph a) (centre sph i)) (sub (centre sph b) (centre sph i))) in *.
      destruct (triangle_normal_R cc) as [(_ & m & E & P & M)|(S & _)].
      2:{ exfalso. apply NS. exact S. }
      change (vprod (sub (cc 1%nat) (cc 0%nat)) (sub (cc 2%nat) (cc 0%nat))) with N in P, M.
      rewrite E. cbn [snd].
      assert (D : forall x y : list R, range_sum 0 3 (fun d => nmul (nsub (nth d x n0) (nth d y n0)) (m d))
                   = dot 3 (sub (vec x) (vec y)) N / norm 3 N).
      { intros x y. unfold range_sum. cbn [loop_sum Nat.sub]. change nadd with Rplus. change nmul with Rmult. change nsub with Rminus. change (@n0 R _) with 0.
        rewrite !M, dot3. unfold sub, vec. field. lra. }
      change nltb with Rltb. change (@n0 R _) with 0. change (@n0 R _) with 0 in D. rewrite !D. split; f_equal.
      - apply Rltb_true. apply Rdiv_lt_0_compat; auto.
      - apply Rltb_false. replace (dot 3 (sub (vec (q_x q)) (vec (q_x r))) N) with (- dot 3 (sub (vec (q_x r)) (vec (q_x q))) N).
        + assert (0 < dot 3 (sub (vec (q_x r)) (vec (q_x q))) N / norm 3 N) by (apply Rdiv_lt_0_compat; auto).
          unfold Rdiv in *. lra.
        + rewrite !dot3. unfold sub. ring.
    Qed.
    Lemma sof_neq i a b s t : sof i a b s t -> a <> i /\ b <> i /\ s <> t.
    Proof.
      intros H. pose proof (partner_above_ok H) as (E1 & E2). destruct H as (_ & _ & _ & NS & _).
      apply (@not_sliver_neq i a b) in NS as (? & ?). repeat split; auto. intros ->. congruence.
    Qed.
    (** Seen in the other sense of rotation the seeds change places. *)
    Lemma sof_flip i a b s t : sof i a b s t -> sof i b a t s.
    Proof.
      intros (Hi & Ha & Hb & NS & Cs & Ct & (q & r & Hq & Hr & P1 & P2) & (q1 & r1 & Hq1 & Hr1 & Hd)).
      repeat split; auto using cfrom_sym.
      - intros S. apply NS. unfold sliver in *. cbn beta iota in *.
        replace (norm 3 (vprod (sub (centre sph a) (centre sph i)) (sub (centre sph b) (centre sph i))))
          with (norm 3 (vprod (sub (centre sph b) (centre sph i)) (sub (centre sph a) (centre sph i)))).
        + destruct S as [S|[S|S]]; auto. right. right. lra.
        + unfold norm. f_equal. rewrite !dot3. unfold vprod. ring.
      - exists r, q. auto.
      - exists r1, q1. split; auto. split; auto. rewrite dot3 in *. unfold vprod, sub in *. lra.
    Qed.
  End Geometry.

  (** A pair of seeds gets its markers, whichever of the two is looked at. *)
  Lemma mark_ok i a b lo up s im ip col : sof i a b lo up -> s = lo \/ s = up -> length col = length seeds ->
    exists c, mark_pair sph seeds i im ip s a b col = Ok c /\ length c = length seeds
      /\ nth lo c 0 = im /\ nth up c 0 = ip /\ (forall x, x <> lo -> x <> up -> nth x c 0 = nth x col 0).
  Proof.
    intros H Hs L. pose proof (partner_above_ok H) as (A1 & A2). pose proof (sof_neq H) as (_ & _ & N).
    destruct H as (_ & _ & _ & _ & Cl & Cu & (q & r & Hq & Hr & P1 & P2) & _).
    apply cfrom_lt in Cl, Cu. unfold mark_pair, seed_at in *. destruct Hs as [->| ->].
    - rewrite (get_some Hq). cbn [bind]. rewrite P1, A1. cbn [bind].
      destruct (@put_ok true lo up im ip col) as (c & E & L' & R); try lia. exists c. rewrite E. intuition lia.
    - rewrite (get_some Hr). cbn [bind]. rewrite P2, A2. cbn [bind].
      destruct (@put_ok false lo up im ip col) as (c & E & L' & R); try lia. exists c. rewrite E. intuition lia.
  Qed.

  (** Every seed of the list belongs to a triangle at i. *)
  Definition at_i (i : nat) (ss : list nat) : Prop := forall s, In s ss -> exists a b, cfrom s i a b /\ a <> i /\ b <> i.

  Lemma find_ok i ok ss col : at_i i ss -> length col = length seeds ->
    exists o, find_seed seeds i ok ss col = Ok o /\
    match o with
    | Some (s, a, b) => In s ss /\ nth s col 0 = 0 /\ ok a b = true /\ cfrom s i a b
    | None => forall s a b, In s ss -> nth s col 0 = 0 -> cfrom s i a b -> ok a b = false \/ ok b a = false
    end.
  Proof.
    intros HA L. induction ss as [|s t IH]; [exists None; split; auto; intros ? ? ? []|].
    destruct (HA s (or_introl eq_refl)) as (a & b & Hc & Na & Nb). pose proof (cfrom_lt Hc) as Hs.
    pose proof Hc as (q & _ & _ & _ & Hq & _). cbn [find_seed]. rewrite (get_some Hq). cbn [bind].
    assert (Ex : exists a b, rotate i (q_tri q) = Ok (a, b) /\ cfrom s i a b).
    { destruct (rotate_ok Hc Na Nb Hq) as [E|E]; eauto using cfrom_sym. }
    destruct Ex as (a1 & b1 & E & Hc1). rewrite E. cbn [bind]. rewrite (@get_nth col s) by lia. cbn [bind].
    destruct (Nat.eqb_spec (nth s col 0) 0) as [Z|NZ].
    - cbn [andb]. destruct (ok a1 b1) eqn:O.
      + eexists. split; [reflexivity|]. split; [now left|]. auto.
      + destruct IH as (o & Eo & Ho); [intros x Hx; apply HA; now right|]. exists o. split; auto.
        destruct o as [((x, y), z)|]; [destruct Ho as (? & ?); split; auto; now right|].
        intros x y z [<-|Hx] Hz Hxc; eauto. destruct (cfrom_same Hc1 Hxc) as [(-> & ->)|(-> & ->)]; auto.
    - cbn [andb]. destruct IH as (o & Eo & Ho); [intros x Hx; apply HA; now right|]. exists o. split; auto.
      destruct o as [((x, y), z)|]; [destruct Ho as (? & ?); split; auto; now right|].
      intros x y z [<-|Hx] Hz Hxc; eauto. congruence.
  Qed.

  (** From triangle to triangle along a chain. *)
  Section Walk.
    Variables (i im ip m : nat) (stop : nat -> bool) (ss : list nat) (c lo up : nat -> nat).
    Hypothesis HA : at_i i ss.
    Hypothesis HT : forall k, k < m -> sof i (c k) (c (S k)) (lo k) (up k).
    Hypothesis Hin : forall k, k < m -> In (lo k) ss /\ In (up k) ss.
    Hypothesis Hinj : forall k k', k < m -> k' < m -> k <> k' -> lo k <> lo k' /\ lo k <> up k' /\ up k <> up k'.
    Hypothesis Honly : forall t s b, 1 <= t < m -> In s ss -> cfrom s i (c t) b ->
      s = lo (t - 1) \/ s = up (t - 1) \/ s = lo t \/ s = up t.
    Hypothesis Hmid : forall t, 2 <= t < m -> stop (c t) = false.
    Hypothesis Hend : stop (c m) = true.
    Hypothesis Him : im <> 0.
    Hypothesis Hip : ip <> 0.

    Lemma walk_ok r : forall t fuel col, t + S r = m -> 1 <= t -> r < fuel -> length col = length seeds ->
      (forall k, t <= k < m -> nth (lo k) col 0 = 0 /\ nth (up k) col 0 = 0) ->
      nth (lo (t - 1)) col 0 <> 0 -> nth (up (t - 1)) col 0 <> 0 ->
      exists col', walk sph seeds fuel i im ip stop ss (c t) col = Ok col' /\ length col' = length seeds
        /\ (forall k, t <= k < m -> nth (lo k) col' 0 = im /\ nth (up k) col' 0 = ip)
        /\ (forall x, (forall k, t <= k < m -> x <> lo k /\ x <> up k) -> nth x col' 0 = nth x col 0).
    Proof.
      induction r as [|r IH]; intros t fuel col Ht H1 Hf L Hz Hl Hu; (destruct fuel as [|fuel]; [lia|]); cbn [walk].
      all: destruct (@find_ok i (fun sj sk => (sj =? c t) || (sk =? c t)) ss col HA L) as (o & Eo & Ho); rewrite Eo; cbn [bind].
      all: assert (Tt : t < m) by lia; pose proof (HT Tt) as HTt; pose proof (Hin Tt) as (In1 & In2).
      all: destruct (Hz t ltac:(lia)) as (Z1 & Z2).
      all: destruct (sof_neq HTt) as (Na & Nb & Ns).
      all: assert (Cl : cfrom (lo t) i (c t) (c (S t))) by (destruct HTt as (_ & _ & _ & _ & ? & _); auto).
      all: assert (Cu : cfrom (up t) i (c t) (c (S t))) by (destruct HTt as (_ & _ & _ & _ & _ & ? & _); auto).
      all: destruct o as [((s, sj), sk)|].
      all: try (exfalso; destruct (Ho (lo t) _ _ In1 Z1 Cl) as [F|F]; rewrite Nat.eqb_refl, ?orb_true_r in F; discriminate).
      all: destruct Ho as (Is & Zs & Ok & Cs).
      all: assert (Es : (s = lo t \/ s = up t) /\ (if sj =? c t then sk else sj) = c (S t)).
      1,3: (assert (Cs' : cfrom s i (c t) (if sj =? c t then sk else sj));
            [ destruct (Nat.eqb_spec sj (c t)) as [<-|N]; auto; cbn [orb] in Ok; apply Nat.eqb_eq in Ok; subst sk; auto using cfrom_sym|];
            assert (Es : s = lo t \/ s = up t) by (destruct (@Honly t s _ ltac:(lia) Is Cs') as [->|[->|[->| ->]]]; tauto);
            split; auto;
            assert (Cst : cfrom s i (c t) (c (S t))) by (destruct Es as [->| ->]; auto);
            destruct (cfrom_same Cst Cs') as [(_ & E)|(E1 & E2)]; auto; congruence).
      all: destruct Es as (Es & Ek); cbn zeta; rewrite Ek.
      all: destruct (@mark_ok i (c t) (c (S t)) (lo t) (up t) s im ip col HTt Es L) as (c1 & E1 & L1 & M1 & M2 & M3); rewrite E1; cbn [bind].
      - replace (S t) with m in * by lia. rewrite Hend. exists c1. split; auto. split; auto. split.
        + intros k Hk. replace k with t by lia. auto.
        + intros x Hx. destruct (Hx t ltac:(lia)). auto.
      - rewrite Hmid by lia.
        destruct (IH (S t) fuel c1) as (c2 & E2 & L2 & A & B); try lia; auto.
        + intros k Hk. destruct (@Hinj k t) as (? & ? & ?); try lia. destruct (@Hinj t k) as (? & ? & ?); try lia.
          rewrite !M3 by auto. apply Hz. lia.
        + replace (S t - 1) with t by lia. congruence.
        + replace (S t - 1) with t by lia. congruence.
        + exists c2. split; auto. split; auto. split.
          * intros k Hk. destruct (Nat.eq_dec k t) as [->|Nk]; [|apply A; lia].
            rewrite !B; [auto| |].
            all: intros k Hk'; destruct (@Hinj k t) as (? & ? & ?); try lia; destruct (@Hinj t k) as (? & ? & ?); try lia; auto.
          * intros x Hx. rewrite B by (intros k Hk; apply Hx; lia). destruct (Hx t ltac:(lia)). auto.
    Qed.

    Lemma chain_short : m <= length ss.
    Proof.
      clear - Hin Hinj. rewrite <- (seq_length m 0), <- (map_length lo). apply NoDup_incl_length.
      - assert (G : forall n, n <= m -> NoDup (map lo (seq 0 n))); [|apply G; lia].
        induction n as [|n IHn]; intros Hn; [constructor|]. rewrite seq_S, map_app. cbn [map Nat.add].
        apply (Permutation_NoDup (l := lo n :: map lo (seq 0 n))); [apply Permutation_cons_append|].
        constructor; [|apply IHn; lia]. intros Hx. apply in_map_iff in Hx as (k & Ek & Hk). apply in_seq in Hk.
        destruct (@Hinj k n) as (? & ? & ?); lia.
      - intros x Hx. apply in_map_iff in Hx as (k & <- & Hk). apply in_seq in Hk. apply Hin. lia.
    Qed.
  End Walk.

  (** * Fans *)
  Notation fan := (fan sph seeds).

  Lemma fan_reverse i ss m c lo up : fan i ss m c lo up ->
    fan i ss m (fun k => c (m - k)) (fun k => up (m - 1 - k)) (fun k => lo (m - 1 - k)).
  Proof.
    intros (Hm & Hc & Hi & HT & ND & HS). split; auto. split; [now rewrite Nat.sub_diag, Nat.sub_0_r|]. split; [|split; [|split; auto]].
    - intros k k' Hk Hk' E.
      assert (Ez : forall k, k < m -> exists j, j < m /\ c (m - k) = c j /\ (k = 0 /\ j = 0 \/ 0 < k /\ j = m - k)).
      { intros x Hx. destruct (Nat.eq_dec x 0) as [->|N].
        - exists 0. rewrite Nat.sub_0_r. split; [lia|]. split; auto.
        - exists (m - x). split; [lia|]. split; auto. right. lia. }
      destruct (Ez k Hk) as (j & Hj & Ej & Cj), (Ez k' Hk') as (j' & Hj' & Ej' & Cj').
      assert (j = j') by (apply Hi; congruence). lia.
    - intros k Hk. pose proof (HT (m - 1 - k) ltac:(lia)) as H. apply sof_flip in H.
      replace (m - k) with (S (m - 1 - k)) by lia. replace (m - S k) with (m - 1 - k) by lia. exact H.
    - intros s. rewrite HS. split; intros (k & Hk & Ek); exists (m - 1 - k); (split; [lia|]); replace (m - 1 - (m - 1 - k)) with k in * by lia; tauto.
  Qed.

  Lemma fan_shift i ss m c lo up h : fan i ss m c lo up -> h < m ->
    let sh k := if k + h <? m then k + h else k + h - m in
    fan i ss m (fun k => c (sh k)) (fun k => lo (sh k)) (fun k => up (sh k)).
  Proof.
    intros (Hm & Hc & Hi & HT & ND & HS) Hh sh.
    assert (Hsh : forall k, k <= m -> sh k < m).
    { intros k Hk. unfold sh. destruct (Nat.ltb_spec (k + h) m); lia. }
    assert (Hb : forall j, j < m -> exists k, k < m /\ sh k = j).
    { intros j Hj. destruct (le_lt_dec h j).
      - exists (j - h). split; [lia|]. unfold sh. replace (j - h + h) with j by lia. now rewrite (proj2 (Nat.ltb_lt j m)).
      - exists (j + m - h). split; [lia|]. unfold sh. replace (j + m - h + h) with (j + m) by lia.
        rewrite (proj2 (Nat.ltb_ge (j + m) m)) by lia. lia. }
    split; auto. split; [|split; [|split; [|split; auto]]].
    - unfold sh. replace (m + h - m) with h by lia. rewrite (proj2 (Nat.ltb_ge (m + h) m)) by lia. cbn [Nat.add].
      now rewrite (proj2 (Nat.ltb_lt h m)).
    - intros k k' Hk Hk' E. apply Hi in E; [|apply Hsh; lia|apply Hsh; lia]. unfold sh in E.
      destruct (Nat.ltb_spec (k + h) m), (Nat.ltb_spec (k' + h) m); lia.
    - intros k Hk. pose proof (HT (sh k) (Hsh k ltac:(lia))) as H.
      replace (c (sh (S k))) with (c (S (sh k))); auto. unfold sh.
      destruct (Nat.ltb_spec (k + h) m), (Nat.ltb_spec (S k + h) m); try lia.
      + reflexivity.
      + replace (S (k + h)) with m by lia. replace (S k + h - m) with 0 by lia. exact Hc.
      + f_equal. lia.
    - intros s. rewrite HS. split.
      + intros (j & Hj & Ej). destruct (Hb j Hj) as (k & Hk & <-). eauto.
      + intros (k & Hk & Ek). exists (sh k). split; auto. apply Hsh. lia.
  Qed.

  Section Fan.
    Variables (i : nat) (ss : list nat) (m : nat) (c lo up : nat -> nat).
    Hypothesis HF : fan i ss m c lo up.

    Lemma fan_at : at_i i ss.
    Proof.
      destruct HF as (_ & _ & _ & HT & _ & HS). intros s Hs. apply HS in Hs as (k & Hk & Ek).
      pose proof (HT k Hk) as H. destruct (sof_neq H) as (Na & Nb & _). destruct H as (_ & _ & _ & _ & C1 & C2 & _).
      exists (c k), (c (S k)). destruct Ek as [->| ->]; auto.
    Qed.
    Lemma fan_tri s k : k < m -> s = lo k \/ s = up k -> cfrom s i (c k) (c (S k)).
    Proof.
      destruct HF as (_ & _ & _ & HT & _ & HS). intros Hk Ek. destruct (HT k Hk) as (_ & _ & _ & _ & C1 & C2 & _).
      destruct Ek as [->| ->]; auto.
    Qed.
    Lemma fan_touch k t : k < m -> t < m -> c k = c t \/ c (S k) = c t -> k = t \/ S k = t \/ (S k = m /\ t = 0).
    Proof.
      destruct HF as (Hm & Hc & Hi & _). intros Hk Ht [E|E].
      - left. auto.
      - right. destruct (Nat.eq_dec (S k) m) as [Em|N].
        + right. split; auto. rewrite Em, Hc in E. symmetry. apply Hi; auto. lia.
        + left. apply Hi; auto. lia.
    Qed.
    Lemma fan_same s k k' : k < m -> k' < m -> s = lo k \/ s = up k -> s = lo k' \/ s = up k' -> k = k'.
    Proof.
      intros Hk Hk' E E'. destruct (cfrom_same (fan_tri Hk E) (fan_tri Hk' E')) as [(E1 & E2)|(E1 & E2)].
      - destruct HF as (Hm & Hc & Hi & _). symmetry. auto.
      - destruct HF as (Hm & Hc & Hi & _).
        destruct (@fan_touch k k' Hk Hk' (or_intror (eq_sym E1))) as [?|[?|(? & ?)]]; auto;
        destruct (@fan_touch k' k Hk' Hk (or_intror E2)) as [?|[?|(? & ?)]]; lia.
    Qed.
    Lemma fan_inj k k' : k < m -> k' < m -> k <> k' -> lo k <> lo k' /\ lo k <> up k' /\ up k <> up k'.
    Proof.
      intros Hk Hk' N. repeat split; intros E; apply N.
      - apply (@fan_same (lo k)); auto.
      - apply (@fan_same (lo k)); auto.
      - apply (@fan_same (up k)); auto.
    Qed.
    Lemma fan_lo_up k k' : k < m -> k' < m -> lo k <> up k'.
    Proof.
      intros Hk Hk' E. assert (k = k') by (apply (@fan_same (lo k)); auto). subst k'.
      destruct HF as (_ & _ & _ & HT & _). destruct (sof_neq (HT k Hk)) as (_ & _ & N). contradiction.
    Qed.

    (** The first seed of the list is in triangle 0 and its triangle is seen as i, c 0, c 1. *)
    Lemma surface_aligned col s1 q : length col = length seeds -> get ss 0 = Ok s1 -> seed_at seeds s1 q ->
      s1 = lo 0 \/ s1 = up 0 -> rotate i (q_tri q) = Ok (c 0, c 1) ->
      exists col' l, surface_sphere sph seeds i ss col = Ok (col', l) /\ length col' = length seeds
        /\ (forall x, In x ss -> nth x col' 0 = 0) /\ (forall x, ~ In x ss -> nth x col' 0 = nth x col 0)
        /\ (forall a b, In (a, b) l -> In a ss /\ In b ss)
        /\ (forall a b, joined l a b <-> a <> b /\ same_side m lo up a b).
    Proof.
      intros L Eg Hq Es Er. pose proof HF as (Hm & Hc & Hi & HT & ND & HS).
      assert (Hss : forall s, In s ss -> s < length seeds).
      { intros s Hs. destruct (@fan_at s Hs) as (a & b & Hab & _). eapply cfrom_lt; eauto. }
      assert (Hin : forall k, k < m -> In (lo k) ss /\ In (up k) ss) by (intros k Hk; rewrite !HS; eauto 8).
      unfold surface_sphere. destruct (@clear_ok ss col) as (c0 & E0 & L0 & Z0 & K0 & _); [rewrite L; auto|].
      rewrite E0. cbn [bind]. rewrite Eg. cbn [bind]. rewrite (get_some Hq). cbn [bind]. rewrite Er. cbn [bind].
      destruct (@mark_ok i (c 0) (c 1) (lo 0) (up 0) s1 1 2 c0 (HT 0 ltac:(lia)) Es ltac:(lia)) as (c1 & E1 & L1 & M1 & M2 & M3).
      rewrite E1. cbn [bind].
      assert (Zr : forall k, 1 <= k < m -> nth (lo k) c1 0 = 0 /\ nth (up k) c1 0 = 0).
      { intros k Hk. destruct (@fan_inj 0 k) as (? & ? & ?); try lia. destruct (@fan_inj k 0) as (? & ? & ?); try lia.
        destruct (Hin k ltac:(lia)). rewrite !M3 by auto. auto. }
      destruct (@walk_ok i 1 2 m (fun k => k =? c 0) ss c lo up fan_at HT Hin fan_inj) with (r := m - 2) (t := 1) (fuel := S (length ss)) (col := c1)
        as (c2 & E2 & L2 & A & B); try lia; auto.
      - intros t s b Ht Hs Hcs. apply HS in Hs as (k & Hk & Ek).
        assert (K : k = t \/ S k = t \/ (S k = m /\ t = 0)).
        { apply fan_touch; auto; [lia|]. destruct (cfrom_same (fan_tri Hk Ek) Hcs) as [(-> & _)|(-> & _)]; auto. }
        destruct K as [->|[<-|(_ & ->)]]; [tauto| |lia]. replace (S k - 1) with k by lia. tauto.
      - intros t Ht. apply Nat.eqb_neq. intros E. apply Hi in E; lia.
      - pose proof (@chain_short m ss lo up Hin fan_inj). lia.
      - cbn [Nat.sub]. rewrite M1. lia.
      - cbn [Nat.sub]. rewrite M2. lia.
      - rewrite E2. cbn [bind].
        assert (All : forall k, k < m -> nth (lo k) c2 0 = 1 /\ nth (up k) c2 0 = 2).
        { intros k Hk. destruct (Nat.eq_dec k 0) as [->|N]; [|apply A; lia].
          rewrite !B; [auto| |]; intros k' Hk'; destruct (@fan_inj 0 k') as (? & ? & ?); try lia; destruct (@fan_inj k' 0) as (? & ? & ?); try lia; auto. }
        destruct (@link_ok c2 ss) as (l & El & Il & Jl); [rewrite L2; auto|]. rewrite El. cbn [bind].
        destruct (@clear_ok ss c2) as (c3 & E3 & L3 & Z3 & K3 & _); [rewrite L2; auto|]. rewrite E3. cbn [bind].
        exists c3, l. split; auto. split; [lia|]. split; auto. split.
        { intros x Hx. rewrite K3, B by (auto; intros k Hk; destruct (Hin k ltac:(lia)); split; intros ->; contradiction).
          destruct (Hin 0 ltac:(lia)). rewrite M3 by (intros ->; contradiction). auto. }
        split; auto. intros a b. rewrite (Jl ND). split.
        + intros (N & Ha & Hb & Em). split; auto. apply HS in Ha as (k & Hk & Ek). apply HS in Hb as (k' & Hk' & Ek').
          destruct (All k Hk), (All k' Hk'). destruct Ek as [->| ->], Ek' as [->| ->]; try lia; [left|right]; eauto 8.
        + intros (N & [(k & k' & Hk & Hk' & -> & ->)|(k & k' & Hk & Hk' & -> & ->)]); (split; auto);
            destruct (Hin k Hk), (Hin k' Hk'), (All k Hk), (All k' Hk'); repeat split; auto; congruence.
    Qed.
  End Fan.

  Lemma same_reverse m lo up a b : same_side m (fun k => up (m - 1 - k)) (fun k => lo (m - 1 - k)) a b <-> same_side m lo up a b.
  Proof.
    unfold same_side. split; (intros [(k & k' & Hk & Hk' & -> & ->)|(k & k' & Hk & Hk' & -> & ->)]; [right|left]; exists (m - 1 - k), (m - 1 - k');
      (split; [lia|]); (split; [lia|]); auto); replace (m - 1 - (m - 1 - k)) with k by lia; replace (m - 1 - (m - 1 - k')) with k' by lia; auto.
  Qed.
  Lemma same_shift m lo up h a b : h < m ->
    let sh k := if k + h <? m then k + h else k + h - m in
    same_side m (fun k => lo (sh k)) (fun k => up (sh k)) a b <-> same_side m lo up a b.
  Proof.
    intros Hh sh.
    assert (Hsh : forall k, k < m -> sh k < m).
    { intros k Hk. unfold sh. destruct (Nat.ltb_spec (k + h) m); lia. }
    assert (Hb : forall j, j < m -> exists k, k < m /\ sh k = j).
    { intros j Hj. destruct (le_lt_dec h j).
      - exists (j - h). split; [lia|]. unfold sh. replace (j - h + h) with j by lia. now rewrite (proj2 (Nat.ltb_lt j m)).
      - exists (j + m - h). split; [lia|]. unfold sh. replace (j + m - h + h) with (j + m) by lia.
        rewrite (proj2 (Nat.ltb_ge (j + m) m)) by lia. lia. }
    unfold same_side. split.
    - intros [(k & k' & Hk & Hk' & -> & ->)|(k & k' & Hk & Hk' & -> & ->)]; [left|right]; exists (sh k), (sh k'); auto.
    - intros [(k & k' & Hk & Hk' & -> & ->)|(k & k' & Hk & Hk' & -> & ->)]; [left|right];
        destruct (Hb k Hk) as (j & Hj & <-), (Hb k' Hk') as (j' & Hj' & <-); exists j, j'; auto.
  Qed.

  Lemma surface_ok i ss m c lo up col : fan i ss m c lo up -> length col = length seeds ->
    exists col' l, surface_sphere sph seeds i ss col = Ok (col', l) /\ length col' = length seeds
      /\ (forall x, In x ss -> nth x col' 0 = 0) /\ (forall x, ~ In x ss -> nth x col' 0 = nth x col 0)
      /\ (forall a b, In (a, b) l -> In a ss /\ In b ss)
      /\ (forall a b, joined l a b <-> a <> b /\ same_side m lo up a b).
  Proof.
    intros HF L.
    (* direct *)
    assert (D : forall c lo up k s1 q, fan i ss m c lo up -> k < m -> get ss 0 = Ok s1 -> seed_at seeds s1 q -> s1 = lo k \/ s1 = up k ->
      rotate i (q_tri q) = Ok (c k, c (S k)) ->
      exists col' l, surface_sphere sph seeds i ss col = Ok (col', l) /\ length col' = length seeds
      /\ (forall x, In x ss -> nth x col' 0 = 0) /\ (forall x, ~ In x ss -> nth x col' 0 = nth x col 0)
      /\ (forall a b, In (a, b) l -> In a ss /\ In b ss)
      /\ (forall a b, joined l a b <-> a <> b /\ same_side m lo up a b)).
    { clear HF c lo up. intros c lo up k s1 q HF Hk Eg Hq Es Er. pose proof (fan_shift HF Hk) as HF'. cbn zeta in HF'.
      assert (S0 : (if 0 + k <? m then 0 + k else 0 + k - m) = k) by (cbn [Nat.add]; now rewrite (proj2 (Nat.ltb_lt k m))).
      destruct (@surface_aligned _ _ _ _ _ _ HF' col s1 q L Eg Hq) as (col' & l & E & L' & Z & K & I1 & J).
      - rewrite S0. exact Es.
      - rewrite S0, Er. do 2 f_equal. destruct HF as (Hm & Hc & _). destruct (Nat.ltb_spec (1 + k) m); auto.
        replace (S k) with m by lia. replace (1 + k - m) with 0 by lia. exact Hc.
      - exists col', l. split; auto. split; auto. split; auto. split; auto. split; auto. intros a b. rewrite J.
        pose proof (@same_shift m lo up k a b Hk) as SS. cbn zeta in SS. rewrite SS. reflexivity. }
    pose proof HF as (Hm & Hc & Hi & HT & ND & HS).
    destruct ss as [|s1 t] eqn:Ess.
    { exfalso. destruct (proj2 (HS (lo 0))). exists 0. split; [lia|auto]. }
    rewrite <- Ess in *. assert (Eg : get ss 0 = Ok s1) by (rewrite Ess; reflexivity).
    assert (Hs1 : In s1 ss) by (rewrite Ess; now left). pose proof (proj1 (HS s1) Hs1) as (k & Hk & Ek).
    pose proof (fan_tri HF Hk Ek) as Ct. pose proof Ct as (q & _ & _ & _ & Hq & _).
    destruct (sof_neq (HT k Hk)) as (Na & Nb & _).
    destruct (rotate_ok Ct Na Nb Hq) as [Er|Er]; [exact (D c lo up k s1 q HF Hk Eg Hq Ek Er)|].
    destruct (D _ _ _ (m - 1 - k) s1 q (fan_reverse HF)) as (col' & l & E & L' & Z & K & I1 & J); auto; try lia.
    - cbn beta. replace (m - 1 - (m - 1 - k)) with k by lia. tauto.
    - cbn beta. replace (m - (m - 1 - k)) with (S k) by lia. replace (m - S (m - 1 - k)) with k by lia. exact Er.
    - exists col', l. split; auto. split; auto. split; auto. split; auto. split; auto. intros a b. rewrite J, same_reverse. reflexivity.
  Qed.
End Sides.
