(** Proofs about the colouring of the seeds. *)
From Coq Require Import Reals Lra.
From Verif Require Import Base Num SmartTree KdSpec SmartTreeSpec Graph GraphSpec GraphProofs Coloring ColoringSpec.

Definition zeros (col : list nat) : nat := length (filter (Nat.eqb 0) col).
Lemma zeros_upd col i r : nth_error col i = Some 0 -> r <> 0 -> S (zeros (upd col i r)) = zeros col.
Proof.
  revert i. induction col as [|c col IH]; intros i E Hr; [destruct i; discriminate|].
  destruct i as [|i]; cbn in E.
  - injection E as ->. unfold zeros. cbn [upd filter]. rewrite (proj2 (Nat.eqb_neq 0 r)) by auto. reflexivity.
  - cbn [upd]. unfold zeros in *. cbn [filter]. destruct (0 =? c); cbn [length]; rewrite <- (IH i E Hr); reflexivity.
Qed.
Lemma zeros_le col : zeros col <= length col.
Proof. unfold zeros. induction col as [|c col IH]; cbn [filter length]; auto. destruct (0 =? c); cbn [length]; lia. Qed.
Lemma zeros_pos col i : nth_error col i = Some 0 -> 0 < zeros col.
Proof.
  revert i. induction col as [|c col IH]; intros i E; [destruct i; discriminate|]. unfold zeros in *. cbn [filter].
  destruct i; cbn in E; [injection E as ->; cbn; lia|]. destruct (0 =? c); cbn [length]; [lia|eauto].
Qed.

Section Flood.
  Variable n : nat.
  Variable g : pgraph.
  Variable nb : nat -> list nat.
  Hypothesis Hnb : forall i, i < n -> exists o, graph_neighbors g i = Ok o /\ match o with None => [] | Some l => l end = nb i.
  Hypothesis Hg : good_graph n nb.

  Lemma joined_lt i j : i < n -> joined nb i j -> j < n.
  Proof. intros Hi. induction 1 as [|i j k H1 IH H2]; auto. apply (proj1 Hg j k); auto. Qed.
  Lemma joined_trans i j k : joined nb i j -> joined nb j k -> joined nb i k.
  Proof. intros H1 H2. revert H1. induction H2 as [|a b c X IH Y]; intros H1; auto. apply joined_step with b; auto. Qed.
  Lemma joined_sym i j : i < n -> joined nb i j -> joined nb j i.
  Proof.
    intros Hi. induction 1 as [|i j k H1 IH H2]; [constructor|]. eapply joined_trans; [|apply IH; auto].
    econstructor; [constructor|]. eapply (proj2 Hg); eauto. eapply joined_lt; eauto.
  Qed.

  (** Markers that describe some of the components. *)
  Definition closed (r : nat) (col : list nat) : Prop :=
    length col = n
    /\ (forall i c, nth_error col i = Some c -> c <= r)
    /\ (forall i c, nth_error col i = Some c -> c <> 0 -> forall j, In j (nb i) -> nth_error col j = Some c).

  Section OneRegion.
    Variable r : nat.
    Variable col0 : list nat.
    Variable s0 : nat.
    Hypothesis Hr : r <> 0.
    Hypothesis Hc : closed (r - 1) col0.
    Hypothesis Hs : nth_error col0 s0 = Some 0.

    Definition partial (col : list nat) : Prop :=
      length col = n /\ nth_error col s0 = Some r
      /\ forall i c0, nth_error col0 i = Some c0 ->
           nth_error col i = Some c0 \/ (c0 = 0 /\ nth_error col i = Some r /\ joined nb s0 i).

    Lemma s0_lt : s0 < n.
    Proof. destruct Hc as (L & _). apply nth_error_Some_lt in Hs. lia. Qed.
    Lemma partial_start : partial (upd col0 s0 r).
    Proof.
      pose proof s0_lt. destruct Hc as (L & _). split; [now rewrite upd_length|]. split; [apply upd_nth_same; lia|].
      intros i c0 E. destruct (Nat.eq_dec i s0) as [->|Hne].
      - right. rewrite E in Hs. injection Hs as ->. split; auto. split; [apply upd_nth_same; lia|constructor].
      - left. rewrite upd_nth_other by auto. auto.
    Qed.
    Lemma partial_joined col i : partial col -> nth_error col i = Some r -> joined nb s0 i.
    Proof.
      intros (L & _ & P) E. destruct Hc as (L0 & Hb & _).
      destruct (nth_error col0 i) as [c0|] eqn:E0.
      - destruct (P _ _ E0) as [E1|(_ & _ & J)]; auto. exfalso. rewrite E in E1. injection E1 as ->.
        specialize (Hb _ _ E0). lia.
      - exfalso. apply nth_error_None in E0. apply nth_error_Some_lt in E. lia.
    Qed.
    (** A marked neighbour of a marked seed of the region belongs to the region. *)
    Lemma partial_neighbor col i j c : partial col -> nth_error col i = Some r -> i < n -> In j (nb i) -> nth_error col j = Some c -> c <> 0 -> c = r.
    Proof.
      intros HP Ei Hi Hj Ej Hne. pose proof HP as (L & _ & P). destruct Hc as (L0 & Hb & Hcl).
      destruct (nth_error col0 j) as [c0|] eqn:E0.
      - destruct (P _ _ E0) as [E1|(_ & E1 & _)]; rewrite Ej in E1; injection E1 as <-; auto.
        exfalso. pose proof (Hcl _ _ E0 Hne i (proj2 Hg i j Hi Hj)) as E2.
        destruct (P _ _ E2) as [E3|(Hz & _)]; [|congruence]. rewrite Ei in E3. injection E3 as ->. specialize (Hb _ _ E0). lia.
      - exfalso. apply nth_error_None in E0. apply nth_error_Some_lt in Ej. lia.
    Qed.

    (** State while the neighbours are visited; [start]: markers when the pass began. *)
    Definition pass_inv (start : list nat) (st : flood_state) : Prop :=
      let '(col, done, bad) := st in
      partial col /\ bad = false
      /\ (forall i, nth_error start i = Some r -> nth_error col i = Some r)
      /\ (done = true -> col = start) /\ (done = false -> zeros col < zeros start).
    Lemma neighbors_inv start i l : forall st, i < n -> pass_inv start st -> nth_error (fst (fst st)) i = Some r ->
      (forall j, In j l -> In j (nb i)) ->
      exists st', flood_neighbors r l st = Ok st' /\ pass_inv start st'
        /\ (forall k, nth_error (fst (fst st)) k = Some r -> nth_error (fst (fst st')) k = Some r)
        /\ (snd (fst st') = true -> snd (fst st) = true /\ forall j, In j l -> exists c, nth_error start j = Some c /\ c <> 0).
    Proof.
      induction l as [|j l IH]; intros st Hi HI Ei Hl; cbn [flood_neighbors].
      { exists st. split; auto. split; auto. split; auto. split; auto. intros j []. }
      destruct st as [[col done] bad]. cbn [fst snd] in *. pose proof HI as (HP & -> & HS & Hd & Hz).
      pose proof HP as (L & E0 & P). unfold flood_neighbor.
      assert (Hj : j < n) by (apply (proj1 Hg i j Hi); apply Hl; now left).
      destruct (nth_error col j) as [c|] eqn:Ej; [|apply nth_error_None in Ej; lia].
      unfold get at 1. rewrite Ej. cbn [bind].
      destruct (Nat.eqb_spec c 0) as [->|Hne]; cbn [negb].
      - rewrite (@set_Ok _ col j r) by lia. cbn [bind].
        assert (HP1 : partial (upd col j r)).
        { split; [now rewrite upd_length|]. split.
          - destruct (Nat.eq_dec s0 j) as [<-|Hn]; [apply upd_nth_same; lia|now rewrite upd_nth_other by auto].
          - intros k c0 Ek. destruct (Nat.eq_dec k j) as [->|Hn].
            + right. destruct (P _ _ Ek) as [E1|(-> & E1 & J)].
              * rewrite Ej in E1. injection E1 as <-. split; auto. split; [apply upd_nth_same; lia|].
                econstructor; [apply (@partial_joined col i HP Ei)|]. apply Hl. now left.
              * split; auto. split; [apply upd_nth_same; lia|auto].
            + rewrite upd_nth_other by auto. auto. }
        assert (HZ : S (zeros (upd col j r)) = zeros col) by (apply zeros_upd; auto).
        assert (HK : forall k, nth_error col k = Some r -> nth_error (upd col j r) k = Some r).
        { intros k Ek. destruct (Nat.eq_dec k j) as [->|Hn]; [apply upd_nth_same; lia|now rewrite upd_nth_other by auto]. }
        destruct (IH (upd col j r, false, false)) as (st' & E' & HI' & HK' & Hdone); auto.
        + split; [exact HP1|]. split; [reflexivity|]. split; [auto|]. split; [discriminate|]. intros _. destruct done; [rewrite <- (Hd eq_refl); lia|specialize (Hz eq_refl); lia].
        + intros k Hk. apply Hl. now right.
        + exists st'. split; auto. split; auto. split; [intros k Ek; apply HK'; exact (HK k Ek)|].
          intros Ht. destruct (Hdone Ht) as (X & _). discriminate X.
      - assert (c = r) as ->.
        { eapply (@partial_neighbor col i j c); eauto. apply Hl. now left. }
        rewrite Nat.eqb_refl. cbn [negb orb].
        destruct (IH (col, done, false)) as (st' & E' & HI' & HK' & Hdone); auto.
        + intros k Hk. apply Hl. now right.
        + exists st'. split; auto. split; auto. split; auto. intros Ht. destruct (Hdone Ht) as (X & Y). split; auto.
          intros k [<-|Hk]; auto. cbn [fst snd] in X. specialize (Hd X). rewrite <- Hd. eauto.
    Qed.
    Lemma pass_ok start : partial start ->
      exists st', for_res n 0 (flood_seed g r) (start, true, false) = Ok st' /\ pass_inv start st'
        /\ (snd (fst st') = true -> forall i, i < n -> nth_error start i = Some r -> forall j, In j (nb i) -> exists c, nth_error start j = Some c /\ c <> 0).
    Proof.
      intros HP.
      destruct (@for_res_inv _ (fun k st => pass_inv start st /\ (snd (fst st) = true -> forall i, i < k -> nth_error start i = Some r -> forall j, In j (nb i) ->
        exists c, nth_error start j = Some c /\ c <> 0)) n 0 (flood_seed g r) (start, true, false)) as (st' & E' & HI & HD).
      - split; [|intros _ i Hi; lia]. split; [exact HP|]. split; [reflexivity|]. split; [auto|]. split; [auto|discriminate].
      - intros k st Hk (HI & HD). unfold flood_seed.
        destruct st as [[col done] bad]. cbn [fst snd] in *. pose proof HI as (HP1 & -> & HS & Hd & Hz).
        destruct (nth_error col k) as [c|] eqn:Ek; [|apply nth_error_None in Ek; destruct HP1; lia].
        unfold get. rewrite Ek. cbn [bind]. destruct (Nat.eqb_spec c r) as [->|Hne]; cbn [negb].
        + destruct (Hnb (i := k)) as (o & Eo & Hnbk); [lia|]. rewrite Eo. cbn [bind].
          destruct o as [l|].
          * destruct (@neighbors_inv start k l (col, done, false)) as (st' & E' & HI' & HK' & Hdone); auto; [lia|intros j Hj; now rewrite <- Hnbk|].
            exists st'. split; auto. split; auto. intros Ht. destruct (Hdone Ht) as (X & Y). cbn [fst snd] in X.
            intros i Hi Ei j Hj. destruct (Nat.eq_dec i k) as [->|Hn]; [apply Y; now rewrite Hnbk|apply (HD X i); auto; lia].
          * exists (col, done, false). split; auto. split; auto. cbn [fst snd]. intros Ht i Hi Ei j Hj.
            destruct (Nat.eq_dec i k) as [->|Hn]; [rewrite <- Hnbk in Hj; destruct Hj|apply (HD Ht i); auto; lia].
        + exists (col, done, false). split; auto. split; auto. cbn [fst snd]. intros Ht i Hi Ei j Hj.
          destruct (Nat.eq_dec i k) as [->|Hn]; [|apply (HD Ht i); auto; lia].
          specialize (Hd Ht). congruence.
      - exists st'. split; auto.
    Qed.
    Lemma flood_ok : forall fuel col, partial col -> zeros col < fuel ->
      exists col', flood fuel g n r col false = Ok (col', false) /\ partial col' /\ closed r col'.
    Proof.
      induction fuel as [|fuel IH]; intros col HP Hz; [lia|]. cbn [flood].
      destruct (@pass_ok col HP) as (st' & E' & HI & HD). rewrite E'. cbn [bind].
      destruct st' as [[col' done] bad]. destruct HI as (HP' & -> & HS & Hd & Hlt). cbn [fst snd] in *.
      destruct done.
      - rewrite (Hd eq_refl) in *. exists col. split; auto. split; auto.
        destruct Hc as (L0 & Hb & Hcl). pose proof HP as (L & Es & P). split; auto. split.
        + intros i c Ei. destruct (nth_error col0 i) as [c0|] eqn:E0; [|apply nth_error_None in E0; apply nth_error_Some_lt in Ei; lia].
          destruct (P _ _ E0) as [E1|(_ & E1 & _)]; rewrite Ei in E1; injection E1 as ->; auto. specialize (Hb _ _ E0). lia.
        + intros i c Ei Hne j Hj. assert (Hi : i < n) by (apply nth_error_Some_lt in Ei; lia).
          destruct (Nat.eq_dec c r) as [->|Hnr].
          * destruct (HD eq_refl i Hi Ei j Hj) as (c & Ej & Hc0). rewrite Ej. f_equal. eapply partial_neighbor; eauto.
          * destruct (nth_error col0 i) as [c0|] eqn:E0; [|apply nth_error_None in E0; apply nth_error_Some_lt in Ei; lia].
            destruct (P _ _ E0) as [E1|(_ & E1 & _)]; [|congruence]. rewrite Ei in E1. injection E1 as <-.
            specialize (Hcl _ _ E0 Hne j Hj). destruct (P _ _ Hcl) as [|(Hx & _)]; auto. congruence.
      - specialize (Hlt eq_refl). apply IH; auto. lia.
    Qed.
  End OneRegion.

  (** After r regions: markers 1 .. r are components, in the order of their first seeds. *)
  Definition components (r : nat) (col : list nat) : Prop :=
    closed r col
    /\ exists firsts, length firsts = r
       /\ (forall k, k < r -> exists f, nth_error firsts k = Some f /\ nth_error col f = Some (S k)
             /\ (forall i, nth_error col i = Some (S k) -> f <= i /\ joined nb f i)
             /\ (forall i, i < f -> exists c, nth_error col i = Some c /\ 0 < c <= k)).
  Lemma closed_joined r col i j c : closed r col -> nth_error col i = Some c -> c <> 0 -> joined nb i j -> nth_error col j = Some c.
  Proof. intros (_ & _ & Hcl) Ei Hne HJ. revert Ei. induction HJ as [|a b d X IH Y]; intros Ei; auto. exact (Hcl b c (IH Ei) Hne d Y). Qed.

  Lemma first_unmarked_ok col : forall m i, i + m = length col ->
    exists o, first_unmarked m i col = Ok o /\
      match o with
      | None => forall k, i <= k < length col -> nth_error col k <> Some 0
      | Some k => i <= k < length col /\ nth_error col k = Some 0 /\ forall j, i <= j < k -> nth_error col j <> Some 0
      end.
  Proof.
    induction m as [|m IH]; intros i Hm; cbn [first_unmarked].
    - exists None. split; auto. intros; lia.
    - destruct (nth_error col i) as [c|] eqn:Ei; [|apply nth_error_None in Ei; lia].
      unfold get. rewrite Ei. cbn [bind]. destruct (Nat.eqb_spec c 0) as [->|Hne].
      + exists (Some i). split; auto. split; [lia|]. split; auto. intros; lia.
      + destruct (IH (S i) ltac:(lia)) as (o & Eo & Ho). exists o. split; auto. destruct o as [k|].
        * destruct Ho as (H1 & H2 & H3). split; [lia|]. split; auto. intros j Hj. destruct (Nat.eq_dec j i) as [->|]; [congruence|apply H3; lia].
        * intros k Hk. destruct (Nat.eq_dec k i) as [->|]; [congruence|apply Ho; lia].
  Qed.
  Lemma color_regions_ok : forall fuel r col, components r col -> zeros col < fuel ->
    exists r' col', color_regions fuel g n r col false = Ok (r', col', false) /\ components r' col' /\ zeros col' = 0.
  Proof.
    induction fuel as [|fuel IH]; intros r col HC Hz; [lia|]. cbn [color_regions].
    pose proof HC as ((L & Hb & Hcl) & firsts & Lf & Hf).
    destruct (@first_unmarked_ok col n 0 ltac:(lia)) as (o & -> & Ho). cbn [bind]. destruct o as [i|].
    - destruct Ho as (Hi & Ei & Hbef). rewrite (@set_Ok _ col i (S r)) by lia. cbn [bind].
      assert (HCl : closed (S r - 1) col) by (replace (S r - 1) with r by lia; exact (proj1 HC)).
      pose proof (@partial_start (S r) col i (Nat.neq_succ_0 r) HCl Ei) as HP.
      destruct (@flood_ok (S r) col i (Nat.neq_succ_0 r) HCl (S n) (upd col i (S r)) HP) as (col2 & E2 & HP2 & HC2).
      { pose proof (zeros_le (upd col i (S r))). rewrite upd_length in H. lia. }
      rewrite E2. cbn [bind]. apply IH.
      + split; auto. exists (firsts ++ [i]). split; [rewrite app_length; cbn; lia|].
        destruct HP2 as (L2 & Es2 & P2).
        assert (Back : forall k c, nth_error col2 k = Some c -> c <= r -> nth_error col k = Some c).
        { intros k c Ek Hle. destruct (nth_error col k) as [c0|] eqn:E0; [|apply nth_error_None in E0; apply nth_error_Some_lt in Ek; lia].
          destruct (P2 _ _ E0) as [E1|(_ & E1 & _)]; rewrite Ek in E1; injection E1 as ->; auto. lia. }
        assert (Fwd : forall k c, nth_error col k = Some c -> c <> 0 -> nth_error col2 k = Some c).
        { intros k c Ek Hne. destruct (P2 _ _ Ek) as [|(Hx & _)]; auto. congruence. }
        intros k Hk. destruct (Nat.eq_dec k r) as [->|Hnr].
        * exists i. split; [rewrite nth_error_app2 by lia; rewrite Lf, Nat.sub_diag; reflexivity|]. split; auto. split.
          -- intros j Ej. split; [|eapply (@partial_joined (S r) col i (Nat.neq_succ_0 r) HCl col2 j); [split; [exact L2|split; [exact Es2|exact P2]]|exact Ej]].
             destruct (Nat.le_gt_cases i j) as [|Hlt]; auto. exfalso.
             destruct (nth_error col j) as [c|] eqn:E0; [|apply nth_error_None in E0; apply nth_error_Some_lt in Ej; lia].
             specialize (Hb _ _ E0). assert (c <> 0) by (intros ->; eapply (Hbef j); [lia|auto]).
             rewrite (Fwd _ _ E0 H) in Ej. injection Ej as ->. lia.
          -- intros j Hj. destruct (nth_error col j) as [c|] eqn:E0; [|apply nth_error_None in E0; lia].
             assert (c <> 0) by (intros ->; eapply (Hbef j); [lia|auto]).
             exists c. split; [apply Fwd; auto|]. specialize (Hb _ _ E0). lia.
        * destruct (Hf k ltac:(lia)) as (f & E1 & E2' & H3 & H4). exists f. split; [rewrite nth_error_app1 by lia; auto|].
          split; [apply Fwd; auto|]. split.
          -- intros j Ej. apply H3. apply Back; auto. lia.
          -- intros j Hj. destruct (H4 j Hj) as (c & Ec & Hc). exists c. split; auto. apply Fwd; auto. lia.
      + destruct HP2 as (L2 & Es2 & P2).
        assert (zeros col2 < zeros col); [|lia].
        assert (G : forall (a b : list nat), length a = length b -> (forall k c, nth_error a k = Some c -> nth_error b k = Some c \/ c = 0) ->
          zeros b <= zeros a /\ forall k, nth_error a k = Some 0 -> nth_error b k <> Some 0 -> zeros b < zeros a).
        { clear. induction a as [|x a IHa]; intros [|y b] Hl Hab; try discriminate.
          - split; auto. intros k Ek. destruct k; discriminate.
          - injection Hl as Hl. destruct (IHa b Hl) as (G1 & G2). { intros k c Ek. exact (Hab (S k) c Ek). }
            pose proof (Hab 0 x eq_refl) as H0. cbn in H0. unfold zeros in *. cbn [filter].
            split.
            + destruct (Nat.eqb_spec 0 x), (Nat.eqb_spec 0 y); cbn [length]; try lia. destruct H0 as [[= ->]| ->]; congruence.
            + intros [|k] Ek Ekb; cbn in Ek, Ekb.
              * injection Ek as ->. destruct (Nat.eqb_spec 0 y); [congruence|]. change (0 =? 0) with true. cbn [length]. lia.
              * specialize (G2 k Ek Ekb). destruct (Nat.eqb_spec 0 x), (Nat.eqb_spec 0 y); cbn [length]; try lia. destruct H0 as [[= ->]| ->]; congruence. }
        destruct (G col col2) as (_ & G2); [lia| |].
        * intros k c Ek. destruct (P2 _ _ Ek) as [|(-> & _)]; auto.
        * apply (G2 i); auto. rewrite Es2. intros [= X].
    - exists r, col. split; auto. split; auto.
      destruct (Nat.eq_dec (zeros col) 0); auto. exfalso.
      assert (exists k, nth_error col k = Some 0) as (k & Ek).
      { clear -n0. revert n0. induction col as [|c col IH]; intros Hn0; [exfalso; apply Hn0; reflexivity|].
        destruct c; [exists 0; reflexivity|]. destruct IH as (k & Ek); [exact Hn0|]. exists (S k). exact Ek. }
      apply (Ho k); auto. apply nth_error_Some_lt in Ek. lia.
  Qed.
End Flood.

(** * The graph made by connecting pairs *)
Definition connect_all (l : list (nat * nat)) : list gop := map (fun e => GConnectNodes (fst e) (snd e)) l.

Lemma connect_alloc s i j c s' : graph_connect s i j = Ok (c, s') -> i < pg_n s ->
  exists gr, pg_g s' = Some gr /\ pg_cap s <= length gr.
Proof.
  unfold graph_connect. intros E Hi. rewrite (proj2 (Nat.leb_gt _ _) Hi) in E.
  assert (HL : pg_cap s <= length (ensure_graph s)).
  { unfold ensure_graph. destruct (pg_g s) as [gr|]; [|rewrite repeat_length; lia].
    destruct (Nat.ltb_spec (length gr) (pg_cap s)); [rewrite app_length, repeat_length|]; lia. }
  apply bind_Ok_inv in E as (o & _ & E). apply bind_Ok_inv in E as (g1 & E1 & E).
  assert (L1 : length g1 = length (ensure_graph s)).
  { destruct o; [now injection E1 as <-|]. unfold set in E1. destruct (_ <? _); [|discriminate]. injection E1 as <-. now rewrite upd_length. }
  apply bind_Ok_inv in E as (f & _ & E). destruct f.
  - injection E as <- <-. exists g1. split; auto. lia.
  - apply bind_Ok_inv in E as (c1 & _ & E). destruct c1 as [b|]; [|discriminate].
    apply bind_Ok_inv in E as (b' & _ & E). apply bind_Ok_inv in E as (g2 & E2 & E). injection E as <- <-.
    exists g2. split; auto. unfold set in E2. destruct (_ <? _); [|discriminate]. injection E2 as <-. rewrite upd_length. lia.
Qed.
Lemma connect_all_alloc n cap : n <= cap -> forall l s E, pg_n s = n -> pg_cap s = cap -> ginv s E ->
  (forall i j, In (i, j) l -> i < n /\ j < n) ->
  (l <> [] \/ exists gr, pg_g s = Some gr /\ cap <= length gr) ->
  exists s' E', grun s (connect_all l) = Ok s' /\ ginv s' E'
    /\ (exists gr, pg_g s' = Some gr /\ cap <= length gr)
    /\ (forall a b, In (a, b) E' <-> In (a, b) E \/ In (a, b) l \/ In (b, a) l).
Proof.
  intros Hc. induction l as [|(i, j) l IH]; intros s E Hn Hcap HG Hl Ha.
  - exists s, E. cbn. destruct Ha as [Ha|Ha]; [congruence|]. split; auto. split; auto. split; auto. intros a b. tauto.
  - cbn [connect_all map grun gstep fst snd]. destruct (Hl i j (or_introl eq_refl)) as (Hi & Hj).
    unfold graph_connect_nodes.
    destruct (@connect_ok s E i j HG ltac:(lia)) as (s1 & E1 & I1 & N1 & C1). rewrite E1. cbn [bind].
    destruct (@connect_ok s1 _ j i I1 ltac:(lia)) as (s2 & E2 & I2 & N2 & C2). rewrite E2. cbn [bind].
    fold (connect_all l).
    destruct (@IH s2 _ ltac:(lia) ltac:(lia) I2) as (s' & E' & R' & I' & A' & M').
    + intros a b Hab. apply Hl. now right.
    + right. destruct (@connect_alloc _ _ _ _ _ E2 ltac:(lia)) as (gr & Eg & Hg). exists gr. split; auto. lia.
    + exists s', E'. split; auto. split; auto. split; auto. intros a b. rewrite M', !make_edge_in. cbn [In].
      split.
      * intros [[[X|(X & _)]|(X & _)]|X]; auto; try (injection X as -> ->; tauto). tauto.
      * intros [X|[[X|X]|[X|X]]]; try tauto.
        -- injection X as <- <-. left. left. right. split; auto. lia.
        -- injection X as <- <-. left. right. split; auto. lia.
Qed.

Lemma successors_in E i j : In j (successors E i) <-> In (i, j) E.
Proof.
  unfold successors. rewrite in_map_iff. split.
  - intros ((a, b) & <- & H). apply filter_In in H as (H & Ha). apply Nat.eqb_eq in Ha. cbn in *. now subst.
  - intros H. exists (i, j). split; auto. apply filter_In. split; auto. apply Nat.eqb_refl.
Qed.

(** * The exterior *)
Lemma relabel_ok (p : nat -> bool) (f : nat -> nat) col :
  for_res (length col) 0 (fun i col => c <- get col i ;; if p c then set col i (f c) else Ok col) col
  = Ok (map (fun c => if p c then f c else c) col).
Proof.
  destruct (@for_res_inv _ (fun k col' => length col' = length col /\ forall i c, nth_error col i = Some c ->
     nth_error col' i = Some (if (i <? k) && p c then f c else c)) (length col) 0 (fun i col => c <- get col i ;; if p c then set col i (f c) else Ok col) col)
    as (col' & E & L & P).
  - split; auto.
  - intros k col' Hk (L & P). destruct (nth_error_lt col (i := k) ltac:(lia)) as (c & Ec).
    pose proof (P _ _ Ec) as Ec'. rewrite Nat.ltb_irrefl in Ec'. cbn [andb] in Ec'. unfold get. rewrite Ec'. cbn [bind].
    assert (forall i c', nth_error col i = Some c' -> i <> k -> (i <? S k) = (i <? k)).
    { intros i c' _ Hne. destruct (Nat.ltb_spec i (S k)), (Nat.ltb_spec i k); auto; lia. }
    destruct (p c) eqn:Ep.
    + rewrite (@set_Ok _ col' k (f c)) by lia. eexists. split; [reflexivity|]. split; [now rewrite upd_length|].
      intros i c' Ei. destruct (Nat.eq_dec i k) as [->|Hne].
      * rewrite upd_nth_same by lia. rewrite Ec in Ei. injection Ei as <-. rewrite Ep, (proj2 (Nat.ltb_lt k (S k))) by lia. reflexivity.
      * rewrite upd_nth_other by auto. rewrite (H _ _ Ei Hne). auto.
    + eexists. split; [reflexivity|]. split; auto. intros i c' Ei. destruct (Nat.eq_dec i k) as [->|Hne].
      * rewrite Ec in Ei. injection Ei as <-. rewrite Ep, andb_false_r. exact Ec'.
      * rewrite (H _ _ Ei Hne). auto.
  - rewrite E. f_equal. apply list_ext. intros i.
    destruct (Nat.lt_ge_cases i (length col)) as [Hi|Hi].
    2:{ rewrite (proj2 (nth_error_None _ _)), (proj2 (nth_error_None _ _)); auto; [rewrite map_length|]; lia. }
    destruct (nth_error_lt col (i := i) ltac:(lia)) as (c & Ec). rewrite (P _ _ Ec), (map_nth_error _ _ _ Ec).
    rewrite (proj2 (Nat.ltb_lt i (0 + length col))) by lia. reflexivity.
Qed.
Definition shifted (ghost c : nat) : nat := if c =? ghost then 0 else if ghost <? c then c - 1 else c.
Lemma mark_ghost_ok ghost col : mark_ghost (length col) ghost col = Ok (map (shifted ghost) col).
Proof.
  unfold mark_ghost. rewrite (relabel_ok (fun c => c =? ghost) (fun _ => 0)). cbn [bind].
  rewrite <- (map_length (fun c => if c =? ghost then 0 else c) col) at 1.
  rewrite (relabel_ok (fun c => ghost <? c) (fun c => c - 1)). f_equal. rewrite map_map. apply map_ext. intros c. unfold shifted.
  destruct (c =? ghost); auto. 
Qed.

(** * The corner *)
Section Corner.
  Local Open Scope R_scope.
  Lemma box_ok (l : list (list R)) : forall b, 
    let b' := fold_left (fun (b : (nat -> R) * (nat -> R)) (x : list R) =>
      (fun d => if nltb (nth d x n0) (fst b d) then nth d x n0 else fst b d,
       fun d => if nltb (snd b d) (nth d x n0) then nth d x n0 else snd b d)) l b in
    forall d,
      (fst b' d <= fst b d /\ (forall x, In x l -> fst b' d <= nth d x 0) /\ (fst b' d = fst b d \/ exists x, In x l /\ fst b' d = nth d x 0))
      /\ (snd b d <= snd b' d /\ (forall x, In x l -> nth d x 0 <= snd b' d) /\ (snd b' d = snd b d \/ exists x, In x l /\ snd b' d = nth d x 0)).
  Proof.
    induction l as [|x l IH]; intros b; cbn [fold_left]; intros d.
    - split; (split; [lra|]; split; [intros x []|auto]).
    - specialize (IH (fun d => if nltb (nth d x n0) (fst b d) then nth d x n0 else fst b d,
                      fun d => if nltb (snd b d) (nth d x n0) then nth d x n0 else snd b d) d).
      cbn [fst snd] in IH. revert IH. set (b' := fold_left _ l _). intros ((A1 & A2 & A3) & (B1 & B2 & B3)).
      change (@n0 R _) with 0 in *. change (@nltb R _) with Rltb in *.
      split.
      + destruct (Rltb (nth d x 0) (fst b d)) eqn:E; [apply Rltb_true in E|apply Rltb_false in E].
        * split; [lra|]. split.
          -- intros y [<-|Hy]; [lra|auto].
          -- right. destruct A3 as [A3|(y & Hy & A3)]; [exists x|exists y]; cbn; auto.
        * split; [lra|]. split; [intros y [<-|Hy]; [lra|auto]|]. destruct A3 as [A3|(y & Hy & A3)]; [auto|right; exists y; cbn; auto].
      + destruct (Rltb (snd b d) (nth d x 0)) eqn:E; [apply Rltb_true in E|apply Rltb_false in E].
        * split; [lra|]. split.
          -- intros y [<-|Hy]; [lra|auto].
          -- right. destruct B3 as [B3|(y & Hy & B3)]; [exists x|exists y]; cbn; auto.
        * split; [lra|]. split; [intros y [<-|Hy]; [lra|auto]|]. destruct B3 as [B3|(y & Hy & B3)]; [auto|right; exists y; cbn; auto].
  Qed.
  Lemma corner_ok (s : stree R) : st_pts s <> [] ->
    (forall j d, (j < length (st_pts s))%nat -> (d < 3)%nat -> - dbl_max < coord (st_pts s) j d < dbl_max) ->
    pushed_corner s (far_corner (st_pts s)).
  Proof.
    intros Hne Hb. unfold far_corner. destruct (seeds_box (st_pts s)) as (lo, hi) eqn:E.
    split; [reflexivity|]. intros d Hd. exists (lo d), (hi d).
    pose proof (@box_ok (st_pts s) (fun _ => dbl_max, fun _ => nopp dbl_max) d) as HB.
    unfold seeds_box in E. rewrite E in HB. cbn [fst snd] in HB. destruct HB as ((A1 & A2 & A3) & (B1 & B2 & B3)).
    assert (Hc : forall j, coord (st_pts s) j d = nth d (nth j (st_pts s) []) 0) by reflexivity.
    destruct (st_pts s) as [|p0 pts] eqn:Ep; [congruence|]. rewrite <- Ep in *.
    assert (Hin : forall j, (j < length (st_pts s))%nat -> In (nth j (st_pts s) []) (st_pts s)) by (intros; now apply nth_In).
    assert (L0 : (0 < length (st_pts s))%nat) by (rewrite Ep; cbn; lia).
    split; [|split; [|split]].
    - intros j Hj. rewrite Hc. split; auto.
    - destruct A3 as [A3|(x & Hx & A3)].
      + exfalso. specialize (Hb 0%nat d L0 Hd). specialize (A2 _ (Hin 0%nat L0)). rewrite Hc in Hb. lra.
      + destruct (In_nth _ _ [] Hx) as (j & Hj & Ej). exists j. split; auto. rewrite Hc, Ej. auto.
    - destruct B3 as [B3|(x & Hx & B3)].
      + exfalso. specialize (Hb 0%nat d L0 Hd). specialize (B2 _ (Hin 0%nat L0)). rewrite Hc in Hb.
        change (@nopp R _) with Ropp in B3. lra.
      + destruct (In_nth _ _ [] Hx) as (j & Hj & Ej). exists j. split; auto. rewrite Hc, Ej. auto.
    - rewrite (nth_indep _ 0 (hi 0%nat + 2 * (hi 0%nat - lo 0%nat))) by (rewrite map_length, seq_length; auto).
      etransitivity; [apply (map_nth (fun d => hi d + 2 * (hi d - lo d)) (seq 0 3) 0%nat d)|].
      rewrite seq_nth by auto. reflexivity.
  Qed.
End Corner.
