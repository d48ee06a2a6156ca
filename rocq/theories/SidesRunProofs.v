(** All spheres: the seeds of every sphere, and the links. *)
From Coq Require Import Reals Lra.
From Verif Require Import Base Num Vec KdSpec Geometry GeometrySpec GeometryAngle Graph GraphSpec GraphProofs ColoringProofs
  SeedSides SidesSpec SidesProofs SidesEdgeProofs.
Local Open Scope nat_scope.

Lemma joined_app l l' a b : joined (l ++ l') a b <-> joined l a b \/ joined l' a b.
Proof. unfold joined. rewrite !in_app_iff. tauto. Qed.

(** * One call of graph_connect *)
(** The graph is allocated, holds E, and only points with neighbours have a block. *)
Definition full (s : pgraph) (E : list (nat * nat)) : Prop :=
  ginv s E /\ (forall g i b, pg_g s = Some g -> nth_error g i = Some (Some b) -> successors E i <> []).

Lemma connect_other s a j r s' g' i b : graph_connect s a j = Ok (r, s') -> pg_g s' = Some g' -> i <> a ->
  nth_error g' i = Some (Some b) -> exists g, pg_g s = Some g /\ nth_error g i = Some (Some b).
Proof.
  unfold graph_connect. intros E Hg N Hb. destruct (pg_n s <=? a); [injection E as <- <-; eauto|].
  assert (HE : forall g2, nth_error g2 i = Some (Some b) -> (forall k, k <> a -> nth_error g2 k = nth_error (ensure_graph s) k) ->
    exists g, pg_g s = Some g /\ nth_error g i = Some (Some b)).
  { intros g2 H2 Ho. rewrite (Ho i N) in H2. unfold ensure_graph in H2. destruct (pg_g s) as [g|].
    - exists g. split; auto. destruct (length g <? pg_cap s); auto. destruct (lt_dec i (length g)) as [Hl|Hl].
      + now rewrite nth_error_app1 in H2.
      + rewrite nth_error_app2 in H2 by lia. apply nth_error_In, repeat_spec in H2. discriminate.
    - apply nth_error_In, repeat_spec in H2. discriminate. }
  apply bind_Ok_inv in E as (o & _ & E). apply bind_Ok_inv in E as (g1 & E1 & E).
  assert (O1 : forall k, k <> a -> nth_error g1 k = nth_error (ensure_graph s) k).
  { intros k Hk. destruct o; [now injection E1 as <-|]. unfold set in E1. destruct (_ <? _); [|discriminate]. injection E1 as <-. now apply upd_nth_other. }
  apply bind_Ok_inv in E as (f & _ & E). destruct f.
  - injection E as <- <-. cbn [pg_g] in Hg. injection Hg as <-. eauto.
  - apply bind_Ok_inv in E as (c1 & _ & E). destruct c1 as [b1|]; [|discriminate].
    apply bind_Ok_inv in E as (b' & _ & E). apply bind_Ok_inv in E as (g2 & E2 & E). injection E as <- <-.
    cbn [pg_g] in Hg. injection Hg as <-. apply (HE g2); auto. intros k Hk.
    unfold set in E2. destruct (_ <? _); [|discriminate]. injection E2 as <-. rewrite upd_nth_other by auto. auto.
Qed.

Lemma succ_make N E i j k : i < N -> successors (make_edge N E i j) k =
  if (i =? k) && negb (existsb (Nat.eqb j) (successors E k)) then successors E k ++ [j] else successors E k.
Proof.
  intros Hi. unfold make_edge. rewrite (proj2 (Nat.ltb_lt i N) Hi), edge_mem_succ. cbn [andb].
  destruct (Nat.eqb_spec i k) as [->|Nk]; cbn [andb].
  - destruct (existsb _ _); cbn [negb]; auto. rewrite successors_snoc, Nat.eqb_refl. reflexivity.
  - destruct (existsb _ _); cbn [negb]; auto. rewrite successors_snoc, (proj2 (Nat.eqb_neq i k)); auto.
Qed.

Lemma full_connect s E a j : full s E -> a < pg_n s -> pg_n s <= pg_cap s ->
  exists r s', graph_connect s a j = Ok (r, s') /\ full s' (make_edge (pg_n s) E a j) /\ pg_n s' = pg_n s /\ pg_cap s' = pg_cap s
    /\ exists g, pg_g s' = Some g /\ pg_cap s <= length g.
Proof.
  intros (HG & HF) Ha Hc. destruct (@connect_ok s E a j HG Hc) as (s' & E' & I' & N' & C').
  eexists _, s'. split; [exact E'|]. split; [|split; auto; split; auto; eapply connect_alloc; eauto].
  split; auto. intros g' i b Hg' Hb. rewrite succ_make by auto.
  destruct (Nat.eqb_spec a i) as [->|N]; cbn [andb].
  - destruct (existsb (Nat.eqb j) (successors E i)) eqn:Ex; cbn [negb].
    + intros Hn. rewrite Hn in Ex. discriminate.
    + intros Hn. apply app_eq_nil in Hn as (_ & Hn). discriminate.
  - assert (N2 : i <> a) by auto. destruct (@connect_other s a j _ s' g' i b E' Hg' N2 Hb) as (g & Hg & Hb'). eauto.
Qed.

Section Run.
  Variables (sph : list (list R)) (seeds : list (pseed R)).
  Hypothesis Hsp : forall s q x y z, seed_at seeds s q -> q_tri q = (x, y, z) -> x < length sph /\ y < length sph /\ z < length sph.

  Definition has (i s : nat) : bool :=
    match nth_error seeds s with
    | Some q => let '(x, y, z) := q_tri q in (x =? i) || (y =? i) || (z =? i)
    | None => false
    end.
  Definition calls (s : nat) : list gop :=
    match nth_error seeds s with
    | Some q => let '(a, b, c) := q_tri q in [GConnect a s; GConnect b s; GConnect c s]
    | None => []
    end.

  Lemma no_late E s k (H : forall x, In x (successors E k) -> x < s) : existsb (Nat.eqb s) (successors E k) = false.
  Proof.
    apply not_true_is_false. intros Hx. apply existsb_exists in Hx as (y & Hy & Ey). apply Nat.eqb_eq in Ey. subst y. apply H in Hy. lia.
  Qed.
  Lemma last_in (l : list nat) s : existsb (Nat.eqb s) (l ++ [s]) = true.
  Proof. rewrite existsb_app. cbn. now rewrite Nat.eqb_refl, orb_true_r. Qed.

  Lemma calls_ok cap st E s : length sph <= cap -> pg_n st = length sph -> pg_cap st = cap -> full st E -> s < length seeds ->
    (forall k x, In x (successors E k) -> x < s) ->
    exists st' E', grun st (calls s) = Ok st' /\ full st' E' /\ pg_n st' = length sph /\ pg_cap st' = cap
      /\ (exists g, pg_g st' = Some g /\ cap <= length g)
      /\ forall k, successors E' k = successors E k ++ (if has k s then [s] else []).
  Proof.
    intros Hcap Hn Hc HF Hs Hlt. unfold calls, has. destruct (nth_error_lt seeds Hs) as [q Hq]. rewrite Hq.
    destruct (q_tri q) as ((a, b), c) eqn:Et. destruct (@Hsp s q a b c Hq Et) as (Ha & Hb & Hcc). cbn [grun gstep].
    destruct (@full_connect st E a s HF ltac:(lia) ltac:(lia)) as (r1 & s1 & E1 & F1 & N1 & C1 & _). rewrite E1. cbn [bind].
    destruct (@full_connect s1 _ b s F1 ltac:(lia) ltac:(lia)) as (r2 & s2 & E2 & F2 & N2 & C2 & _). rewrite E2. cbn [bind].
    destruct (@full_connect s2 _ c s F2 ltac:(lia) ltac:(lia)) as (r3 & s3 & E3 & F3 & N3 & C3 & A3). rewrite E3. cbn [bind].
    exists s3. eexists. split; [reflexivity|]. split; [exact F3|]. split; [lia|]. split; [lia|]. split.
    { destruct A3 as (g & Hg & Hl). exists g. split; auto. lia. }
    intros k. rewrite !succ_make by lia. pose proof (@no_late E s k (Hlt k)) as NL.
    destruct (a =? k), (b =? k), (c =? k); cbn [andb orb negb]; rewrite ?NL; cbn [negb]; rewrite ?last_in; cbn [negb]; rewrite ?last_in; cbn [negb]; rewrite ?app_nil_r; reflexivity.
  Qed.

  Lemma grun_app l : forall s l', grun s (l ++ l') = (s1 <- grun s l ;; grun s1 l').
  Proof.
    induction l as [|o t IH]; intros s l'; [reflexivity|]. cbn [app grun]. destruct (gstep s o); cbn [bind]; auto.
  Qed.

  Lemma graph_ok cap m : length sph <= cap -> m <= length seeds ->
    exists st E, grun (g_new (length sph) cap) (flat_map calls (seq 0 m)) = Ok st /\ full st E /\ pg_n st = length sph /\ pg_cap st = cap
      /\ (0 < m -> exists g, pg_g st = Some g /\ cap <= length g)
      /\ forall k, successors E k = filter (has k) (seq 0 m).
  Proof.
    intros Hcap. induction m as [|m IH]; intros Hm.
    - exists (g_new (length sph) cap), []. split; auto. split; [split; [reflexivity|]; intros g i b; discriminate|]. repeat split; auto. lia.
    - destruct IH as (st & E & E1 & F1 & N1 & C1 & _ & S1); [lia|].
      destruct (@calls_ok cap st E m Hcap N1 C1 F1 ltac:(lia)) as (st' & E' & E2 & F2 & N2 & C2 & A2 & S2).
      { intros k x. rewrite S1. intros Hx. apply filter_In in Hx as (Hx & _). apply in_seq in Hx. lia. }
      exists st', E'. rewrite seq_S, flat_map_app. cbn [flat_map Nat.add]. rewrite app_nil_r, grun_app, E1. cbn [bind].
      split; auto. split; auto. split; auto. split; auto. split; auto. intros k. rewrite S2, S1, filter_app. cbn [filter]. reflexivity.
  Qed.

  Lemma neighbors_exact cap : length sph <= cap -> seeds <> [] ->
    exists g, grun (g_new (length sph) cap) (seed_calls seeds) = Ok g
      /\ forall i, i < length sph -> graph_neighbors g i = Ok (match seeds_from seeds i with [] => None | l => Some l end).
  Proof.
    intros Hcap Hne. destruct (@graph_ok cap (length seeds) Hcap (le_n _)) as (st & E & E1 & (I1 & F1) & N1 & C1 & A1 & S1).
    exists st. split; [exact E1|]. intros i Hi. destruct A1 as (g & Hg & Hl); [destruct seeds; [congruence|cbn; lia]|].
    pose proof (@neighbors_ok st E i I1) as HN. rewrite Hg in HN. destruct (HN ltac:(lia)) as (r & Er & Hr). rewrite Er. f_equal.
    change (seeds_from seeds i) with (filter (has i) (seq 0 (length seeds))). rewrite <- S1, <- Hr.
    destruct r as [l|]; auto. destruct l as [|x t]; auto. exfalso.
    unfold graph_neighbors in Er. rewrite Hg in Er. apply bind_Ok_inv in Er as (o & Eo & Er). destruct o as [b|]; [|discriminate].
    apply get_Ok in Eo. exact (F1 g i b Hg Eo (eq_sym Hr)).
  Qed.

  (** * All spheres *)
  Lemma from_in i s : In s (seeds_from seeds i) -> s < length seeds.
  Proof. intros H. apply filter_In in H as (H & _). apply in_seq in H. lia. Qed.

  Variables (cap ns ne : nat).
  Hypothesis Hcap : length sph <= cap.
  Hypothesis Hnn : ns + ne <= length sph.
  Hypothesis Hne : seeds <> [].
  Hypothesis Hfan : forall i, i < ns -> seeds_from seeds i <> [] -> exists m c lo up, fan sph seeds i (seeds_from seeds i) m c lo up.
  Hypothesis Hbook : forall i, ns <= i < ns + ne -> seeds_from seeds i <> [] -> exists p L m c lo up, book sph seeds ns i p L m c lo up.

  Lemma fan_none i m c lo up : fan sph seeds i (seeds_from seeds i) m c lo up -> seeds_from seeds i <> [].
  Proof.
    intros (Hm & _ & _ & _ & _ & HS) E. rewrite E in HS. destruct (proj2 (HS (lo 0))). exists 0. split; [lia|auto].
  Qed.
  Lemma book_none i p L m c lo up : book sph seeds ns i p L m c lo up -> seeds_from seeds i <> [].
  Proof.
    intros ((H1 & _ & HS & _ & _ & HI) & _) E. rewrite E in HI. destruct (HS 0 H1) as (Hm & _). destruct (proj2 (HI (lo 0 0))).
    exists 0, 0. split; [lia|]. split; [lia|auto].
  Qed.

  Lemma zero_all i col col' : (forall x, In x (seeds_from seeds i) -> nth x col' 0 = 0) ->
    (forall x, ~ In x (seeds_from seeds i) -> nth x col' 0 = nth x col 0) -> (forall x, nth x col 0 = 0) -> forall x, nth x col' 0 = 0.
  Proof. clear. intros H1 H2 H0 x. destruct (in_dec Nat.eq_dec x (seeds_from seeds i)); auto. rewrite H2; auto. Qed.
  Lemma all_zero (col : list nat) n : length col = n -> (forall x, nth x col 0 = 0) -> col = repeat 0 n.
  Proof.
    clear. intros <- Z. induction col as [|c t IH]; auto. cbn. f_equal; [exact (Z 0)|]. apply IH. intros x. exact (Z (S x)).
  Qed.

  Definition inv (rel : nat -> nat -> nat -> Prop) (base : nat -> nat -> Prop) (from k : nat) (st : list nat * list (nat * nat)) : Prop :=
    (length (fst st) = length seeds /\ forall x, nth x (fst st) 0 = 0)
    /\ (forall a b, In (a, b) (snd st) -> a < length seeds /\ b < length seeds)
    /\ forall a b, joined (snd st) a b <-> a <> b /\ (base a b \/ exists i, from <= i < k /\ rel i a b).

  Lemma loop_ok (step : nat -> list nat -> list nat -> res (list nat * list (nat * nat))) (rel : nat -> nat -> nat -> Prop) (base : nat -> nat -> Prop) g from cnt st :
    (forall i, from <= i < from + cnt -> graph_neighbors g i = Ok (match seeds_from seeds i with [] => None | l => Some l end)) ->
    (forall i a b, from <= i < from + cnt -> rel i a b -> seeds_from seeds i <> []) ->
    (forall i col, from <= i < from + cnt -> seeds_from seeds i <> [] -> length col = length seeds ->
       exists col' l, step i (seeds_from seeds i) col = Ok (col', l) /\ length col' = length seeds
         /\ ((forall x, nth x col 0 = 0) -> forall x, nth x col' 0 = 0)
         /\ (forall a b, In (a, b) l -> a < length seeds /\ b < length seeds)
         /\ forall a b, joined l a b <-> a <> b /\ rel i a b) ->
    inv rel base from from st ->
    exists st', for_res cnt from (at_sphere step g) st = Ok st' /\ inv rel base from (from + cnt) st'.
  Proof.
    intros Hg Hr Hs H0. apply (@for_res_inv _ (fun k s => inv rel base from k s)); auto.
    intros k (col, l) Hk ((L & Z) & Hb & Hj). cbn [fst snd] in *. unfold at_sphere. rewrite (Hg k Hk). cbn [bind].
    destruct (seeds_from seeds k) as [|x t] eqn:Ef.
    - exists (col, l). split; auto. split; auto. split; auto. intros a b. rewrite Hj. split.
      + intros (N & [H|(i & Hi & H)]); split; auto. right. exists i. split; auto. lia.
      + intros (N & [H|(i & Hi & H)]); split; auto. right. exists i. split; auto.
        destruct (Nat.eq_dec i k) as [->|]; [|lia]. exfalso. apply (@Hr k a b Hk H). exact Ef.
    - rewrite <- Ef. destruct (Hs k col Hk ltac:(rewrite Ef; discriminate) L) as (col' & l' & E & L' & Z' & Hb' & Hj'). cbn [fst snd]. rewrite E. cbn [bind].
      exists (col', l ++ l'). split; auto. split; [split; auto|]. split.
      { intros a b Hab. cbn [snd] in Hab. apply in_app_iff in Hab as [Hab|Hab]; auto. }
      intros a b. cbn [snd]. rewrite joined_app, Hj, Hj'. split.
      + intros [(N & [H|(i & Hi & H)])|(N & H)]; split; auto; right; [exists i|exists k]; (split; [lia|auto]).
      + intros (N & [H|(i & Hi & H)]); [left; auto|]. destruct (Nat.eq_dec i k) as [->|Nk]; [right; auto|left].
        split; auto. right. exists i. split; auto. lia.
  Qed.

  Lemma links_ok : exists l, same_side_links sph seeds point_angle cap ns ne = Ok (repeat 0 (length seeds), l)
    /\ (forall a b, In (a, b) l -> a < length seeds /\ b < length seeds)
    /\ forall a b, joined l a b <-> a <> b /\ ((exists i, i < ns /\ together_surface sph seeds i a b)
         \/ exists i, ns <= i < ns + ne /\ together_edge sph seeds ns i a b).
  Proof.
    unfold same_side_links. destruct (neighbors_exact Hcap Hne) as (g & Eg & Hg). rewrite Eg. cbn [bind].
    destruct (@loop_ok (surface_sphere sph seeds) (together_surface sph seeds) (fun _ _ => False) g 0 ns (repeat 0 (length seeds), []))
      as (st & E & ((L1 & Z1) & B1 & J1)).
    - intros i Hi. apply Hg. lia.
    - intros i a b _ (m & c & lo & up & HF & _). eapply fan_none; eauto.
    - intros i col Hi Hf L. destruct (@Hfan i ltac:(lia) Hf) as (m & c & lo & up & HF).
      destruct (@surface_ok sph seeds i _ m c lo up col HF L) as (col' & l & E & L' & Za & Zb & Hin & Hj). exists col', l. split; auto. split; auto. split; [exact (@zero_all i col col' Za Zb)|]. split.
      { intros a b Hab. destruct (Hin _ _ Hab). split; eapply from_in; eauto. }
      intros a b. split.
      + intros H. apply Hj in H as (N & H). split; auto. exists m, c, lo, up. auto.
      + intros (N & m2 & c2 & lo2 & up2 & HF2 & H). destruct (@surface_ok sph seeds i _ m2 c2 lo2 up2 col HF2 L) as (col2 & l2 & E2 & _ & _ & _ & _ & Hj2).
        rewrite E in E2. injection E2 as <- <-. apply Hj2. auto.
    - split; [split; [apply repeat_length|intros x; apply nth_repeat]|]. split; [intros a b []|]. intros a b. unfold joined. cbn. split; [tauto|].
      intros (_ & [[]|(i & Hi & _)]). lia.
    - rewrite E. cbn [bind].
      destruct (@loop_ok (edge_sphere sph seeds point_angle ns) (together_edge sph seeds ns) (fun a b => exists i, i < ns /\ together_surface sph seeds i a b) g ns ne st)
        as (st2 & E2 & ((L2 & Z2) & B2 & J2)).
      + intros i Hi. apply Hg. lia.
      + intros i a b _ (p & L & m & c & lo & up & HB & _). eapply book_none; eauto.
      + intros i col Hi Hf L. destruct (@Hbook i Hi Hf) as (p & LL & m & c & lo & up & (HB & Hst & Han)).
        destruct (@edge_ok sph seeds ns i (seeds_from seeds i) p LL m c lo up HB col L Hst Han) as (col' & l & E3 & L' & Za & Zb & Hin & Hj). exists col', l. split; auto. split; auto. split; [exact (@zero_all i col col' Za Zb)|]. split.
        { intros a b Hab. destruct (Hin _ _ Hab). split; eapply from_in; eauto. }
        intros a b. split.
        * intros H. apply Hj in H as (N & H). split; auto. exists p, LL, m, c, lo, up. split; auto. split; auto.
        * intros (N & p2 & L2 & m2 & c2 & lo2 & up2 & (HB2 & Hst2 & Han2) & H).
          destruct (@edge_ok sph seeds ns i (seeds_from seeds i) p2 L2 m2 c2 lo2 up2 HB2 col L Hst2 Han2) as (col2 & l2 & E4 & _ & _ & _ & _ & Hj2).
          rewrite E3 in E4. injection E4 as <- <-. apply Hj2. auto.
      + split; auto. split; auto. intros a b. rewrite J1. cbn [Nat.add]. split.
        * intros (N & [[]|(i & Hi & H)]). split; auto. left. exists i. split; auto. lia.
        * intros (N & [(i & Hi & H)|(i & Hi & H)]); [|lia]. split; auto. right. exists i. split; auto. lia.
      + destruct st2 as (col2, l2). exists l2. split; auto. rewrite E2. cbn [fst] in L2, Z2. rewrite (@all_zero col2 (length seeds) L2 Z2). reflexivity.
  Qed.
End Run.
