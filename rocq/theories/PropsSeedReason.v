(** C64, continued: why a sphere shrinks when the surface seeds are generated. *)
From Coq Require Import Reals Lra.
From Verif Require Import Base Num Vec KdTree SmartTree KdSpec SmartTreeSpec SmartQueryProofs SmartTreeProofs TreeGrow DenseQR Geometry GeometrySpec GeometryProofs
  Spheres SpheresSpec SpheresProofs SpheresOverlapProofs PropsGeometry SeedPairs SeedPairsSpec SeedPairsProofs SeedCoverProofs SeedRunProofs SeedLoopProofs SeedEndProofs PropsSeedPairs.
Local Open Scope R_scope.

(** One point of the pair is inside (up to 1e-10) a fourth ball and the other is outside all of them. *)
Definition one_side_buried (all : list (list R)) (i j k : nat) (p : pair R) : Prop :=
  (buried all i j k (vec (p_up p)) (1 / 10 ^ 10) /\ ~ buried all i j k (vec (p_lo p)) 0)
  \/ (buried all i j k (vec (p_lo p)) (1 / 10 ^ 10) /\ ~ buried all i j k (vec (p_up p)) 0).
(** Two points, one of a pair with the triangle [t], are different but closer than a hundredth of the radius. *)
Definition too_close (ss : stree R) (t : nat * nat * nat) (x y : list R) : Prop :=
  1 / 10 ^ 10 <= vdist 3 (vec x) (vec y) < small_radius ss (fst (fst t)) (snd (fst t)) / 100.

(** * The loops *)
Lemma each_keeps {A S : Type} (I : S -> Prop) (f : A -> S -> res S) : forall l s s',
  (forall x a b, In x l -> I a -> f x a = Ok b -> I b) -> each f l s = Ok s' -> I s -> I s'.
Proof.
  induction l as [|x t IH]; intros s s' Hf E Hs; unfold each in E; cbn [fold_left bind] in E.
  - congruence.
  - destruct (f x s) as [s1| |] eqn:E1.
    + apply (IH s1 s'); [intros y a b Hy; apply Hf; right; exact Hy|exact E|eapply Hf; [left; reflexivity|exact Hs|exact E1]].
    + exfalso. clear - E. induction t; cbn in E; [discriminate|auto].
    + exfalso. clear - E. induction t; cbn in E; [discriminate|auto].
Qed.
Lemma for_keeps {S : Type} (I : S -> Prop) (f : nat -> S -> res S) : forall n lo s s',
  (forall x a b, (lo <= x < lo + n)%nat -> I a -> f x a = Ok b -> I b) -> for_res n lo f s = Ok s' -> I s -> I s'.
Proof.
  induction n as [|n IH]; intros lo s s' Hf E Hs; cbn [for_res] in E; [congruence|].
  destruct (f lo s) as [s1| |] eqn:E1; cbn [bind] in E; try discriminate.
  apply (IH (Datatypes.S lo) s1 s'); [intros x a b Hx; apply Hf; lia|exact E|eapply Hf; [|exact Hs|exact E1]; lia].
Qed.

Section Why.
  Variable o : oracle R.
  Variables ss es cs : stree R.
  Variable L : R.
  Hypothesis HI : sphere_input ss es cs L (o_darts o).
  Let all := all_spheres ss es cs.
  Definition half_triple : Prop := exists i j k p, (i < j < k)%nat /\ (k < length all)%nat /\ (i < count ss)%nat
    /\ meeting_pair ss es cs (o_darts o i j k) (o_stale o i j k) (o_face o i) i j k = Ok (Some p) /\ one_side_buried all i j k p.

  Lemma one_triple_why i j k g g' : (i < j < k)%nat -> (k < length all)%nat -> (i < count ss)%nat ->
    one_triple o ss es cs L i j k g = Ok g' -> (g_sliver g <> [] -> half_triple) -> g_sliver g' <> [] -> half_triple.
  Proof.
    intros Hijk Hk Hi E Hg Hn. unfold one_triple in E.
    destruct (meeting_pair ss es cs (o_darts o i j k) (o_stale o i j k) (o_face o i) i j k) as [[p|]| |] eqn:Em; cbn [bind] in E; try discriminate.
    2:{ injection E as <-. auto. }
    pose proof (@C35_pair ss es cs L (o_darts o) (o_stale o i j k) (o_face o) i j k p HI Hijk Hk Em) as Gp.
    destruct Gp as (_ & _ & _ & L1 & L2 & _ & O1 & O2 & _).
    destruct (@C35_coverage ss es cs L (o_darts o) i j k p HI Hijk Hk L1 L2 O1 O2) as (cu & cl & cover & Ec & Cu & Cl). fold all in Cu, Cl.
    rewrite Ec in E. cbn [bind] in E.
    destruct cu, cl; cbn [Bool.eqb negb] in E.
    - rewrite Bool.andb_false_r in E. injection E as <-. auto.
    - exists i, j, k, p. repeat (split; [assumption|]). left. split; assumption.
    - exists i, j, k, p. repeat (split; [assumption|]). right. split; assumption.
    - destruct (g_sliver g) eqn:Es; cbn [andb] in E.
      + destruct (add_pair (o_need o) (g_up g) (g_lo g) p) as [(u, l)| |]; cbn [bind] in E; try discriminate. injection E as <-. cbn in Hn. congruence.
      + injection E as <-. apply Hg. discriminate.
  Qed.
  Lemma all_triples_why g g' : all_triples o ss es cs L g = Ok g' -> g_sliver g = [] -> g_sliver g' <> [] -> half_triple.
  Proof.
    intros E H0. unfold all_triples in E.
    refine (@for_keeps _ (fun g => g_sliver g <> [] -> half_triple) _ _ _ _ _ _ E _); [|congruence].
    clear g g' E H0. intros i g g' Hi Hg E. change (st_n ss) with (count ss) in Hi.
    destruct HI as (H1 & H2 & H3 & H4 & H5 & H6 & HLe & HLc).
    rewrite (set_row H1) in E by (unfold st_n; unfold count in *; lia). cbn [bind] in E.
    assert (Ei : nth i (st_pts ss) [] = nth i all []) by (symmetry; apply all_nth_s; unfold st_n; unfold count in *; lia). rewrite Ei in E.
    destruct (@near_by_ok o ss es cs L H1 H2 H3 H4 H5 HLe HLc i ltac:(lia)) as (near & En & N1 & _). fold all in En. rewrite En in E. cbn [bind] in E.
    eapply (@each_keeps _ _ (fun g => g_sliver g <> [] -> half_triple)); [|exact E|exact Hg].
    intros j a b Hj Ha Eb. cbv beta in Eb. destruct (Nat.leb_spec j i) as [Hle|Hlt]; [injection Eb as <-; exact Ha|].
    eapply (@each_keeps _ _ (fun g => g_sliver g <> [] -> half_triple)); [|exact Eb|exact Ha].
    intros k c d Hk Hc Ed. cbv beta in Ed. destruct (Nat.leb_spec k i) as [Q1|Q1]; cbn [orb] in Ed; [injection Ed as <-; exact Hc|].
    destruct (Nat.leb_spec k j) as [Q2|Q2]; [injection Ed as <-; exact Hc|].
    eapply (@one_triple_why i j k c d); [lia|apply N1; exact Hk|lia|exact Ed|exact Hc].
  Qed.

  Lemma close_seeds_why this other t u f sh f' : tree3 t -> seeds_of (accepted_by o ss es cs) this other t u -> distinct_seeds t ->
    close_seeds ss t (f, sh) = Ok (f', true) ->
    sh = true \/ exists i j k p i' j' k' p', accepted ss es cs (o_face o) i j k p /\ accepted ss es cs (o_face o) i' j' k' p' /\ too_close ss (p_att p) (this p) (this p').
  Proof.
    intros (l & G) Hs Hd E. destruct HI as ((_ & Hsp & _ & H4) & _ & _ & Hmod & _).
    assert (Hpos : forall i, (i < count ss)%nat -> 0 < radius ss i <= dbl_max / 4).
    { intros i Hi. destruct (@rad_surface o ss es cs i Hi) as (Hi' & <-). apply (Hmod i i Hi' Hi'). }
    unfold close_seeds in E. change (st_n t) with (count t) in E.
    match goal with |- ?T => refine (@for_keeps _ (fun st : list bool * bool => snd st = true -> T) _ _ _ _ _ _ E _ eq_refl) end; [|cbn; auto].
    clear E f f'. intros a (f1, sh1) st' Ha I E Ht. cbn [snd] in I. assert (Ha' : (a < count t)%nat) by lia.
    destruct (Hs a Ha') as (i & j & k & p & b & x & y & (A1 & _) & A2 & A3 & A4 & A5 & A6).
    assert (Hl : l <> []) by (intros ->; unfold count in Ha'; rewrite (grown_pts G) in Ha'; simpl in Ha'; lia).
    unfold record in A5. rewrite (grown_att G Hl) in A5, E.
    assert (Hget : get (map it_a l) a = Ok (Some [6; b; i; x; y; 0]%nat)).
    { rewrite <- A5. destruct (nth_error (map it_a l) a) eqn:En; [rewrite (get_some En); f_equal; symmetry; apply nth_error_nth; auto|].
      apply nth_error_None in En. rewrite map_length in En. unfold count in Ha'. rewrite (grown_pts G), map_length in Ha'. lia. }
    rewrite Hget in E. cbn [bind] in E. change (get [6; b; i; x; y; 0]%nat 2) with (Ok i) in E. change (get [6; b; i; x; y; 0]%nat 3) with (Ok x) in E. cbn [bind] in E.
    assert (Hi : (i < count ss)%nat) by apply A1.
    destruct (@least_radius_ok ss Hsp Hpos H4 i x Hi) as (r & Elr & Er & Hr). rewrite Elr in E. cbn [bind] in E.
    pose proof (@grown_ready 3 t l ltac:(lia) G Hl) as Rd. pose proof (proj1 G) as End. pose proof dbl_max_pos as Pd.
    destruct (@closest_to_ok t Rd any a dbl_max) as (q & Eq & N); [exact Ha'|left; exact Pd|]. rewrite Eq in E. cbn [bind] in E. destruct q as (c, h).
    rewrite nlit2 in E. change ndiv with Rdiv in E. change nltb with Rltb in E.
    destruct (Rltb (h / r) (1 / 100)) eqn:Eh.
    2:{ injection E as <-. apply I. exact Ht. }
    right. apply Rltb_true in Eh.
    assert (Hh : h < r / 100).
    { apply Rmult_lt_reg_r with (/ r); [apply Rinv_0_lt_compat; lra|]. unfold Rdiv in *. replace (r * / 100 * / r) with (1 * / 100) by (field; lra). exact Eh. }
    destruct N as [(E1 & _)|(b' & Ib & (_ & Nb) & E1 & _)].
    { assert (h = dbl_max) by (exact (f_equal snd E1)). lra. }
    apply in_seq in Ib. assert (Hb : (b' < count t)%nat) by (unfold count; lia).
    assert (Eb : h = vdist 3 (center t a) (center t b')).
    { assert (h = dist_to t (nth a (st_pts t) []) b') as -> by (exact (f_equal snd E1)). rewrite dist_to_vdist by auto. reflexivity. }
    destruct (Hs b' Hb) as (i' & j' & k' & p' & _ & _ & _ & (A1' & _) & A2' & _).
    exists i, j, k, p, i', j', k', p'. split; [exact A1|]. split; [exact A1'|]. unfold too_close. rewrite A4. cbn [fst snd]. rewrite <- A2, <- A2'.
    change (vec (nth a (st_pts t) [])) with (center t a). change (vec (nth b' (st_pts t) [])) with (center t b'). split; [apply Hd; auto|lra].
  Qed.
End Why.

(** A sphere shrinks only for one of two reasons: some three spheres meet in a pair with exactly one point inside a fourth ball, or two
    seeds on one side are closer than a hundredth of the radius of their sphere. *)
Theorem C64_reason o ss es cs L ups los ss' u l :
  sphere_input ss es cs L (o_darts o) -> st_nd ups = 3%nat -> st_nd los = 3%nat ->
  generate_surface_seeds o ss es cs L ups los = Ok (ss', u, l, true) ->
  let all := all_spheres ss es cs in
  (exists i j k p, (i < j < k)%nat /\ (k < length all)%nat /\ (i < count ss)%nat
     /\ meeting_pair ss es cs (o_darts o i j k) (o_stale o i j k) (o_face o i) i j k = Ok (Some p) /\ one_side_buried all i j k p)
  \/ (exists i j k p i' j' k' p', accepted ss es cs (o_face o) i j k p /\ accepted ss es cs (o_face o) i' j' k' p'
        /\ (too_close ss (p_att p) (p_up p) (p_up p') \/ too_close ss (p_att p) (p_lo p) (p_lo p'))).
Proof.
  intros HI Nu Nl E all. pose proof HI as (H1 & H2 & H3 & H4 & H5 & H6 & HLe & HLc).
  unfold generate_surface_seeds, clear_tree at 1 2 in E. rewrite Nu, Nl in E.
  assert (P0 : P o ss es cs (MkSeeding (st_new 3) (st_new 3) [])).
  { split; [|split; [constructor|intros m r []]]. cbn [g_up g_lo]. split; [apply tree3_new|]. split; [apply tree3_new|].
    repeat split; try (intros a; unfold count; simpl; lia). }
  destruct (@all_triples_ok o ss es cs L H1 H2 H3 H4 H5 H6 HLe HLc _ P0) as (g & Eg & (Hinv & _) & _). rewrite Eg in E. cbn [bind] in E.
  destruct (g_sliver g) as [|e t] eqn:Es.
  2:{ left. apply (@all_triples_why o ss es cs L HI _ _ Eg eq_refl). rewrite Es. discriminate. }
  right. destruct Hinv as (Tu & Tl & Su & Sl & Du & Dl & _).
  destruct (close_seeds ss (g_up g) (repeat false (st_n ss), false)) as [(f1, sh1)| |] eqn:E1; cbn [bind] in E; try discriminate.
  destruct (close_seeds ss (g_lo g) (f1, sh1)) as [(f2, sh2)| |] eqn:E2; cbn [bind] in E; try discriminate.
  destruct sh2; [|discriminate].
  destruct (@close_seeds_why o ss es cs L HI p_lo p_up _ _ _ _ _ Tl Sl Dl E2) as [->|(i & j & k & p & i' & j' & k' & p' & A & A' & C)].
  - destruct (@close_seeds_why o ss es cs L HI p_up p_lo _ _ _ _ _ Tu Su Du E1) as [D|(i & j & k & p & i' & j' & k' & p' & A & A' & C)]; [discriminate|].
    exists i, j, k, p, i', j', k', p'. auto.
  - exists i, j, k, p, i', j', k', p'. auto.
Qed.

(** So spheres with neither fault get their seeds: nothing shrinks, and of every three spheres that meet either both points are seeds
    (up to 1e-10) or both are inside other balls. *)
Theorem C64_delivers o ss es cs L ups los :
  sphere_input ss es cs L (o_darts o) -> st_nd ups = 3%nat -> st_nd los = 3%nat ->
  let all := all_spheres ss es cs in
  let met i j k p := (i < j < k)%nat /\ (k < length all)%nat /\ (i < count ss)%nat
    /\ meeting_pair ss es cs (o_darts o i j k) (o_stale o i j k) (o_face o i) i j k = Ok (Some p) in
  (forall i j k p, met i j k p -> ~ one_side_buried all i j k p) ->
  (forall i j k p i' j' k' p', accepted ss es cs (o_face o) i j k p -> accepted ss es cs (o_face o) i' j' k' p' ->
     ~ too_close ss (p_att p) (p_up p) (p_up p') /\ ~ too_close ss (p_att p) (p_lo p) (p_lo p')) ->
  exists u l, generate_surface_seeds o ss es cs L ups los = Ok (ss, u, l, false)
    /\ forall i j k p, met i j k p ->
         (buried all i j k (vec (p_up p)) (1 / 10 ^ 10) /\ buried all i j k (vec (p_lo p)) (1 / 10 ^ 10))
         \/ (exists a b, seed_near u (vec (p_up p)) a /\ seed_near l (vec (p_lo p)) b).
Proof.
  intros HI Nu Nl all met Hb Hc. destruct (@C64_generation o ss es cs L ups los HI Nu Nl) as (ss' & u & l & sh & E & _ & F & _ & S).
  destruct sh.
  - exfalso. destruct (@C64_reason o ss es cs L ups los ss' u l HI Nu Nl E) as [(i & j & k & p & H1 & H2 & H3 & H4 & B)|(i & j & k & p & i' & j' & k' & p' & A & A' & C)].
    + apply (Hb i j k p); [unfold met; auto|exact B].
    + destruct (Hc _ _ _ _ _ _ _ _ A A') as (C1 & C2). tauto.
  - destruct (F eq_refl) as (-> & _). exists u, l. split; [exact E|]. intros i j k p M. pose proof M as (H1 & H2 & H3 & H4).
    destruct (S i j k p H1 H2 H3 H4) as [B|[(_ & [D|((a & Qa) & (b & Qb))])|(c & _ & [(_ & D)|(D & _)])]].
    + left. exact B.
    + discriminate.
    + right. eauto.
    + exfalso. exact (Hb _ _ _ _ M D).
    + discriminate.
Qed.

(** The three unit spheres of C35: their only pair has the points (1/2, 1/2, z) with z^2 = 1/2, so neither reason applies, no sphere shrinks and
    the pair is found. *)
Lemma three_z x : on_three (st_pts three_spheres) 0 1 2 x -> x 0%nat = 1/2 /\ x 1%nat = 1/2 /\ x 2%nat * x 2%nat = 1/2.
Proof.
  assert (Q : forall m, (m < 3)%nat -> vdist 3 x (centre (st_pts three_spheres) m) = rad (st_pts three_spheres) m ->
    dot 3 (sub x (centre (st_pts three_spheres) m)) (sub x (centre (st_pts three_spheres) m)) = 1).
  { intros m Hm E. rewrite three_rad in E by exact Hm. unfold vdist, norm in E.
    change (sub x (centre (st_pts three_spheres) m)) with (fun d => x d - centre (st_pts three_spheres) m d).
    match type of E with sqrt ?t = _ => pose proof (sqrt_sqrt t (dot_self_nonneg _ _)) as Q; rewrite E in Q; change (t = 1); lra end. }
  intros (E0 & E1 & E2). apply Q in E0, E1, E2; try lia. rewrite dot3 in *. unfold sub, centre, coord in *. simpl in *.
  assert (x 0%nat = 1/2) by lra. assert (x 1%nat = 1/2) by lra. repeat split; auto. rewrite H, H0 in E0. lra.
Qed.
Lemma three_unburied i j k y e : (i < j < k)%nat -> (k < 3)%nat -> ~ buried (all_spheres three_spheres (st_new 3) (st_new 3)) i j k y e.
Proof. intros H1 H2 (m & (Hm & N1 & N2 & N3) & _). change (length _) with 3%nat in Hm. lia. Qed.
Lemma three_apart a b t : on_three (st_pts three_spheres) 0 1 2 (vec a) -> on_three (st_pts three_spheres) 0 1 2 (vec b) ->
  small_radius three_spheres (fst (fst t)) (snd (fst t)) <= 1 -> ~ too_close three_spheres t a b.
Proof.
  intros Oa Ob Ht (C1 & C2). destruct (three_z Oa) as (A0 & A1 & A2). destruct (three_z Ob) as (B0 & B1 & B2).
  pose proof ten_pos as Pt. assert (Ed : vdist 3 (vec a) (vec b) * vdist 3 (vec a) (vec b) = (vec a 2 - vec b 2) * (vec a 2 - vec b 2)).
  { unfold vdist, norm. rewrite sqrt_sqrt by apply dot_self_nonneg. rewrite dot3. unfold sub. rewrite A0, A1, B0, B1. ring. }
  assert (Hs : vec a 2 = vec b 2 \/ vec a 2 = - vec b 2).
  { assert ((vec a 2%nat - vec b 2%nat) * (vec a 2%nat + vec b 2%nat) = 0) as Hz by nra. apply Rmult_integral in Hz as [Hz|Hz]; [left|right]; lra. }
  destruct Hs as [Hs|Hs]; rewrite Hs in Ed; nra.
Qed.
Lemma three_accepted face i j k p : accepted three_spheres (st_new 3) (st_new 3) face i j k p ->
  on_three (st_pts three_spheres) 0 1 2 (vec (p_up p)) /\ on_three (st_pts three_spheres) 0 1 2 (vec (p_lo p))
  /\ small_radius three_spheres (fst (fst (p_att p))) (snd (fst (p_att p))) <= 1.
Proof.
  intros (H1 & H2 & _ & _ & _ & _ & (_ & _ & _ & O1 & O2 & _ & _ & (a & b & Et & _) & _) & _). change (length _) with 3%nat in H2.
  assert (i = 0 /\ j = 1 /\ k = 2)%nat as (-> & -> & ->) by lia. split; [exact O1|]. split; [exact O2|]. rewrite Et. cbn [fst snd]. unfold small_radius.
  change (radius three_spheres 0) with (rad (st_pts three_spheres) 0). rewrite three_rad by lia. destruct (Nat.ltb a (count three_spheres)); [apply Rmin_l|lra].
Qed.
Example C64_quiet o : o_darts o = axes_everywhere ->
  exists u l, generate_surface_seeds o three_spheres (st_new 3) (st_new 3) 0 (st_new 3) (st_new 3) = Ok (three_spheres, u, l, false) /\ (0 < count u)%nat /\ (0 < count l)%nat.
Proof.
  intros Ho. set (es := st_new 3). destruct C35_hypotheses as (HI & T1 & T2 & T3 & Ha & x & X1 & X2 & X3 & X4). fold es in HI, T1, T2, T3, Ha, X1, X2, X3, X4. rewrite <- Ho in HI.
  assert (El : length (all_spheres three_spheres es es) = 3%nat) by reflexivity.
  destruct (@C64_delivers o three_spheres es es 0 es es HI eq_refl eq_refl) as (u & l & E & S).
  - intros i j k p (H1 & H2 & _) [(B & _)|(B & _)]; exact (three_unburied H1 H2 B).
  - intros i j k p i' j' k' p' A A'. destruct (three_accepted A) as (U & V & W). destruct (three_accepted A') as (U' & V' & _). split; apply three_apart; auto.
  - exists u, l. split; [exact E|].
    destruct (@C35_found three_spheres es es 0 (o_darts o) (o_stale o 0%nat 1%nat 2%nat) (o_face o) 0 1 2 x HI ltac:(lia) ltac:(rewrite El; lia) T1 T2 T3 Ha X1 X2 X3 X4) as (p & Ep).
    destruct (S 0%nat 1%nat 2%nat p) as [(B & _)|(a & b & (Qa & _) & (Qb & _))].
    + split; [lia|]. split; [rewrite El; lia|]. split; [cbn; lia|exact Ep].
    + exfalso. revert B. apply three_unburied; lia.
    + split; lia.
Qed.

(** The first reason, in double precision: a fourth sphere above the three contains the upper point only, and it shrinks. *)
Definition float_fourth : list PrimFloat.float := [nlit 5 1; nlit 5 1; nlit 9 1; nlit 5 1]%num.
Definition float_oracle4 : oracle PrimFloat.float :=
  MkOracle (fun _ _ => false) (o_face float_oracle) (o_darts float_oracle) (o_stale float_oracle)
    (fun _ _ _ _ d => match d with 0 | 1 => nlit 5 1 | _ => n0 end%nat) (fun _ _ _ _ => float_axis 2).
Example C64_reason_run : match (t <- float_tree (float_spheres ++ [float_fourth]) ;; generate_surface_seeds float_oracle4 t (st_new 3) (st_new 3) n0 (st_new 3) (st_new 3)) with
  | Ok (ss, u, _, sh) => sh = true /\ st_pts u = [] /\ map (fun r => PrimFloat.ltb (nth 3 r n0) (nlit 2 1)) (st_pts ss) = [false; false; false; true]
  | _ => False end.
Proof. vm_compute. repeat split; reflexivity. Qed.

Print Assumptions C64_reason.
Print Assumptions C64_delivers.
