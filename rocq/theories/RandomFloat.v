(** The random generator in binary64: every operation is exact, so the
    floating-point program computes the integer stream divided by 2^53, in any
    rounding mode.  Binary64 rounding is Flocq's: [rnd] is any function that
    returns representable numbers unchanged. *)
From Verif Require Import Base RandomSampler RandomSpec RandomSamplerProofs.
From Coq Require Import Reals Lra.
From Flocq Require Import Core.

(** The doubles (subnormals included; no overflow can occur here). *)
Definition binary64 (x : R) : Prop := generic_format radix2 (FLT_exp (-1074) 53) x.

(** Arithmetic of C++ doubles: real operation, then rounding. *)
Definition rops (rnd : R -> R) : fops R := {|
  f_add := fun x y => rnd (x + y)%R;
  f_sub := fun x y => rnd (x - y)%R;
  f_half := fun t => rnd (/ 2 * t)%R;
  f_ltb := fun x y => if Rlt_dec x y then true else false;
  f_zero := 0%R;
  f_one := 1%R;
  f_cc := rnd (1 / 9007199254740992)%R;
  f_zx0 := rnd (5212886298506819 / 9007199254740992)%R;
  f_zy0 := rnd (2020898595989513 / 9007199254740992)%R |}.

(** The double denoted by the integer n. *)
Definition sc (n : Z) : R := (IZR n / 9007199254740992)%R.

Lemma sc_format n : (Z.abs n <= base)%Z -> binary64 (sc n).
Proof.
  intros H. unfold base in H. unfold binary64.
  assert (Esc : sc n = F2R (Float radix2 n (-53))).
  { unfold sc, F2R. simpl. lra. }
  destruct (Z.eq_dec (Z.abs n) 9007199254740992) as [E|E].
  - assert (n = 9007199254740992 \/ n = -9007199254740992)%Z as [->| ->] by lia.
    + replace (sc 9007199254740992) with 1%R by (unfold sc; lra).
      apply generic_format_FLT. exists (Float radix2 1 0); unfold F2R; simpl; try lra; lia.
    + replace (sc (-9007199254740992)) with (-1)%R by (unfold sc; lra).
      apply generic_format_FLT. exists (Float radix2 (-1) 0); unfold F2R; simpl; try lra; lia.
  - rewrite Esc. apply generic_format_FLT.
    exists (Float radix2 n (-53)); simpl; auto; lia.
Qed.

Lemma sc_add a b : (sc a + sc b)%R = sc (a + b). Proof. unfold sc. rewrite plus_IZR. lra. Qed.
Lemma sc_sub a b : (sc a - sc b)%R = sc (a - b). Proof. unfold sc. rewrite minus_IZR. lra. Qed.
Lemma sc_lt a b : (sc a < sc b)%R <-> (a < b)%Z.
Proof.
  unfold sc. split; intros H.
  - apply lt_IZR. lra.
  - apply IZR_lt in H. lra.
Qed.
Lemma sc_ltb a b : (if Rlt_dec (sc a) (sc b) then true else false) = (a <? b)%Z.
Proof.
  destruct (Rlt_dec (sc a) (sc b)) as [H|H]; rewrite sc_lt in H; symmetry.
  - now apply Z.ltb_lt.
  - apply Z.ltb_ge. lia.
Qed.
Lemma sc_0 : 0%R = sc 0. Proof. unfold sc. lra. Qed.
Lemma sc_1 : 1%R = sc base. Proof. unfold sc, base. lra. Qed.

Lemma sc_ltb0 a : (if Rlt_dec (sc a) 0 then true else false) = (a <? 0)%Z.
Proof. rewrite sc_0. apply sc_ltb. Qed.

Lemma Ok_pair_inj {A B} (a c : A) (b d : B) : Ok (a, b) = Ok (c, d) -> a = c /\ b = d.
Proof. intros H. injection H as -> ->. auto. Qed.

Section Exact.
  Variable rnd : R -> R.
  Hypothesis rnd_exact : forall x, binary64 x -> rnd x = x.

  Lemma rnd_sc n : (Z.abs n <= base)%Z -> rnd (sc n) = sc n.
  Proof. intros H. apply rnd_exact. now apply sc_format. Qed.

  Lemma cc_sc : f_cc (rops rnd) = sc 1.
  Proof. cbn [f_cc rops]. change (1 / 9007199254740992)%R with (sc 1). apply rnd_sc. unfold base. lia. Qed.

  Definition mapg (g : rng Z) : rng R :=
    Rng (map sc (rQ g)) (sc (rc g)) (sc (rzc g)) (sc (rzx g)) (sc (rzy g)) (rindx g).
  Definition mapst (st : list Z * Z) : list R * R := (map sc (fst st), sc (snd st)).

  Lemma get_map l i v : get l i = Ok v -> get (map sc l) i = Ok (sc v).
  Proof. rewrite !get_Ok. intros H. now rewrite map_nth_error', H. Qed.

  Local Open Scope Z_scope.

  Lemma refill_sim words b i st :
    length words = 1220%nat -> Forall in01 words -> (i < 1220)%nat -> win words b i st ->
    forall st', refill_body zops i st = Ok st' -> refill_body (rops rnd) i (mapst st) = Ok (mapst st').
  Proof.
    intros Hlen Hin Hi Hw st' E. destruct st as [Q c].
    assert (Hc : bit01 c).
    { destruct Hw as (_ & Hc & _). cbn in Hc. subst c. apply (hist_inv Hlen Hin). }
    assert (HQ : forall p v, nth_error Q p = Some v -> in01 v).
    { intros p v Hp. destruct Hw as (HL & _ & Hn). cbn [fst] in *.
      assert (Hlt : (p < 1220)%nat) by (rewrite <- HL; eapply nth_error_Some_lt; eauto).
      rewrite Hn in Hp by exact Hlt. inversion Hp. apply nth_in01. apply (hist_inv Hlen Hin). }
    unfold mapst, refill_body in *. cbn [fst snd] in *.
    set (j := if (i <? 30)%nat then (i + 1190)%nat else (i - 30)%nat) in *.
    destruct (get Q j) as [qj| |] eqn:Ej; cbn [bind] in E; try discriminate.
    destruct (get Q i) as [qi| |] eqn:Ei; cbn [bind] in E; try discriminate.
    rewrite (get_map _ _ Ej), (get_map _ _ Ei). cbn [bind].
    apply get_Ok in Ej, Ei. apply HQ in Ej, Ei.
    rewrite cc_sc. cbn [f_add f_sub f_ltb f_zero f_one f_cc rops zops] in *.
    unfold in01, bit01 in *. rewrite sc_1.
    rewrite sc_sub, (rnd_sc (qj - qi)) by lia.
    rewrite sc_add, (rnd_sc (qj - qi + c)) by lia.
    rewrite sc_0, sc_ltb. rewrite <- base_M53 in E.
    destruct (0 <? qj - qi + c) eqn:El.
    - apply Z.ltb_lt in El. rewrite sc_sub, rnd_sc by lia.
      apply bind_Ok_inv in E. destruct E as (Q1 & Es & E). inversion E; subst st'. cbn [fst snd].
      unfold set in *. rewrite map_length. destruct (i <? length Q)%nat; [|discriminate].
      inversion Es. cbn [bind]. now rewrite map_upd.
    - apply Z.ltb_ge in El. rewrite sc_sub, (rnd_sc (qj - qi + c - 1)) by lia.
      rewrite sc_add, rnd_sc by lia.
      apply bind_Ok_inv in E. destruct E as (Q1 & Es & E). inversion E; subst st'. cbn [fst snd].
      unfold set in *. rewrite map_length. destruct (i <? length Q)%nat; [|discriminate].
      inversion Es. cbn [bind]. now rewrite map_upd.
  Qed.

  Lemma refill_loop_sim words b : length words = 1220%nat -> Forall in01 words ->
    forall n i st, (i + n <= 1220)%nat -> win words b i st ->
    exists st', for_res n i (refill_body zops) st = Ok st'
      /\ for_res n i (refill_body (rops rnd)) (mapst st) = Ok (mapst st').
  Proof.
    intros Hlen Hin. induction n as [|n IH]; intros i st Hi Hw; cbn [for_res].
    - exists st. auto.
    - assert (Hi' : (i < 1220)%nat) by lia.
      destruct (refill_step Hlen Hin Hi' Hw) as (st1 & E1 & Hw1).
      rewrite E1. rewrite (refill_sim Hlen Hin Hi' Hw E1). cbn [bind].
      destruct (IH (S i) st1) as (st' & E & E'); auto; [lia|]. exists st'. auto.
  Qed.

  Local Opaque for_res.
  Lemma generate_sim words zx0 zy0 k g :
    length words = 1220%nat -> Forall in01 words -> in01 zx0 -> in01 zy0 ->
    after words zx0 zy0 k g ->
    forall u g', generate zops g = Ok (u, g') -> generate (rops rnd) (mapg g) = Ok (sc u, mapg g').
  Proof.
    intros Hlen Hin Hx Hy (b & Hk & Hidx & Hw & Hz) u g' E.
    pose proof (swb_inv k Hx Hy) as Hzi. rewrite <- Hz in Hzi. destruct Hzi as (Ha & Hb & Hwb).
    unfold generate in *. rewrite cc_sc. cbn [mapg rQ rc rzc rzx rzy rindx].
    cbn [f_add f_sub f_ltb f_zero f_one f_cc rops zops] in *.
    rewrite <- base_M53 in E. unfold in01, bit01 in *. rewrite sc_1.
    rewrite sc_sub, (rnd_sc (rzx g - rzy g)) by lia.
    rewrite sc_sub, (rnd_sc (rzx g - rzy g - rzc g)) by lia.
    rewrite sc_ltb0.
    set (d := rzx g - rzy g - rzc g) in *.
    assert (Hzy : exists zy zc, (if d <? 0 then (d + base, 1) else (d, 0)) = (zy, zc)
       /\ (if d <? 0 then (rnd (sc d + sc base), sc 1) else (sc d, 0%R)) = (sc zy, sc zc) /\ 0 <= zy < base).
    { destruct (d <? 0) eqn:El.
      - apply Z.ltb_lt in El. exists (d + base), 1. split; auto. rewrite sc_add, rnd_sc by lia.
        split; auto. unfold d in *. lia.
      - apply Z.ltb_ge in El. exists d, 0. split; auto. rewrite <- sc_0. split; auto. unfold d in *. lia. }
    destruct Hzy as (zy & zc & Ez1 & Ez2 & Hzy). rewrite Ez1 in E. rewrite Ez2.
    apply bind_Ok_inv in E. destruct E as ([[[t Q] c] indx] & E1 & E2). cbn beta iota in E2.
    apply Ok_pair_inj in E2. destruct E2 as [<- <-].
    assert (Ht : 0 <= t < base /\
      (if (rindx g <? 1220)%nat then
         t <- get (map sc (rQ g)) (rindx g) ;; Ok (t, map sc (rQ g), sc (rc g), (rindx g + 1)%nat)
       else
         '(Q, c) <- for_res 1220 0 (refill_body (rops rnd)) (map sc (rQ g), sc (rc g)) ;;
         t <- get Q 0 ;; Ok (t, Q, c, 1%nat)) = Ok (sc t, map sc Q, sc c, indx)).
    { destruct (rindx g <? 1220)%nat eqn:Ei.
      - apply bind_Ok_inv in E1. destruct E1 as (t' & Eg & E1). inversion E1; subst.
        rewrite (get_map _ _ Eg). cbn [bind]. split; auto.
        apply get_Ok in Eg. destruct Hw as (HL & _ & Hn). cbn [fst] in *.
        rewrite Hn in Eg by (apply Nat.ltb_lt in Ei; exact Ei). inversion Eg.
        apply nth_in01. apply (hist_inv Hlen Hin).
      - destruct (@refill_loop_sim words b Hlen Hin 1220%nat 0%nat (rQ g, rc g)) as (st' & Ef & Ef'); [lia|exact Hw|].
        unfold mapst in Ef'. cbn [fst snd] in Ef'. rewrite Ef'. rewrite Ef in E1.
        destruct st' as [Q' c']. cbn [bind mapst fst snd] in *.
        apply bind_Ok_inv in E1. destruct E1 as (t' & Eg & E1). inversion E1; subst.
        rewrite (get_map _ _ Eg). cbn [bind]. split; auto.
        destruct (@for_res_inv (list Z * Z) (win words b) 1220 0 (refill_body zops) (rQ g, rc g))
          as (st2 & Ef2 & Hf2); auto.
        { intros i st Hi Hst. apply refill_step; auto; lia. }
        rewrite Ef in Ef2. inversion Ef2; subst st2.
        destruct Hf2 as (HL & _ & Hn). cbn [fst] in *. apply get_Ok in Eg.
        rewrite Hn in Eg by lia. inversion Eg. apply nth_in01. apply (hist_inv Hlen Hin). }
    destruct Ht as [Htb Et]. rewrite Et. cbn [bind]. clear Et E1.
    rewrite sc_ltb. rewrite sc_sub, (rnd_sc (t - zy)) by lia.
    unfold mapg. cbn [rQ rc rzc rzx rzy rindx]. destruct (t <? zy) eqn:El.
    - apply Z.ltb_lt in El. rewrite sc_add, rnd_sc by lia. reflexivity.
    - reflexivity.
  Qed.

  Lemma draws_sim words zx0 zy0 n : forall k g,
    length words = 1220%nat -> Forall in01 words -> in01 zx0 -> in01 zy0 ->
    after words zx0 zy0 k g ->
    forall us g', draws zops n g = Ok (us, g') -> draws (rops rnd) n (mapg g) = Ok (map sc us, mapg g').
  Proof.
    induction n as [|n IH]; intros k g H1 H2 H3 H4 H5 us g' E; cbn [draws] in *.
    - inversion E; subst. reflexivity.
    - destruct (generate_ok H1 H2 H3 H4 H5) as (g1 & E1 & A1).
      rewrite E1 in E. rewrite (generate_sim H1 H2 H3 H4 H5 E1). cbn [bind] in *.
      apply bind_Ok_inv in E. destruct E as ([us2 g2] & E2 & E). inversion E; subst.
      rewrite (IH _ _ H1 H2 H3 H4 A1 _ _ E2). reflexivity.
  Qed.

  Lemma half_sc w : 0 <= w <= 52 -> rnd (/ 2 * sc (2 ^ (w + 1)))%R = sc (2 ^ w).
  Proof.
    intros Hw. replace (/ 2 * sc (2 ^ (w + 1)))%R with (sc (2 ^ w)).
    - apply rnd_sc. rewrite Z.abs_eq by (apply Z.pow_nonneg; lia).
      change base with (2 ^ 53). apply Z.pow_le_mono_r; lia.
    - unfold sc. rewrite Z.pow_add_r, mult_IZR by lia. change (2 ^ 1) with 2. lra.
  Qed.

  Lemma seed_bits_sim : forall n x y s w,
    Z.of_nat n <= w -> w <= 53 -> 0 <= s -> s + 2 ^ w <= base ->
    seed_bits (rops rnd) n x y (sc s) (sc (2 ^ w)) =
    let '(s', x', y') := seed_bits zops n x y s (2 ^ w) in (sc s', x', y').
  Proof.
    induction n as [|n IH]; intros x y s w Hn Hw Hs Hb; cbn [seed_bits]; auto.
    cbn [f_half f_add rops zops].
    assert (E2 : 2 ^ w = 2 * 2 ^ (w - 1)).
    { replace w with (Z.succ (w - 1)) at 1 by lia. rewrite Z.pow_succ_r by lia. reflexivity. }
    assert (Hpos : 0 < 2 ^ (w - 1)) by (apply Z.pow_pos_nonneg; lia).
    assert (Eh : rnd (/ 2 * sc (2 ^ w))%R = sc (2 ^ (w - 1))).
    { replace w with (w - 1 + 1) at 1 by lia. apply half_sc. lia. }
    rewrite Eh.
    replace (2 ^ w / 2) with (2 ^ (w - 1)) by (rewrite E2, Z.mul_comm, Z.div_mul; lia).
    destruct (Z.odd _).
    - rewrite sc_add, rnd_sc by lia. apply IH; lia.
    - apply IH; lia.
  Qed.

  Lemma seed_words_sim n x y : seed_words (rops rnd) n x y = map sc (seed_words zops n x y).
  Proof.
    revert x y; induction n as [|n IH]; intros x y; cbn [seed_words]; auto.
    change (f_one (rops rnd)) with 1%R. change (f_zero (rops rnd)) with 0%R.
    rewrite sc_1, sc_0. change base with (2 ^ 53). rewrite seed_bits_sim by (unfold base; lia).
    change (f_one zops) with (2 ^ 53). change (f_zero zops) with 0.
    destruct (seed_bits zops 52 x y 0 (2 ^ 53)) as [[s x1] y1]. cbn [map]. now rewrite IH.
  Qed.

  Lemma initiate_sim seed : initiate (rops rnd) seed = mapg (initiate zops seed).
  Proof.
    unfold initiate, mapg. cbn [rQ rc rzc rzx rzy rindx]. rewrite seed_words_sim.
    cbn [f_zero f_zx0 f_zy0 rops zops].
    change (5212886298506819 / 9007199254740992)%R with (sc 5212886298506819).
    change (2020898595989513 / 9007199254740992)%R with (sc 2020898595989513).
    rewrite (rnd_sc (5212886298506819)) by (unfold base; lia).
    rewrite (rnd_sc (2020898595989513)) by (unfold base; lia).
    rewrite <- !sc_0. reflexivity.
  Qed.

  (** The floating-point stream is the integer stream. *)
  Theorem draws_exact seed n :
    exists g us, draws (rops rnd) n (initiate (rops rnd) seed) = Ok (map sc us, g)
      /\ us = map (spec_draw (spec_words seed) 5212886298506819 2020898595989513) (seq 0 n).
  Proof.
    destruct (spec_words_ok seed) as [H1 H2].
    destruct (draws_spec seed n) as (g & E).
    exists (mapg g). eexists. split; [|reflexivity].
    rewrite initiate_sim. eapply draws_sim; eauto using initiate_after;
      unfold in01, base; lia.
  Qed.

  Theorem draws_unit_interval seed n :
    exists g us, draws (rops rnd) n (initiate (rops rnd) seed) = Ok (us, g)
      /\ length us = n /\ Forall (fun u => 0 <= u < 1)%R us.
  Proof.
    destruct (draws_exact seed n) as (g & us & E & Hus).
    exists g, (map sc us). split; auto.
    destruct (draws_spec seed n) as (g' & E'). rewrite <- Hus in E'.
    apply draws_range in E'. destruct E' as [HL HF]. rewrite map_length. split; auto.
    apply Forall_forall. intros u Hu. apply in_map_iff in Hu. destruct Hu as (v & <- & Hv).
    rewrite Forall_forall in HF. specialize (HF v Hv). destruct HF as [Ha Hb].
    split.
    - rewrite sc_0. destruct (Z.eq_dec v 0) as [->|]; [apply Rle_refl|].
      left. apply sc_lt. lia.
    - rewrite sc_1. now apply sc_lt.
  Qed.
End Exact.
