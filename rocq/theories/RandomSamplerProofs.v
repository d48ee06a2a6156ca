(** Proofs about the random generator of RandomSampler.v. *)
From Verif Require Import Base MemoryHandler RandomSampler RandomSpec.
Local Open Scope Z_scope.

Lemma base_M53 : base = M53. Proof. reflexivity. Qed.
Lemma base_pos : 0 < base. Proof. reflexivity. Qed.
Local Opaque base.

Definition in01 (v : Z) : Prop := 0 <= v < base.
Definition bit01 (v : Z) : Prop := v = 0 \/ v = 1.

  Lemma nth_in01 l n : Forall in01 l -> in01 (nth n l 0).
  Proof.
    intros H. destruct (Nat.lt_ge_cases n (length l)) as [Hn|Hn].
    - rewrite Forall_forall in H. apply H. now apply nth_In.
    - rewrite nth_overflow by lia. split; [lia|apply base_pos].
  Qed.

(* ---- the history of the add-with-carry generator ---- *)
Section Hist.
  Variable words : list Z.
  Hypothesis Hlen : length words = 1220%nat.
  Hypothesis Hin : Forall in01 words.

  Definition hist (m : nat) : list Z := fst (awc m (words, 0)).
  Definition car (m : nat) : Z := snd (awc m (words, 0)).

  Lemma awc_S m :
    awc (S m) (words, 0) =
    (hist m ++ [(nth (length (hist m) - 30) (hist m) 0
                 + (base - 1 - nth (length (hist m) - 1220) (hist m) 0) + car m) mod base],
     (nth (length (hist m) - 30) (hist m) 0
                 + (base - 1 - nth (length (hist m) - 1220) (hist m) 0) + car m) / base).
  Proof. unfold hist, car. cbn [awc]. destruct (awc m (words, 0)); reflexivity. Qed.

  Lemma hist_S m : hist (S m) = hist m ++ [(nth (length (hist m) - 30) (hist m) 0
                 + (base - 1 - nth (length (hist m) - 1220) (hist m) 0) + car m) mod base].
  Proof. unfold hist at 1. rewrite awc_S. reflexivity. Qed.
  Lemma car_S m : car (S m) = (nth (length (hist m) - 30) (hist m) 0
                 + (base - 1 - nth (length (hist m) - 1220) (hist m) 0) + car m) / base.
  Proof. unfold car at 1. rewrite awc_S. reflexivity. Qed.

  Lemma hist_length m : length (hist m) = (1220 + m)%nat.
  Proof.
    induction m as [|m IH]. { unfold hist; cbn [awc fst]. lia. }
    rewrite hist_S, app_length, IH. cbn [length]. lia.
  Qed.

  Lemma hist_stable m n : (n < 1220 + m)%nat -> forall d, nth n (hist (m + d)) 0 = nth n (hist m) 0.
  Proof.
    intros Hn d. induction d as [|d IH]; [now rewrite Nat.add_0_r|].
    rewrite Nat.add_succ_r, hist_S, app_nth1; [exact IH|]. rewrite hist_length. lia.
  Qed.
  Lemma hist_stable' m m' n : (n < 1220 + m)%nat -> (m <= m')%nat -> nth n (hist m') 0 = nth n (hist m) 0.
  Proof. intros H1 H2. replace m' with (m + (m' - m))%nat by lia. now apply hist_stable. Qed.

  Lemma hist_inv m : Forall in01 (hist m) /\ bit01 (car m).
  Proof.
    induction m as [|m [IH1 IH2]].
    - split; [exact Hin|]. left; reflexivity.
    - rewrite hist_S, car_S. pose proof base_pos as HB.
      pose proof (nth_in01 (length (hist m) - 30) IH1) as [A1 A2].
      pose proof (nth_in01 (length (hist m) - 1220) IH1) as [B1 B2].
      set (v := _ + car m) in *.
      assert (0 <= v < 2 * base) by (unfold v; destruct IH2 as [->| ->]; lia).
      split.
      + apply Forall_app. split; auto. constructor; auto. apply Z.mod_pos_bound; lia.
      + assert (0 <= v / base < 2).
        { split; [apply Z.div_pos; lia | apply Z.div_lt_upper_bound; lia]. }
        unfold bit01; lia.
  Qed.
End Hist.

(* ---- the refill loop ---- *)
Definition win (words : list Z) (b i : nat) (st : list Z * Z) : Prop :=
  length (fst st) = 1220%nat /\ snd st = car words (1220 * b + i) /\
  forall p, (p < 1220)%nat ->
    nth_error (fst st) p =
    Some (nth (if (p <? i)%nat then 1220 * (b + 1) + p else 1220 * b + p)%nat
              (hist words (1220 * b + i)) 0).

Lemma refill_step words b i st :
  length words = 1220%nat -> Forall in01 words ->
  (i < 1220)%nat -> win words b i st ->
  exists st', refill_body zops i st = Ok st' /\ win words b (S i) st'.
Proof.
  intros Hlen Hin Hi. destruct st as [Q c]. intros (HL & Hc & Hp). cbn [fst snd] in *.
  pose proof (hist_length words Hlen (1220 * b + i)) as HLh.
  destruct (hist_inv Hlen Hin (1220 * b + i)) as [HF Hbit].
  set (h := hist words (1220 * b + i)) in *.
  unfold refill_body.
  set (j := if (i <? 30)%nat then (i + 1190)%nat else (i - 30)%nat).
  assert (Hj : (j < 1220)%nat) by (unfold j; destruct (i <? 30)%nat eqn:E; lia).
  assert (Hqj : nth_error Q j = Some (nth (length h - 30) h 0)).
  { rewrite Hp by exact Hj. f_equal. f_equal. rewrite HLh. unfold j.
    destruct (i <? 30)%nat eqn:E.
    - replace (i + 1190 <? i)%nat with false by (symmetry; apply Nat.ltb_ge; lia). lia.
    - replace (i - 30 <? i)%nat with true by (symmetry; apply Nat.ltb_lt; lia). lia. }
  assert (Hqi : nth_error Q i = Some (nth (length h - 1220) h 0)).
  { rewrite Hp by exact Hi. rewrite Nat.ltb_irrefl. f_equal. f_equal. lia. }
  unfold get. rewrite Hqj, Hqi. cbn [bind f_add f_sub f_ltb f_zero f_one f_cc zops].
  pose proof (nth_in01 (length h - 30)%nat HF) as [A1 A2].
  pose proof (nth_in01 (length h - 1220)%nat HF) as [B1 B2].
  set (qj := nth (length h - 30) h 0) in *. set (qi := nth (length h - 1220) h 0) in *.
  pose proof base_pos as HB.
  assert (Hc01 : c = 0 \/ c = 1) by (rewrite Hc; exact Hbit).
  assert (Hhs : hist words (1220 * b + S i) = h ++ [(qj + (base - 1 - qi) + c) mod base]).
  { rewrite Nat.add_succ_r, hist_S. fold h. rewrite <- Hc. reflexivity. }
  assert (Hcs : car words (1220 * b + S i) = (qj + (base - 1 - qi) + c) / base).
  { rewrite Nat.add_succ_r, car_S. fold h. rewrite <- Hc. reflexivity. }
  set (v := qj + (base - 1 - qi) + c) in *.
  assert (Hwin : forall t1 c1, t1 = v mod base -> c1 = v / base ->
     exists st', (Q1 <- set Q i t1;; Ok (Q1, c1)) = Ok st' /\ win words b (S i) st').
  { intros t1 c1 -> ->. rewrite set_Ok by lia. cbn [bind]. eexists. split; [reflexivity|].
    unfold win. cbn [fst snd]. rewrite upd_length. split; [exact HL|]. split; [now rewrite Hcs|].
    intros p Hlt. rewrite Hhs. destruct (Nat.eq_dec p i) as [->|Hne].
    - rewrite upd_nth_same by lia.
      replace (i <? S i)%nat with true by (symmetry; apply Nat.ltb_lt; lia).
      rewrite app_nth2 by lia. replace (1220 * (b + 1) + i - length h)%nat with 0%nat by lia. reflexivity.
    - rewrite upd_nth_other by lia. rewrite Hp by exact Hlt.
      replace (p <? S i)%nat with (p <? i)%nat
        by (destruct (p <? i)%nat eqn:E; symmetry; [apply Nat.ltb_lt|apply Nat.ltb_ge]; lia).
      rewrite app_nth1; [reflexivity|]. destruct (p <? i)%nat eqn:E; lia. }
  rewrite <- base_M53.
  destruct (0 <? qj - qi + c) eqn:Et; cbn [fst snd].
  - apply Z.ltb_lt in Et. apply Hwin; unfold v.
    + apply Z.mod_unique with (q := 1); lia.
    + apply Z.div_unique with (r := qj - qi + c - 1); lia.
  - apply Z.ltb_ge in Et. apply Hwin; unfold v.
    + apply Z.mod_unique with (q := 0); lia.
    + apply Z.div_unique with (r := qj - qi + c - 1 + base); lia.
Qed.

(** State after [k] draws, described through the specification sequences. *)
Definition after (words : list Z) (zx0 zy0 : Z) (k : nat) (g : rng Z) : Prop :=
  exists b : nat,
    (1220 * b + rindx g = k + 1220)%nat /\ (1 <= rindx g <= 1220)%nat /\
    win words b 0 (rQ g, rc g) /\
    (rzx g, rzy g, rzc g) = swb k (zx0, zy0, 0).

Lemma swb_inv zx zy k : in01 zx -> in01 zy ->
  let '(a, b, w) := swb k (zx, zy, 0) in in01 a /\ in01 b /\ bit01 w.
Proof.
  intros Hx Hy. pose proof base_pos. induction k as [|k IH]; cbn [swb].
  - repeat split; auto; try apply Hx; try apply Hy. left; reflexivity.
  - destruct (swb k (zx, zy, 0)) as [[a b] w]. destruct IH as (H1 & H2 & H3).
    unfold swb_step. repeat split; try apply H2; try (apply Z.mod_pos_bound; lia).
    destruct (a - b - w <? 0); [right|left]; reflexivity.
Qed.

Lemma generate_ok words zx0 zy0 k g :
  length words = 1220%nat -> Forall in01 words -> in01 zx0 -> in01 zy0 ->
  after words zx0 zy0 k g ->
  exists g', generate zops g = Ok (spec_draw words zx0 zy0 k, g') /\ after words zx0 zy0 (S k) g'.
Proof.
  intros Hlen Hin Hx Hy (b & Hk & Hidx & Hw & Hz).
  pose proof base_pos as HB.
  pose proof (swb_inv k Hx Hy) as Hzi. rewrite <- Hz in Hzi. destruct Hzi as (Ha & Hb & Hwb).
  unfold generate. cbn [f_add f_sub f_ltb f_zero f_one f_cc zops]. rewrite <- base_M53.
  assert (Hz1 : (if rzx g - rzy g - rzc g <? 0
                 then (rzx g - rzy g - rzc g + base, 1) else (rzx g - rzy g - rzc g, 0))
                = ((rzx g - rzy g - rzc g) mod base, if rzx g - rzy g - rzc g <? 0 then 1 else 0)).
  { destruct (rzx g - rzy g - rzc g <? 0) eqn:E.
    - apply Z.ltb_lt in E. f_equal. apply Z.mod_unique with (q := -1); [|lia].
      left. unfold in01, bit01 in *. lia.
    - apply Z.ltb_ge in E. f_equal. apply Z.mod_unique with (q := 0); [|lia].
      left. unfold in01, bit01 in *. lia. }
  rewrite Hz1. clear Hz1.
  set (z := (rzx g - rzy g - rzc g) mod base) in *.
  set (wz := if rzx g - rzy g - rzc g <? 0 then 1 else 0).
  assert (Hzs : swb (S k) (zx0, zy0, 0) = (rzy g, z, wz)).
  { cbn [swb]. rewrite <- Hz. reflexivity. }
  assert (Hzin : in01 z) by (apply Z.mod_pos_bound; lia).
  (* the word read *)
  assert (exists Q c indx,
     (if (rindx g <? 1220)%nat then
         t <- get (rQ g) (rindx g) ;; Ok (t, rQ g, rc g, (rindx g + 1)%nat)
       else
         '(Q, c) <- for_res 1220 0 (refill_body zops) (rQ g, rc g) ;;
         t <- get Q 0 ;; Ok (t, Q, c, 1%nat))
     = Ok (nth (1220 + k) (hist words (S k)) 0, Q, c, indx)
     /\ exists b', (1220 * b' + indx = S k + 1220)%nat /\ (1 <= indx <= 1220)%nat /\ win words b' 0 (Q, c))
    as (Q & c & indx & E & b' & Hb1 & Hb2 & Hb3).
  { destruct (rindx g <? 1220)%nat eqn:Ei.
    - apply Nat.ltb_lt in Ei. destruct Hw as (HL & Hc & Hp). cbn [fst snd] in *.
      unfold get. rewrite Hp by exact Ei. cbn [bind].
      exists (rQ g), (rc g), (rindx g + 1)%nat. split.
      + f_equal. f_equal. f_equal. f_equal.
        replace (rindx g <? 0)%nat with false by reflexivity.
        replace (1220 * b + rindx g)%nat with (1220 + k)%nat by lia.
        rewrite (hist_stable' words Hlen) with (m := S k); auto; lia.
      + exists b. split; [lia|]. split; [lia|]. split; auto.
    - apply Nat.ltb_ge in Ei.
      destruct (@for_res_inv (list Z * Z) (win words b) 1220 0 (refill_body zops) (rQ g, rc g))
        as ([Q c] & Ef & Hf); auto.
      { intros i st Hi Hst. apply refill_step; auto; lia. }
      rewrite Ef. cbn [bind]. rewrite Nat.add_0_l in Hf.
      assert (Hf' : win words (b + 1) 0 (Q, c)).
      { destruct Hf as (HL & Hc & Hp). cbn [fst snd] in *.
        unfold win; cbn [fst snd]. replace (1220 * (b + 1) + 0)%nat with (1220 * b + 1220)%nat by lia.
        split; auto. split; auto. intros p Hlt. rewrite Hp by exact Hlt.
        replace (p <? 1220)%nat with true by (symmetry; apply Nat.ltb_lt; lia). reflexivity. }
      exists Q, c, 1%nat. split.
      + pose proof Hf' as (HL & Hc & Hp). cbn [fst snd] in *.
        unfold get. rewrite Hp by lia. cbn [bind]. f_equal. f_equal. f_equal. f_equal.
        replace (0 <? 0)%nat with false by reflexivity.
        replace (1220 * (b + 1) + 0)%nat with (1220 + k)%nat by lia.
        rewrite (hist_stable' words Hlen) with (m := S k); auto; lia.
      + exists (b + 1)%nat. split; [lia|]. split; [lia|]. exact Hf'. }
  rewrite E. cbn [bind].
  set (t := nth (1220 + k) (hist words (S k)) 0) in *.
  assert (Ht : in01 t) by (apply nth_in01; apply (hist_inv Hlen Hin)).
  exists (Rng Q c wz (rzy g) z indx). split.
  - f_equal. f_equal. unfold spec_draw. rewrite Hzs. fold (hist words (S k)). fold t.
    unfold in01 in *. destruct (t <? z) eqn:El.
    + apply Z.ltb_lt in El. apply Z.mod_unique with (q := -1); lia.
    + apply Z.ltb_ge in El. apply Z.mod_unique with (q := 0); lia.
  - exists b'. cbn [rindx rQ rc rzx rzy rzc]. split; auto. 
Qed.

Lemma draws_ok words zx0 zy0 n : forall k g,
  length words = 1220%nat -> Forall in01 words -> in01 zx0 -> in01 zy0 ->
  after words zx0 zy0 k g ->
  exists g', draws zops n g = Ok (map (spec_draw words zx0 zy0) (seq k n), g')
    /\ after words zx0 zy0 (k + n) g'.
Proof.
  induction n as [|n IH]; intros k g H1 H2 H3 H4 H5; cbn [draws seq map].
  - exists g. split; auto. now rewrite Nat.add_0_r.
  - destruct (generate_ok H1 H2 H3 H4 H5) as (g1 & E1 & A1). rewrite E1. cbn [bind].
    destruct (IH (S k) g1 H1 H2 H3 H4 A1) as (g2 & E2 & A2). rewrite E2. cbn [bind].
    exists g2. split; auto. now rewrite Nat.add_succ_r.
Qed.

(* ---- seeding ---- *)

Lemma iterate_S {A} (f : A -> A) n a : iterate f n (f a) = f (iterate f n a).
Proof. revert a; induction n; simpl; intros; auto. Qed.

Lemma lcg_spec : lcg = spec_lcg. Proof. reflexivity. Qed.
Lemma xorshift_spec : xorshift = spec_xorshift. Proof. reflexivity. Qed.

Lemma spec_bit_shift x y k : spec_bit (lcg x) (xorshift y) k = spec_bit x y (S k).
Proof. reflexivity. Qed.
Lemma spec_word_shift x y k n w : spec_word (lcg x) (xorshift y) k n w = spec_word x y (S k) n w.
Proof. revert k w; induction n; intros; cbn [spec_word]; auto. now rewrite spec_bit_shift, IHn. Qed.

Lemma testbit_odd_shift a : Z.odd (Z.shiftr (a mod w64) 23) = Z.testbit a 23.
Proof.
  rewrite <- Z.bit0_odd, Z.shiftr_spec by lia. change (0 + 23) with 23.
  unfold w64. rewrite Z.mod_pow2_bits_low by lia. reflexivity.
Qed.

Lemma seed_bits_ok n : forall x y s w, Z.of_nat n <= w ->
  seed_bits zops n x y s (2 ^ w) =
  (s + spec_word x y 0 n (w - 1), iterate lcg n x, iterate xorshift n y).
Proof.
  induction n as [|n IH]; intros x y s w Hw; cbn [seed_bits spec_word iterate].
  - now rewrite Z.add_0_r.
  - cbn [f_half f_add zops].
    replace (2 ^ w / 2) with (2 ^ (w - 1)).
    2:{ replace w with (w - 1 + 1) at 2 by lia. rewrite Z.pow_add_r by lia.
        change (2 ^ 1) with 2. now rewrite Z.div_mul. }
    rewrite IH by lia. rewrite spec_word_shift.
    rewrite testbit_odd_shift. unfold spec_bit at 1. cbn [iterate].
    change spec_lcg with lcg. change spec_xorshift with xorshift.
    f_equal. f_equal. destruct (Z.testbit (lcg x + xorshift y) 23); unfold Z.b2z; ring.
Qed.

Lemma seed_words_ok n : forall x y,
  seed_words zops n x y =
  map (fun i => spec_word x y (52 * i) 52 52) (seq 0 n).
Proof.
  induction n as [|n IH]; intros x y; cbn [seed_words]; auto.
  change (f_one zops) with (2 ^ 53). change (f_zero zops) with 0.
  rewrite seed_bits_ok by lia.
  change (seq 0 (S n)) with (0%nat :: seq 1 n). cbn [map].
  f_equal. rewrite IH, <- seq_shift, map_map.
  apply map_ext. intros i.
  assert (H : forall m k j w x y, spec_word (iterate lcg m x) (iterate xorshift m y) k j w = spec_word x y (m + k) j w).
  { induction m as [|m IHm]; intros k j w x' y'; cbn [iterate]; auto.
    rewrite IHm. rewrite spec_word_shift. reflexivity. }
  rewrite H. f_equal. lia.
Qed.

Lemma spec_word_bound x y : forall n k w, Z.of_nat n <= w + 1 ->
  0 <= spec_word x y k n w < 2 ^ (w + 1).
Proof.
  induction n as [|n IH]; intros k w Hw; cbn [spec_word].
  - split; [lia|]. apply Z.pow_pos_nonneg; lia.
  - specialize (IH (S k) (w - 1)). replace (w - 1 + 1) with w in IH by lia.
    assert (H : 0 <= spec_word x y (S k) n (w - 1) < 2 ^ w) by (apply IH; lia).
    assert (Hb : 0 <= spec_bit x y k <= 1).
    { unfold spec_bit. destruct (Z.testbit _ 23); simpl; lia. }
    replace (w + 1) with (Z.succ w) by lia. rewrite Z.pow_succ_r by lia. nia.
Qed.

Local Transparent base.
Lemma spec_words_ok seed : length (spec_words seed) = 1220%nat /\ Forall in01 (spec_words seed).
Proof.
  split. { unfold spec_words. now rewrite map_length, seq_length. }
  unfold spec_words. apply Forall_forall. intros v Hv. apply in_map_iff in Hv.
  destruct Hv as (i & <- & _). unfold in01. apply spec_word_bound. lia.
Qed.

Lemma initiate_after seed :
  after (spec_words seed) 5212886298506819 2020898595989513 0 (initiate zops seed).
Proof.
  exists 0%nat. unfold initiate. cbn [rindx rQ rc rzx rzy rzc].
  split; [reflexivity|]. split; [lia|]. rewrite seed_words_ok. fold (seed_of seed).
  fold (spec_words seed). destruct (spec_words_ok seed) as [HL _].
  split; [|reflexivity]. split; [exact HL|]. split; [reflexivity|].
  cbn [fst]. intros p Hp. replace (p <? 0)%nat with false by reflexivity.
  change (hist (spec_words seed) (1220 * 0 + 0)) with (spec_words seed).
  replace (1220 * 0 + p)%nat with p by lia. apply nth_error_nth'. lia.
Qed.

(** The n-th number drawn, for every seed. *)
Theorem draws_spec seed n :
  exists g, draws zops n (initiate zops seed) =
    Ok (map (spec_draw (spec_words seed) 5212886298506819 2020898595989513) (seq 0 n), g).
Proof.
  destruct (spec_words_ok seed) as [H1 H2].
  destruct (@draws_ok (spec_words seed) 5212886298506819 2020898595989513 n 0 (initiate zops seed))
    as (g & E & _); auto; try (split; reflexivity || discriminate).
  - apply initiate_after.
  - exists g. exact E.
Qed.

Theorem draws_range seed n us g :
  draws zops n (initiate zops seed) = Ok (us, g) ->
  length us = n /\ Forall (fun u => 0 <= u < base) us.
Proof.
  destruct (draws_spec seed n) as (g' & E). rewrite E. intros H. inversion H; subst.
  split; [now rewrite map_length, seq_length|].
  apply Forall_forall. intros u Hu. apply in_map_iff in Hu. destruct Hu as (k & <- & _).
  unfold spec_draw. destruct (swb _ _) as [[a b] c]. apply Z.mod_pos_bound. reflexivity.
Qed.

(** Closed form of the congruential generator, for readers of the specification. *)
Lemma lcg_closed n x : 0 <= x ->
  iterate lcg n x mod w64 = (69069 ^ Z.of_nat n * x + 123 * ((69069 ^ Z.of_nat n - 1) / 69068)) mod w64.
Proof.
  intros Hx. revert x Hx. induction n as [|n IH]; intros x Hx.
  - cbn [iterate]. change (Z.of_nat 0) with 0. rewrite Z.pow_0_r. f_equal.
    change ((1 - 1) / 69068) with 0. lia.
  - cbn [iterate]. rewrite IH by (apply Z.mod_pos_bound; reflexivity).
    unfold lcg. rewrite Nat2Z.inj_succ, Z.pow_succ_r by lia.
    set (p := 69069 ^ Z.of_nat n).
    assert (Hdiv : exists q, p = 1 + 69068 * q).
    { unfold p. clear. induction n as [|n [q IHq]]; [exists 0; reflexivity|].
      rewrite Nat2Z.inj_succ, Z.pow_succ_r by lia. rewrite IHq. exists (69069 * q + 1). ring. }
    destruct Hdiv as [q ->].
    replace ((1 + 69068 * q - 1) / 69068) with q
      by (replace (1 + 69068 * q - 1) with (q * 69068) by ring; now rewrite Z.div_mul).
    replace ((69069 * (1 + 69068 * q) - 1) / 69068) with (1 + 69069 * q)
      by (replace (69069 * (1 + 69068 * q) - 1) with ((1 + 69069 * q) * 69068) by ring; now rewrite Z.div_mul).
    rewrite <- Z.add_mod_idemp_l by discriminate.
    rewrite Z.mul_mod_idemp_r by discriminate.
    rewrite Z.add_mod_idemp_l by discriminate. f_equal. ring.
Qed.

(* ---- seeds of different threads ---- *)
Lemma thread_seed_distinct now t1 t2 :
  0 <= t1 < t2 -> (t2 + 1) * t2 <= now -> thread_seed now t1 <> thread_seed now t2.
Proof.
  intros Ht Hn. unfold thread_seed.
  assert (now / (t2 + 1) < now / (t1 + 1)); [|lia].
  apply Z.lt_le_trans with (now / (t2 + 1) + 1); [lia|].
  apply Z.div_le_lower_bound; [lia|].
  pose proof (Z.mul_div_le now (t2 + 1)) as H. specialize (H ltac:(lia)).
  set (q := now / (t2 + 1)) in *.
  assert (t2 <= q) by (apply Z.div_le_lower_bound; lia). nia.
Qed.

(** Seeds of the default constructor. *)
Lemma default_seed_distinct now n1 n2 :
  (0 < n1 < n2 -> 0 <= now -> (n2 * (n2 - 1) <= now \/ now < 1000 * n2) ->
   default_seed now n1 <> default_seed now n2)%Z.
Proof.
  intros Hn H0 Hw. unfold default_seed.
  rewrite !Z.gtb_ltb.
  destruct (Z.ltb_spec now (1000 * n1)); destruct (Z.ltb_spec now (1000 * n2)); try lia.
  - assert (now / n1 <= now)%Z by (apply Z.div_le_upper_bound; nia). lia.
  - destruct Hw as [Hw|Hw]; [|lia].
    pose proof (@thread_seed_distinct now (n1 - 1) (n2 - 1)) as HT.
    unfold thread_seed in HT.
    replace (n1 - 1 + 1)%Z with n1 in HT by lia. replace (n2 - 1 + 1)%Z with n2 in HT by lia.
    apply HT; nia.
Qed.
