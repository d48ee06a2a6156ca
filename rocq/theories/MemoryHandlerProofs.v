(** Proofs about MemoryHandler.v. *)
From Verif Require Import Base MemoryHandler SortSpec.

(** [l] is [l0] with the entries of [lo..hi] rearranged. *)
Record rearr {A} (l0 l : list A) (lo hi : nat) : Prop := {
  ra_len : length l = length l0;
  ra_perm : Permutation l0 l;
  ra_out : same_outside l0 l lo hi;
  ra_in : forall k, lo <= k <= hi -> exists k', lo <= k' <= hi /\ nth_error l k = nth_error l0 k'
}.

Lemma rearr_refl {A} (l : list A) lo hi : rearr l l lo hi.
Proof. split; auto. - intros k _; reflexivity. - intros k Hk; exists k; auto. Qed.

Lemma rearr_trans {A} (l0 l1 l2 : list A) lo hi :
  rearr l0 l1 lo hi -> rearr l1 l2 lo hi -> rearr l0 l2 lo hi.
Proof.
  intros [L1 P1 O1 I1] [L2 P2 O2 I2]. split.
  - congruence.
  - etransitivity; eassumption.
  - intros k Hk. rewrite O2, O1; auto.
  - intros k Hk. destruct (I2 k Hk) as (k1 & Hk1 & E1).
    destruct (I1 k1 Hk1) as (k2 & Hk2 & E2). exists k2. split; [lia|congruence].
Qed.

Lemma rearr_widen {A} (l0 l : list A) lo hi lo' hi' :
  lo' <= lo -> hi <= hi' -> rearr l0 l lo hi -> rearr l0 l lo' hi'.
Proof.
  intros Hlo Hhi [L P O I]. split; auto.
  - intros k Hk. apply O. lia.
  - intros k Hk. destruct (le_lt_dec lo k) as [H1|H1].
    + destruct (le_lt_dec k hi) as [H2|H2].
      * destruct (I k) as (k' & Hk' & E); [lia|]. exists k'. split; [lia|auto].
      * exists k. split; [lia|apply O; lia].
    + exists k. split; [lia|apply O; lia].
Qed.

Lemma rearr_swapped {A} (l : list A) i j lo hi :
  i < length l -> j < length l -> lo <= i <= hi -> lo <= j <= hi -> rearr l (swapped l i j) lo hi.
Proof.
  intros Hi Hj Hi' Hj'. split.
  - apply swapped_length.
  - apply swapped_perm.
  - intros k Hk. rewrite swapped_nth by assumption.
    destruct (k =? j) eqn:E1; [lia|]. destruct (k =? i) eqn:E2; [lia|]. reflexivity.
  - intros k Hk. rewrite swapped_nth by assumption.
    destruct (k =? j) eqn:E1; [exists i; auto|].
    destruct (k =? i) eqn:E2; [exists j; auto|]. exists k; auto.
Qed.

Section Correct.
  Context {K St Row Ob : Type}.
  Variable ltb : K -> K -> bool.
  Variable key : St -> nat -> res K.
  Variable swap : St -> nat -> nat -> res St.
  Variable rows : St -> list Row.
  Variable rk : Row -> K.
  Variable ob : St -> nat -> Ob.
  Hypothesis SW : strict_weak ltb.
  Hypothesis key_ok : forall s i r, nth_error (rows s) i = Some r -> key s i = Ok (rk r).
  Hypothesis swap_ok : forall s i j, i < length (rows s) -> j < length (rows s) ->
    exists s', swap s i j = Ok s' /\ rows s' = swapped (rows s) i j
      /\ forall k, k <> i -> k <> j -> ob s' k = ob s k.

  Definition le_piv (l : list Row) p k := forall r, nth_error l k = Some r -> ltb p (rk r) = false.
  Definition ge_piv (l : list Row) p k := forall r, nth_error l k = Some r -> ltb (rk r) p = false.

  Lemma scan_up_ok s p i w fuel :
    i <= w -> w < length (rows s) -> ge_piv (rows s) p w -> w - i < fuel ->
    exists i', scan_up ltb key fuel s p i = Ok i' /\ i <= i' <= w
      /\ ge_piv (rows s) p i'
      /\ forall k, i <= k < i' -> forall r, nth_error (rows s) k = Some r -> ltb (rk r) p = true.
  Proof.
    revert i; induction fuel as [|f IH]; intros i Hi Hw Hge Hf; [lia|]. simpl.
    destruct (nth_error_lt (rows s) (i:=i)) as [r Hr]; [lia|].
    rewrite (key_ok _ _ Hr). simpl. destruct (ltb (rk r) p) eqn:E.
    - destruct (Nat.eq_dec i w) as [->|Hne]; [rewrite (Hge _ Hr) in E; discriminate|].
      destruct (IH (i + 1)) as (i' & E' & Hb & Hg & Hall); try lia; auto.
      exists i'. split; [exact E'|]. split; [lia|]. split; [exact Hg|].
      intros k Hk r' Hr'. destruct (Nat.eq_dec k i) as [->|]; [congruence|].
      apply (Hall k); [lia|assumption].
    - exists i. split; auto. split; [lia|]. split; [|intros; lia].
      intros r' Hr'. congruence.
  Qed.

  Lemma scan_down_ok s p j w fuel :
    w <= j -> j < length (rows s) -> le_piv (rows s) p w -> j - w < fuel ->
    exists j', scan_down ltb key fuel s p j = Ok j' /\ w <= j' <= j
      /\ le_piv (rows s) p j'
      /\ forall k, j' < k <= j -> forall r, nth_error (rows s) k = Some r -> ltb p (rk r) = true.
  Proof.
    revert j; induction fuel as [|f IH]; intros j Hj Hl Hle Hf; [lia|]. simpl.
    destruct (nth_error_lt (rows s) (i:=j)) as [r Hr]; [lia|].
    rewrite (key_ok _ _ Hr). simpl. destruct (ltb p (rk r)) eqn:E.
    - destruct (Nat.eq_dec j w) as [->|Hne]; [rewrite (Hle _ Hr) in E; discriminate|].
      destruct (j =? 0) eqn:E0; [lia|].
      destruct (IH (j - 1)) as (j' & E' & Hb & Hg & Hall); try lia; auto.
      exists j'. split; [exact E'|]. split; [lia|]. split; [exact Hg|].
      intros k Hk r' Hr'. destruct (Nat.eq_dec k j) as [->|]; [congruence|].
      apply (Hall k); [lia|assumption].
    - exists j. split; auto. split; [lia|]. split; [|intros; lia].
      intros r' Hr'. congruence.
  Qed.

  Lemma sw_asym a b : ltb a b = true -> ltb b a = false.
  Proof.
    intros H. destruct (ltb b a) eqn:E; auto.
    rewrite <- (sw_irrefl SW a). symmetry. eapply (sw_trans SW); eauto.
  Qed.

  (** Loop invariant of the partition; [first] says no swap happened yet. *)
  Record pinv (l0 l : list Row) p left right (i j : nat) : Prop := {
    pi_re : rearr l0 l left right;
    pi_i : left <= i <= right + 1;
    pi_j : j <= right;
    pi_lo : forall k, left <= k < i -> le_piv l p k;
    pi_hi : forall k, j < k <= right -> ge_piv l p k;
    pi_w : (i = left /\ j = right /\ exists w, left <= w <= right /\ ge_piv l p w /\ le_piv l p w)
        \/ (left < i /\ (j < right \/ j = 0) /\
            (i <= j -> exists wu wd, i <= wu <= right /\ ge_piv l p wu /\ left <= wd <= j /\ le_piv l p wd))
  }.

  Lemma partition_ok fuel bound s0 s p left right i j :
    left <= right -> right < length (rows s) -> right + 1 < bound ->
    pinv (rows s0) (rows s) p left right i j ->
    (forall k, k < left \/ right < k -> ob s k = ob s0 k) ->
    j + 1 - i < fuel ->
    exists s' i' j', partition ltb key swap fuel bound s p i j = Ok (s', i', j')
      /\ j' < i' /\ pinv (rows s0) (rows s') p left right i' j'
      /\ forall k, k < left \/ right < k -> ob s' k = ob s0 k.
  Proof.
    intros Hlr Hlen Hb. revert s i j Hlen.
    induction fuel as [|f IH]; intros s i j Hlen HI Hob Hf; [lia|].
    cbn [partition]. destruct (i <=? j) eqn:Eij.
    2:{ exists s, i, j. split; [reflexivity|]. split; [lia|]. auto. }
    destruct HI as [Hre Hi Hj Hlo Hhi Hw].
    assert (exists wu wd, i <= wu <= right /\ ge_piv (rows s) p wu /\ left <= wd <= j /\ le_piv (rows s) p wd
              /\ ((i = left /\ j = right /\ wu = wd) \/ (left < i /\ (j < right \/ j = 0))))
      as (wu & wd & Hwu & Hgeu & Hwd & Hled & Hprog).
    { destruct Hw as [(-> & -> & w & Hw1 & Hw2 & Hw3)|(Hp1 & Hp2 & Hp3)].
      - exists w, w. repeat split; auto; lia.
      - destruct Hp3 as (wu & wd & H1 & H2 & H3 & H4); [lia|].
        exists wu, wd. repeat split; auto; lia. }
    destruct (@scan_up_ok s p i wu bound) as (i1 & E1 & Hi1 & Hge1 & Hall1); try lia; auto.
    destruct (@scan_down_ok s p j wd bound) as (j1 & E2 & Hj1 & Hle1 & Hall2); try lia; auto.
    rewrite E1. cbn [bind]. rewrite E2. cbn [bind].
    destruct (i1 <=? j1) eqn:Eij1.
    - destruct (@swap_ok s i1 j1) as (s1 & Es & Hr1 & Hob1); try lia.
      rewrite Es. cbn [bind].
      assert (Hnth : forall k, nth_error (rows s1) k =
        if k =? j1 then nth_error (rows s) i1 else
        if k =? i1 then nth_error (rows s) j1 else nth_error (rows s) k)
        by (intros k; rewrite Hr1; apply swapped_nth; lia).
      apply IH.
      + rewrite Hr1, swapped_length. exact Hlen.
      + assert (HA : forall k, left <= k < i1 + 1 -> le_piv (rows s1) p k).
        { intros k Hk r Hr. rewrite Hnth in Hr.
          destruct (k =? j1) eqn:Ek1.
          - assert (i1 = j1) by lia. subst i1. apply (Hle1 _ Hr).
          - destruct (k =? i1) eqn:Ek2; [apply (Hle1 _ Hr)|].
            destruct (le_lt_dec i k) as [Hik|Hik].
            + apply sw_asym. apply (Hall1 k); [lia|assumption].
            + apply (Hlo k); [lia|assumption]. }
        assert (HB : forall k, j1 <= k <= right -> ge_piv (rows s1) p k).
        { intros k Hk r Hr. rewrite Hnth in Hr.
          destruct (k =? j1) eqn:Ek1; [apply (Hge1 _ Hr)|].
          destruct (k =? i1) eqn:Ek2; [lia|].
          destruct (le_lt_dec k j) as [Hik|Hik].
          - apply sw_asym. apply (Hall2 k); [lia|assumption].
          - apply (Hhi k); [lia|assumption]. }
        split.
        * eapply rearr_trans; [exact Hre|]. rewrite Hr1. apply rearr_swapped; lia.
        * lia.
        * destruct (0 <? j1) eqn:E0; lia.
        * exact HA.
        * intros k Hk. apply HB. destruct (0 <? j1) eqn:E0; lia.
        * right. split; [lia|]. split; [destruct (0 <? j1) eqn:E0; [left|right]; lia|].
          intros Hle. exists j1, i1.
          repeat split; try (destruct (0 <? j1) eqn:E0; lia); [apply HB; lia | apply HA; lia].
      + intros k Hk. rewrite Hob1 by lia. apply Hob; lia.
      + destruct (0 <? j1) eqn:E0; lia.
    - apply IH.
      + exact Hlen.
      + assert (HA : forall k, left <= k < i1 -> le_piv (rows s) p k).
        { intros k Hk r Hr. destruct (le_lt_dec i k) as [Hik|Hik].
          - apply sw_asym. apply (Hall1 k); [lia|assumption].
          - apply (Hlo k); [lia|assumption]. }
        assert (HB : forall k, j1 < k <= right -> ge_piv (rows s) p k).
        { intros k Hk r Hr. destruct (le_lt_dec k j) as [Hik|Hik].
          - apply sw_asym. apply (Hall2 k); [lia|assumption].
          - apply (Hhi k); [lia|assumption]. }
        split; auto; try lia.
      + exact Hob.
      + lia.
  Qed.


  Lemma qs_ok fuel s left right :
    left <= right -> right < length (rows s) -> right - left < fuel ->
    exists s', qs ltb key swap fuel s left right = Ok s'
      /\ rearr (rows s) (rows s') left right
      /\ sorted_range ltb (map rk (rows s')) left right
      /\ (forall k, k < left \/ right < k -> ob s' k = ob s k).
  Proof.
    revert s left right; induction fuel as [|f IH]; intros s left right Hlr Hlen Hf; [lia|].
    cbn [qs].
    set (m := (left + right) / 2).
    assert (Hm : left <= m <= right).
    { unfold m. split; [apply Nat.div_le_lower_bound|apply Nat.div_le_upper_bound]; lia. }
    destruct (nth_error_lt (rows s) (i:=m)) as [rm Hrm]; [lia|].
    rewrite (key_ok _ _ Hrm). cbn [bind].
    destruct (@partition_ok (right + 2) (right + 2) s s (rk rm) left right left right)
      as (s1 & i & j & Ep & Hij & HI & Hob1); try lia; auto.
    { split; auto using rearr_refl; try lia.
      left. split; auto. split; auto. exists m. split; [lia|].
      split; intros r Hr; assert (r = rm) as -> by congruence; apply (sw_irrefl SW). }
    rewrite Ep. cbn [bind].
    destruct HI as [Hre Hi Hj Hlo Hhi Hw].
    assert (Hl1 : length (rows s1) = length (rows s)) by apply Hre.
    set (p := rk rm) in *.
    assert (Hprog : left < i /\ (j < right \/ j = 0)).
    { destruct Hw as [(-> & -> & _)|(Hp1 & Hp2 & _)]; lia. }
    (* left recursion *)
    assert (exists s2, (if (0 <? j) && (left <? j) then qs ltb key swap f s1 left j else Ok s1) = Ok s2
       /\ rearr (rows s1) (rows s2) left j
       /\ sorted_range ltb (map rk (rows s2)) left j
       /\ (forall k, k < left \/ j < k -> ob s2 k = ob s1 k)) as (s2 & E2 & Hre2 & Hs2 & Hob2).
    { destruct ((0 <? j) && (left <? j)) eqn:Eb.
      - destruct (IH s1 left j) as (s2 & H1 & H2 & H3 & H4); try lia. exists s2. auto.
      - exists s1. split; auto. split; [apply rearr_refl|]. split; auto.
        intros a b; intros. lia. }
    rewrite E2. cbn [bind].
    assert (Hl2 : length (rows s2) = length (rows s1)) by apply Hre2.
    assert (exists s3, (if i <? right then qs ltb key swap f s2 i right else Ok s2) = Ok s3
       /\ rearr (rows s2) (rows s3) i right
       /\ sorted_range ltb (map rk (rows s3)) i right
       /\ (forall k, k < i \/ right < k -> ob s3 k = ob s2 k)) as (s3 & E3 & Hre3 & Hs3 & Hob3).
    { destruct (i <? right) eqn:Eb.
      - destruct (IH s2 i right) as (s3 & H1 & H2 & H3 & H4); try lia. exists s3. auto.
      - exists s2. split; auto. split; [apply rearr_refl|]. split; auto.
        intros a b; intros. lia. }
    exists s3. split; [exact E3|]. split; [|split].
    - eapply rearr_trans; [exact Hre|].
      eapply rearr_trans; [eapply rearr_widen; [| |exact Hre2]; lia | eapply rearr_widen; [| |exact Hre3]; lia].
    - (* every entry left of i is <= p, every entry right of j is >= p, in s3 *)
      assert (HL : forall k, left <= k < i -> le_piv (rows s3) p k).
      { intros k Hk r Hr. rewrite (ra_out Hre3) in Hr by lia.
        destruct (le_lt_dec k j) as [Hkj|Hkj].
        - destruct (ra_in Hre2 (k:=k)) as (k' & Hk' & Ek'); [lia|].
          rewrite Ek' in Hr. apply (Hlo k'); [lia|assumption].
        - rewrite (ra_out Hre2) in Hr by lia. apply (Hlo k); [lia|assumption]. }
      assert (HR : forall k, j < k <= right -> ge_piv (rows s3) p k).
      { intros k Hk r Hr. destruct (le_lt_dec i k) as [Hik|Hik].
        - destruct (ra_in Hre3 (k:=k)) as (k' & Hk' & Ek'); [lia|].
          rewrite Ek' in Hr. rewrite (ra_out Hre2) in Hr by lia. apply (Hhi k'); [lia|assumption].
        - rewrite (ra_out Hre3) in Hr by lia. rewrite (ra_out Hre2) in Hr by lia.
          apply (Hhi k); [lia|assumption]. }
      intros a b ka kb Ha Hab Hb Hka Hkb.
      destruct (le_lt_dec b j) as [Hbj|Hbj].
      { apply (Hs2 a b ka kb); auto.
        - rewrite <- Hka. rewrite !map_nth_error'. f_equal. symmetry. apply (ra_out Hre3). lia.
        - rewrite <- Hkb. rewrite !map_nth_error'. f_equal. symmetry. apply (ra_out Hre3). lia. }
      destruct (le_lt_dec i a) as [Hia|Hia].
      { apply (Hs3 a b ka kb); auto. }
      rewrite map_nth_error' in Hka, Hkb.
      destruct (nth_error (rows s3) a) as [ra|] eqn:Era; [|discriminate].
      destruct (nth_error (rows s3) b) as [rb|] eqn:Erb; [|discriminate].
      simpl in Hka, Hkb. inversion Hka; inversion Hkb; subst ka kb.
      apply (sw_ntrans SW) with (y := p).
      + apply (HL a); [lia|assumption].
      + apply (HR b); [lia|assumption].
    - intros k Hk. rewrite Hob3, Hob2, Hob1 by lia. reflexivity.
  Qed.

  Lemma qsort_ok s left right :
    left <= right -> right < length (rows s) ->
    exists s', qsort ltb key swap s left right = Ok s'
      /\ rearr (rows s) (rows s') left right
      /\ sorted_range ltb (map rk (rows s')) left right
      /\ (forall k, k < left \/ right < k -> ob s' k = ob s k).
  Proof. intros H1 H2. apply qs_ok; lia. Qed.
End Correct.

Lemma nth_error_combine {A B} (l : list A) (m : list B) k :
  nth_error (combine l m) k =
  match nth_error l k, nth_error m k with Some a, Some b => Some (a, b) | _, _ => None end.
Proof.
  revert m k; induction l as [|a l IH]; intros [|b m] [|k]; simpl; auto.
  - destruct (nth_error l k); reflexivity.
Qed.

Lemma combine_swapped {A B} (l : list A) (m : list B) i j :
  i < length l -> i < length m -> j < length l -> j < length m ->
  combine (swapped l i j) (swapped m i j) = swapped (combine l m) i j.
Proof.
  intros. apply list_ext; intros k.
  rewrite nth_error_combine, !swapped_nth by (rewrite ?combine_length; lia).
  rewrite !nth_error_combine. destruct (k =? j), (k =? i); reflexivity.
Qed.

Theorem quicksort_correct {K} (ltb : K -> K -> bool) (SW : strict_weak ltb) x left right :
  left <= right -> right < length x ->
  exists x', quicksort ltb x left right = Ok x'
    /\ Permutation x x'
    /\ sorted_range ltb x' left right
    /\ same_outside x x' left right.
Proof.
  intros Hlr Hr.
  destruct (@qsort_ok K (list K) K unit ltb (@get K) (@aswap K) (fun l => l) (fun k => k)
              (fun _ _ => tt) SW) with (s := x) (left := left) (right := right)
    as (x' & E & [L P O I] & HS & _); auto.
  - intros s i r H. apply get_Ok. exact H.
  - intros s i j Hi Hj. exists (swapped s i j). split; [apply aswap_Ok; auto|]. auto.
  - exists x'. rewrite map_id in HS. auto.
Qed.


Lemma map_fst_combine {A B} (l : list A) (m : list B) :
  length l = length m -> map fst (combine l m) = l.
Proof. revert m; induction l; destruct m; simpl; intros; try lia; auto. f_equal; auto. Qed.
Lemma map_snd_combine {A B} (l : list A) (m : list B) :
  length l = length m -> map snd (combine l m) = m.
Proof. revert m; induction l; destruct m; simpl; intros; try lia; auto. f_equal; auto. Qed.

Lemma same_outside_map {A B} (f : A -> B) l l' lo hi :
  same_outside l l' lo hi -> same_outside (map f l) (map f l') lo hi.
Proof. intros H k Hk. rewrite !map_nth_error'. now rewrite (H k Hk). Qed.


Theorem quicksort2_correct {K P} (ltb : K -> K -> bool) (SW : strict_weak ltb)
  (x : list K) (ix : list P) left right :
  left <= right -> right < length x -> length ix = length x ->
  exists x' ix', quicksort2 ltb x ix left right = Ok (x', ix')
    /\ length x' = length x /\ length ix' = length x
    /\ Permutation (combine x ix) (combine x' ix')
    /\ sorted_range ltb x' left right
    /\ same_outside x x' left right /\ same_outside ix ix' left right.
Proof.
  intros Hlr Hr Hlen.
  destruct (@qsort_ok K (list K * list P) (K * P) (nat * nat * option K * option P) ltb
              (fun s i => get (fst s) i) swap2 (fun s => combine (fst s) (snd s)) fst
              (fun s k => (length (fst s), length (snd s), nth_error (fst s) k, nth_error (snd s) k)) SW)
    with (s := (x, ix)) (left := left) (right := right)
    as ([x' ix'] & E & [L Pm O I] & HS & HO); auto.
  - intros [a b] i [k q] H. simpl in *. rewrite nth_error_combine in H.
    destruct (nth_error a i) eqn:Ea; [|discriminate].
    destruct (nth_error b i) eqn:Eb; [|discriminate]. inversion H; subst. now apply get_Ok.
  - intros [a b] i j Hi Hj. simpl in *. rewrite combine_length in Hi, Hj.
    exists (swapped a i j, swapped b i j). unfold swap2. simpl.
    rewrite aswap_Ok by lia. simpl. rewrite aswap_Ok by lia. simpl.
    split; auto. split; [apply combine_swapped; lia|].
    intros k H1 H2. rewrite !swapped_length, !swapped_nth by lia.
    apply Nat.eqb_neq in H1, H2. now rewrite H1, H2.
  - simpl. rewrite combine_length. lia.
  - simpl in *. exists x', ix'.
    assert (Hl : length x' = length x /\ length ix' = length ix).
    { specialize (HO (right + 1)). assert (H : right < right + 1) by lia.
      specialize (HO (or_intror H)). inversion HO. auto. }
    destruct Hl as [Hl1 Hl2].
    split; [exact E|]. split; [lia|]. split; [lia|]. split; [exact Pm|].
    rewrite map_fst_combine in HS by lia. split; [exact HS|].
    split; intros k Hk; specialize (HO k Hk); congruence.
Qed.

Theorem quicksort4_correct {K P Q V} (ltb : K -> K -> bool) (SW : strict_weak ltb)
  (x : list K) (y1 : list P) (y2 : list Q) (ix : list V) left right :
  left <= right -> right < length x ->
  length y1 = length x -> length y2 = length x -> length ix = length x ->
  exists x' y1' y2' ix', quicksort4 ltb x y1 y2 ix left right = Ok (x', y1', y2', ix')
    /\ length x' = length x /\ length y1' = length x /\ length y2' = length x /\ length ix' = length x
    /\ Permutation (combine x (combine y1 (combine y2 ix))) (combine x' (combine y1' (combine y2' ix')))
    /\ sorted_range ltb x' left right
    /\ same_outside x x' left right /\ same_outside y1 y1' left right
    /\ same_outside y2 y2' left right /\ same_outside ix ix' left right.
Proof.
  intros Hlr Hr H1 H2 H3.
  destruct (@qsort_ok K (list K * list P * list Q * list V) (K * (P * (Q * V)))
              (nat * nat * nat * nat * option K * option P * option Q * option V) ltb
              (fun s i => get (fst (fst (fst s))) i) swap4
              (fun s => let '(a, b, c, d) := s in combine a (combine b (combine c d))) fst
              (fun s k => let '(a, b, c, d) := s in
                 (length a, length b, length c, length d,
                  nth_error a k, nth_error b k, nth_error c k, nth_error d k)) SW)
    with (s := (x, y1, y2, ix)) (left := left) (right := right)
    as ([[[x' y1'] y2'] ix'] & E & [L Pm O I] & HS & HO); auto.
  - intros [[[a b] c] d] i [k q] H. simpl in *. rewrite !nth_error_combine in H.
    destruct (nth_error a i) eqn:Ea; [|discriminate]. apply get_Ok.
    destruct (nth_error b i); [|discriminate]. destruct (nth_error c i); [|discriminate].
    destruct (nth_error d i); [|discriminate]. congruence.
  - intros [[[a b] c] d] i j Hi Hj. rewrite !combine_length in Hi, Hj.
    exists (swapped a i j, swapped b i j, swapped c i j, swapped d i j). unfold swap4.
    do 4 (rewrite aswap_Ok by lia; cbn [bind]).
    split; auto. split.
    + rewrite !combine_swapped; rewrite ?combine_length; try lia; auto.
    + intros k Hk1 Hk2. rewrite !swapped_length, !swapped_nth by lia.
      apply Nat.eqb_neq in Hk1, Hk2. now rewrite Hk1, Hk2.
  - rewrite !combine_length. lia.
  - exists x', y1', y2', ix'.
    assert (Hl : length x' = length x /\ length y1' = length y1 /\ length y2' = length y2 /\ length ix' = length ix).
    { specialize (HO (right + 1)). assert (H : right < right + 1) by lia.
      specialize (HO (or_intror H)). inversion HO. auto. }
    destruct Hl as (Hl1 & Hl2 & Hl3 & Hl4).
    rewrite map_fst_combine in HS by (rewrite !combine_length; lia).
    repeat (split; [first [exact E | exact Pm | exact HS | lia | idtac]|]); try exact HS;
      intros k Hk; specialize (HO k Hk); congruence.
Qed.

(* ------------------------------------------------------------------ *)
(** ** add_entry *)

(** The first [bnum] cells of the block are [es]; the block has [bcap] cells. *)
Definition holds {A} (b : buffer A) (es : list A) : Prop :=
  bnum b = length es /\ length (bcells b) = bcap b /\ bnum b < bcap b /\
  forall k, k < length es -> nth_error (bcells b) k = Some (nth_error es k).

Lemma copy_prefix_ok {A} n (src dst : list (option A)) :
  n <= length src -> n <= length dst ->
  exists d, copy_prefix n src dst = Ok d /\ length d = length dst /\
    (forall k, k < n -> nth_error d k = nth_error src k) /\
    (forall k, n <= k -> nth_error d k = nth_error dst k).
Proof.
  intros Hs Hd. unfold copy_prefix.
  destruct (@for_res_inv (list (option A))
    (fun i d => length d = length dst /\ (forall k, k < i -> nth_error d k = nth_error src k)
                /\ (forall k, i <= k -> nth_error d k = nth_error dst k))
    n 0 (fun i d => v <- get src i ;; set d i v) dst) as (d & E & H).
  - split; auto. split; [lia|auto].
  - intros k st Hk (H1 & H2 & H3).
    destruct (nth_error_lt src (i:=k)) as [v Hv]; [lia|].
    unfold get. rewrite Hv. cbn [bind]. rewrite set_Ok by lia.
    eexists. split; [reflexivity|]. rewrite upd_length. split; auto. split.
    + intros q Hq. destruct (Nat.eq_dec q k) as [->|Hne].
      * rewrite upd_nth_same by lia. auto.
      * rewrite upd_nth_other by lia. apply H2. lia.
    + intros q Hq. rewrite upd_nth_other by lia. apply H3. lia.
  - exists d. simpl in H. tauto.
Qed.

Lemma add_entry_ok {A} (b : buffer A) es e :
  holds b es -> exists b', add_entry e b = Ok b' /\ holds b' (es ++ [e])
    /\ bcap b' = (if length es + 1 =? bcap b then 2 * bcap b else bcap b).
Proof.
  intros (Hn & Hl & Hc & Hk). unfold add_entry. rewrite set_Ok by lia. cbn [bind].
  assert (Hk' : forall k, k < length es + 1 ->
     nth_error (upd (bcells b) (bnum b) (Some e)) k = Some (nth_error (es ++ [e]) k)).
  { intros k Hlt. destruct (Nat.eq_dec k (bnum b)) as [->|Hne].
    - rewrite upd_nth_same by lia. rewrite nth_error_app2 by lia.
      replace (bnum b - length es) with 0 by lia. reflexivity.
    - rewrite upd_nth_other by lia. rewrite Hk by lia. rewrite nth_error_app1 by lia. reflexivity. }
  rewrite Hn in *.
  destruct (length es + 1 =? bcap b) eqn:E.
  - destruct (@copy_prefix_ok A (length es + 1) (upd (bcells b) (length es) (Some e)) (repeat None (bcap b * 2)))
      as (d & Ed & Hd1 & Hd2 & Hd3); rewrite ?upd_length, ?repeat_length; try lia.
    rewrite Ed. cbn [bind]. eexists. split; [reflexivity|].
    rewrite repeat_length in Hd1.
    split; [|simpl; lia]. unfold holds; simpl. rewrite app_length; simpl.
    repeat split; try lia. intros k Hlt. rewrite Hd2 by lia. apply Hk'; lia.
  - eexists. split; [reflexivity|]. split; [|reflexivity].
    unfold holds; simpl. rewrite app_length, upd_length; simpl.
    repeat split; try lia. intros k Hlt. apply Hk'; lia.
Qed.

Lemma add_entries_ok {A} (es0 es : list A) b :
  holds b es0 -> exists b', add_entries es b = Ok b' /\ holds b' (es0 ++ es).
Proof.
  revert es0 b; induction es as [|e t IH]; intros es0 b H; simpl.
  - exists b. rewrite app_nil_r. auto.
  - destruct (add_entry_ok e H) as (b1 & E & H1 & _). rewrite E. simpl.
    destruct (IH _ _ H1) as (b' & E' & H'). exists b'. split; auto.
    now rewrite <- app_assoc in H'.
Qed.

Theorem add_entries_correct {A} (es : list A) c :
  1 <= c ->
  exists b, add_entries es (new_buffer c) = Ok b
    /\ bnum b = length es
    /\ bnum b < bcap b /\ length (bcells b) = bcap b
    /\ firstn (bnum b) (bcells b) = map Some es.
Proof.
  intros Hc. destruct (@add_entries_ok A [] es (new_buffer c)) as (b & E & Hn & Hl & Hlt & Hk).
  { unfold holds, new_buffer; simpl. rewrite repeat_length. repeat split; auto; lia. }
  exists b. simpl in *. repeat (split; [first [exact E | lia]|]).
  apply list_ext; intros k.
  destruct (lt_dec k (length es)) as [H|H].
  - rewrite map_nth_error'. destruct (nth_error_lt es H) as [e He]. rewrite He. simpl.
    rewrite <- He, <- Hk by assumption.
    rewrite Hn. clear - H Hl Hlt Hn. generalize (bcells b) as l. revert H. generalize (length es) as n.
    intros n; revert k. induction n as [|n IH]; intros k Hk l; [lia|].
    destruct l; destruct k; simpl; auto. apply IH; lia.
  - transitivity (@None (option A)); [|symmetry]; apply nth_error_None.
    + rewrite firstn_length. lia.
    + rewrite map_length. lia.
Qed.

Theorem add_entry_zero_capacity {A} (e : A) : add_entry e (new_buffer 0) = UB.
Proof. reflexivity. Qed.

Lemma find_brute_ok n entry ix i :
  i + n <= length ix ->
  exists b, find_brute n entry ix i = Ok b /\
    (b = true <-> exists k, i <= k < i + n /\ nth_error ix k = Some entry).
Proof.
  revert i; induction n as [|n IH]; intros i H; simpl.
  - exists false. split; auto. split; [discriminate|]. intros (k & Hk & _). lia.
  - destruct (nth_error_lt ix (i:=i)) as [v Hv]; [lia|]. unfold get. rewrite Hv. simpl.
    destruct (v =? entry) eqn:E.
    + exists true. split; auto. split; auto. intros _. exists i. split; [lia|]. rewrite Hv. f_equal. lia.
    + destruct (IH (i + 1)) as (b & Eb & Hb); [lia|]. exists b. split; auto. rewrite Hb.
      split; intros (k & Hk & Ek); exists k; (split; [|assumption]); [lia|].
      destruct (Nat.eq_dec k i) as [->|]; [|lia]. rewrite Hv in Ek. inversion Ek. lia.
Qed.
