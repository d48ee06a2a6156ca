(** Proofs about the balanced construction (KdTree.v: adjust, balance, build). *)
From Verif Require Import Base Num MemoryHandler SortSpec MemoryHandlerProofs KdTree KdSpec KdTreeProofs.

Section PartitionExt.
  Context {K St : Type}.
  Variable ltb : K -> K -> bool.
  Variables key1 key2 : St -> nat -> res K.
  Variable swap : St -> nat -> nat -> res St.
  Variable G : St -> Prop.
  Hypothesis Heq : forall s i, G s -> key1 s i = key2 s i.
  Hypothesis Hswap : forall s i j s', G s -> swap s i j = Ok s' -> G s'.

  Lemma scan_up_ext f s p i : G s -> scan_up ltb key1 f s p i = scan_up ltb key2 f s p i.
  Proof.
    intros Hs. revert i; induction f as [|f IH]; intros i; simpl; auto.
    rewrite Heq by auto. destruct (key2 s i); simpl; auto. destruct (ltb _ _); auto.
  Qed.
  Lemma scan_down_ext f s p i : G s -> scan_down ltb key1 f s p i = scan_down ltb key2 f s p i.
  Proof.
    intros Hs. revert i; induction f as [|f IH]; intros i; simpl; auto.
    rewrite Heq by auto. destruct (key2 s i); simpl; auto. destruct (ltb _ _); auto.
    destruct (i =? 0); auto.
  Qed.
  Lemma partition_ext f b s p i j : G s ->
    partition ltb key1 swap f b s p i j = partition ltb key2 swap f b s p i j.
  Proof.
    revert s i j; induction f as [|f IH]; intros s i j Hs; simpl; auto.
    destruct (i <=? j); auto.
    rewrite scan_up_ext by auto. destruct (scan_up _ _ _ _ _ _); simpl; auto.
    rewrite scan_down_ext by auto. destruct (scan_down _ _ _ _ _ _); simpl; auto.
    destruct (_ <=? _); auto. destruct (swap _ _ _) eqn:E; simpl; auto.
    apply IH. eapply Hswap; eauto.
  Qed.
End PartitionExt.

Section Build.
  Context {F : Type}.
  Variable ltb : F -> F -> bool.
  Hypothesis SW : strict_weak ltb.
  Variable P : nat -> nat -> F.
  Variable nd : nat.
  Hypothesis nd_pos : 0 < nd.
  Variable crd : nat -> nat -> res F.
  Variable n : nat.
  Hypothesis crd_ok : forall i d, i < n -> d < nd -> crd i d = Ok (P i d).

  Definition allb (a : list nat) := forall x, In x a -> x < n.

  Lemma rearr_allb a a' lo hi : rearr a a' lo hi -> allb a -> allb a'.
  Proof. intros H Ha x Hx. apply Ha. eapply Permutation_in; [symmetry; apply H|exact Hx]. Qed.

  Lemma aswap_allb a i j a' : allb a -> aswap a i j = Ok a' -> allb a'.
  Proof.
    intros Ha E. unfold aswap in E.
    destruct (get a i) as [x| |] eqn:Ei; try discriminate.
    destruct (get a j) as [y| |] eqn:Ej; try discriminate. simpl in E.
    assert (i < length a) by (apply get_Ok in Ei; eapply nth_error_Some_lt; eauto).
    assert (j < length a) by (apply get_Ok in Ej; eapply nth_error_Some_lt; eauto).
    rewrite set_Ok in E by auto. simpl in E. rewrite set_Ok in E by (rewrite upd_length; auto).
    inversion E; subst. intros z Hz. apply Ha.
    apply get_Ok in Ei. apply get_Ok in Ej.
    assert (Es : swapped a i j = upd (upd a i y) j x) by (unfold swapped; rewrite Ei, Ej; auto).
    rewrite <- Es in Hz. eapply Permutation_in; [symmetry; apply swapped_perm|exact Hz].
  Qed.

  (** The point at position t of [a] is in its place in [left..right] for key dim. *)
  Definition selected (a : list nat) (t left right dim : nat) : Prop :=
    forall k x y, left <= k <= right -> nth_error a k = Some x -> nth_error a t = Some y ->
      (k <= t -> ltb (P y dim) (P x dim) = false) /\ (t <= k -> ltb (P x dim) (P y dim) = false).

  Lemma adjust_ok rf fuel a target left right dim :
    left <= target <= right -> right < length a -> allb a -> dim < nd -> right - left < fuel ->
    exists a', adjust ltb crd rf fuel a target left right dim = Ok a'
      /\ rearr a a' left right /\ selected a' target left right dim.
  Proof.
    revert a left right; induction fuel as [|f IH]; intros a left right Ht Hlen Ha Hd Hf; [lia|].
    cbn [adjust].
    set (m := (left + right) / 2).
    assert (Hm : left <= m <= right).
    { unfold m. split; [apply Nat.div_le_lower_bound|apply Nat.div_le_upper_bound]; lia. }
    destruct (nth_error_lt a (i:=m)) as [rm Hrm]; [lia|].
    assert (Hrmn : rm < n) by (apply Ha; eapply nth_error_In; eauto).
    unfold node_key at 1. rewrite (get_some Hrm). cbn [bind]. rewrite crd_ok by auto. cbn [bind].
    set (p := P rm dim).
    set (key2 := fun (a : list nat) i => x <- get a i ;; Ok (P x dim)).
    rewrite (@partition_ext F (list nat) ltb (node_key crd dim) key2 (@aswap nat) allb).
    2:{ intros s i Hs. unfold node_key, key2. destruct (get s i) as [x| |] eqn:E; simpl; auto.
        apply get_Ok in E. apply crd_ok; auto. apply Hs. eapply nth_error_In; eauto. }
    2:{ intros s i j s' Hs E. eapply aswap_allb; eauto. }
    2:{ exact Ha. }
    destruct (@partition_ok F (list nat) nat unit ltb key2 (@aswap nat) (fun l => l)
                (fun x => P x dim) (fun _ _ => tt) SW) with
      (fuel := right + 2) (bound := right + 2) (s0 := a) (s := a) (p := p)
      (left := left) (right := right) (i := left) (j := right)
      as (a1 & i & j & Ep & Hij & HI & _); auto; try lia.
    { intros s i r Hr. unfold key2. rewrite (get_some Hr). reflexivity. }
    { intros s i j Hi Hj. exists (swapped s i j). split; [apply aswap_Ok; auto|]. auto. }
    { split; auto using rearr_refl; try lia.
      left. split; auto. split; auto. exists m. split; [lia|].
      split; intros r Hr; assert (r = rm) as -> by congruence; apply (sw_irrefl SW). }
    rewrite Ep. cbn [bind]. clear Ep.
    destruct HI as [Hre Hi Hj Hlo Hhi Hw].
    assert (Hl1 : length a1 = length a) by apply Hre.
    assert (Ha1 : allb a1) by (eapply rearr_allb; eauto).
    assert (Hprog : left < i /\ (j < right \/ j = 0)).
    { destruct Hw as [(-> & -> & _)|(Hp1 & Hp2 & _)]; lia. }
    assert (Hlo' : forall k x, left <= k < i -> nth_error a1 k = Some x -> ltb p (P x dim) = false)
      by (intros k x Hk Hx; exact (Hlo k Hk x Hx)).
    assert (Hhi' : forall k x, j < k <= right -> nth_error a1 k = Some x -> ltb (P x dim) p = false)
      by (intros k x Hk Hx; exact (Hhi k Hk x Hx)).
    set (gl := (0 <? j) && (left <? j) && (left <=? target) && (target <=? j)).
    set (gr := (i <? right) && (i <=? target) && (target <=? right)).
    assert (Hexcl : gl = true -> gr = true -> False) by (unfold gl, gr; lia).
    (* the result when only the left part is adjusted, the right one, or none *)
    assert (HL : gl = true -> exists a', adjust ltb crd rf f a1 target left j dim = Ok a'
                  /\ rearr a a' left right /\ selected a' target left right dim).
    { intros Hg. destruct (IH a1 left j) as (a' & E & Hr & Hsel); auto; try (unfold gl in Hg; lia).
      exists a'. split; [exact E|]. split.
      - eapply rearr_trans; [exact Hre|]. eapply rearr_widen; [| |exact Hr]; lia.
      - intros k x y Hk Hx Hy. destruct (le_lt_dec k j) as [Hkj|Hkj].
        + apply Hsel; auto. lia.
        + split; [unfold gl in Hg; lia|]. intros _.
          rewrite (ra_out Hr) in Hx by lia.
          destruct (ra_in Hr (k:=target)) as (k' & Hk' & Ek'); [unfold gl in Hg; lia|].
          rewrite Ek' in Hy.
          eapply (sw_ntrans SW) with (y := p).
          * apply (Hlo' k' y); [lia|auto].
          * apply (Hhi' k x); [lia|auto]. }
    assert (HR : gr = true -> exists a', adjust ltb crd rf f a1 target i right dim = Ok a'
                  /\ rearr a a' left right /\ selected a' target left right dim).
    { intros Hg. destruct (IH a1 i right) as (a' & E & Hr & Hsel); auto; try (unfold gr in Hg; lia).
      exists a'. split; [exact E|]. split.
      - eapply rearr_trans; [exact Hre|]. eapply rearr_widen; [| |exact Hr]; lia.
      - intros k x y Hk Hx Hy. destruct (le_lt_dec i k) as [Hki|Hki].
        + apply Hsel; auto. lia.
        + split; [|unfold gr in Hg; lia]. intros _.
          rewrite (ra_out Hr) in Hx by lia.
          destruct (ra_in Hr (k:=target)) as (k' & Hk' & Ek'); [unfold gr in Hg; lia|].
          rewrite Ek' in Hy.
          eapply (sw_ntrans SW) with (y := p).
          * apply (Hlo' k x); [lia|auto].
          * apply (Hhi' k' y); [lia|auto]. }
    assert (HN : gl = false -> gr = false -> selected a1 target left right dim).
    { intros G1 G2 k x y Hk Hx Hy.
      assert (HC : (target = left /\ target = j) \/ (target = right /\ target = i) \/ (j < target < i))
        by (unfold gl in G1; unfold gr in G2; lia).
      split; intros Hkt.
      - destruct (Nat.eq_dec k target) as [->|Hne].
        { assert (x = y) as -> by congruence. apply (sw_irrefl SW). }
        apply (sw_ntrans SW) with (y := p).
        + apply (Hlo' k x); [lia|auto].
        + apply (Hhi' target y); [lia|auto].
      - destruct (Nat.eq_dec k target) as [->|Hne].
        { assert (x = y) as -> by congruence. apply (sw_irrefl SW). }
        apply (sw_ntrans SW) with (y := p).
        + apply (Hlo' target y); [lia|auto].
        + apply (Hhi' k x); [lia|auto]. }
    fold gl gr.
    destruct gl eqn:Egl, gr eqn:Egr; try (exfalso; apply Hexcl; reflexivity).
    - destruct (HL eq_refl) as (a' & E & H1 & H2). exists a'. destruct rf; cbn [bind]; rewrite E; auto.
    - destruct (HR eq_refl) as (a' & E & H1 & H2). exists a'. destruct rf; cbn [bind]; rewrite E; auto.
    - exists a1. destruct rf; cbn [bind]; auto.
  Qed.

  Definition inserts (ins : list nat) (k : nat) (t : tree) : tree :=
    fold_left (fun t p => insert ltb P nd p k t) ins t.

  (** Insertion order of a balanced construction. *)
  Inductive medians : nat -> list nat -> Prop :=
  | med_nil k : medians k []
  | med_node k p A B C :
      medians (S k) A -> medians (S k) B ->
      (C = A ++ B \/ C = B ++ A) ->
      (forall x, In x A -> ltb (P p (k mod nd)) (P x (k mod nd)) = false) ->
      (forall x, In x B -> ltb (P x (k mod nd)) (P p (k mod nd)) = false) ->
      length A <= (1 + length A + length B) / 2 ->
      length B <= (1 + length A + length B) / 2 ->
      medians k (p :: C).

  Lemma med_one k p : medians k [p].
  Proof.
    apply med_node with (A := []) (B := []); auto using med_nil; simpl; try lia; try (intros ? []).
  Qed.

  (** The construction state holds the tree [t]. *)
  Definition bst_ok (s : bstate) (t : tree) : Prop :=
    partial ltb P nd n (fst (b_lk s)) (snd (b_lk s)) t
    /\ allb (b_arr s) /\ length (b_arr s) = n /\ NoDup (b_arr s)
    /\ (match b_org s with None => t = Leaf | Some o => exists l r, t = Node o l r end)
    /\ Nat.max 1 (b_h s) = Nat.max 1 (height t).

  Lemma b_insert_ok s t pos p :
    bst_ok s t -> nth_error (b_arr s) pos = Some p -> ~ In p (elements t) ->
    exists s', b_insert ltb crd nd n pos s = Ok s' /\ bst_ok s' (insert ltb P nd p 0 t)
      /\ b_arr s' = b_arr s /\ b_org s' <> None
      /\ (b_org s <> None -> b_insert_nonroot ltb crd nd n pos s = Ok s').
  Proof.
    intros (Hp & Ha & Hlen & Hnd & Ho & Hh) Hpos Hin.
    assert (Hpn : p < n) by (apply Ha; eapply nth_error_In; eauto).
    unfold b_insert, b_insert_nonroot. rewrite (get_some Hpos). cbn [bind].
    destruct s as [[lf rt] org h arr]; cbn [b_lk b_org b_h b_arr fst snd] in *.
    destruct org as [o|].
    - destruct Ho as (l & r & ->).
      destruct (@kd_add_point_ok F ltb P nd nd_pos crd n crd_ok lf rt p o l r h) as (lf' & rt' & E & Hp'); auto.
      rewrite E. cbn [bind]. eexists. split; [reflexivity|].
      split; [|split; [auto|split; [discriminate|auto]]].
      unfold bst_ok. cbn [b_lk b_org b_h b_arr fst snd].
      split; [exact Hp'|]. split; [auto|]. split; [auto|]. split; [auto|]. split.
      + cbn [insert]. destruct (ltb _ _); eauto.
      + rewrite insert_height by lia. lia.
    - subst t. eexists. split; [reflexivity|].
      split; [|split; [auto|split; [discriminate|congruence]]].
      unfold bst_ok. cbn [b_lk b_org b_h b_arr fst snd]. split; [|split; [auto|split; [auto|split; [auto|split; [cbn [insert]; eauto|]]]]].
      + destruct Hp as [L1 L2 R N I S O]. destruct (S p Hpn (fun H => H)) as [S1 S2].
        split; [exact L1|exact L2| | | | |]; simpl.
        * auto.
        * constructor; [intros []|constructor].
        * intros x [<-|[]]; auto.
        * intros x Hx Hnx. apply S; auto.
        * repeat split; intros j [].
      + cbn [height insert] in *. lia.
  Qed.

  Lemma inserts_app A B k t : inserts (A ++ B) k t = inserts B k (inserts A k t).
  Proof. apply fold_left_app. Qed.

  Lemma inserts_elements ins k t : Permutation (elements (inserts ins k t)) (ins ++ elements t).
  Proof.
    revert t; induction ins as [|p ins IH]; intros t; simpl; auto.
    unfold inserts in *. simpl. rewrite IH. rewrite insert_elements.
    symmetry. apply Permutation_middle.
  Qed.
  Lemma inserts_in ins k t x : In x (elements (inserts ins k t)) <-> In x ins \/ In x (elements t).
  Proof.
    rewrite <- in_app_iff. split; apply Permutation_in; [|symmetry]; apply inserts_elements.
  Qed.

  Definition slice_is (ins : list nat) (a : list nat) (left right : nat) : Prop :=
    (forall x, In x ins <-> exists q, left <= q <= right /\ nth_error a q = Some x)
    /\ length ins = right + 1 - left.

  Definition fresh (s : bstate) (t : tree) (left right : nat) : Prop :=
    forall q x, left <= q <= right -> nth_error (b_arr s) q = Some x -> ~ In x (elements t).

  Lemma nodup_nth (a : list nat) i j x : NoDup a -> nth_error a i = Some x -> nth_error a j = Some x -> i = j.
  Proof.
    intros H Hi Hj. eapply (proj1 (NoDup_nth_error a)); eauto.
    - eapply nth_error_Some_lt; eauto.
    - congruence.
  Qed.

  Lemma balance_ok rf fuel s t target left right k :
    bst_ok s t -> fresh s t left right ->
    left <= target <= right -> right < n -> right - left < fuel ->
    target - left <= (1 + (right - left)) / 2 -> right - target <= (1 + (right - left)) / 2 ->
    exists s' ins, balance ltb crd nd rf n fuel s target left right (k mod nd) = Ok s'
      /\ bst_ok s' (inserts ins 0 t)
      /\ rearr (b_arr s) (b_arr s') left right
      /\ slice_is ins (b_arr s') left right
      /\ medians k ins /\ b_org s' <> None.
  Proof.
    revert s t target left right k.
    induction fuel as [|f IH]; intros s t target left right k Hs Hfr Ht Hrn Hf Hb1 Hb2; [lia|].
    cbn [balance].
    pose proof Hs as (Hp & Ha & Hlen & Hnda & Ho & Hh).
    destruct (@adjust_ok rf (S (right - left)) (b_arr s) target left right (k mod nd))
      as (a1 & E1 & Hre & Hsel); auto; try lia.
    rewrite E1. cbn [bind].
    assert (Hl1 : length a1 = n) by (rewrite (ra_len Hre); auto).
    assert (Ha1 : allb a1) by (eapply rearr_allb; eauto).
    assert (Hnd1 : NoDup a1) by (eapply Permutation_NoDup; [apply Hre|auto]).
    set (s0 := BS (b_lk s) (b_org s) (b_h s) a1).
    assert (Hs0 : bst_ok s0 t).
    { exact (conj Hp (conj Ha1 (conj Hl1 (conj Hnd1 (conj Ho Hh))))). }
    assert (Hfr0 : fresh s0 t left right).
    { intros q x Hq Hx. simpl in Hx. destruct (ra_in Hre (k:=q)) as (q' & Hq' & Eq'); [lia|].
      rewrite Eq' in Hx. apply (Hfr q' x); auto. }
    destruct (nth_error_lt a1 (i:=target)) as [p Hpt]; [lia|].
    destruct (@b_insert_ok s0 t target p) as (s1 & E2 & Hs1 & Ha1' & Ho1 & _); auto.
    { apply (Hfr0 target); auto. }
    rewrite E2. cbn [bind]. simpl in Ha1'.
    set (t1 := insert ltb P nd p 0 t) in *.
    rewrite next_dim_mod by assumption.
    (* left part, from any later state *)
    assert (HLEFT : forall s t, bst_ok s t -> fresh s t left (target - 1) \/ target = left ->
        b_org s <> None -> 
        exists s' ins, (if left + 1 <? target
              then balance ltb crd nd rf n f s ((left + target - 1) / 2) left (target - 1) (S k mod nd)
              else if left <? target then b_insert_nonroot ltb crd nd n left s else Ok s) = Ok s'
          /\ bst_ok s' (inserts ins 0 t) /\ b_org s' <> None
          /\ medians (S k) ins
          /\ ((left < target /\ rearr (b_arr s) (b_arr s') left (target - 1)
                /\ slice_is ins (b_arr s') left (target - 1))
              \/ (left = target /\ ins = [] /\ b_arr s' = b_arr s))).
    { clear s t Hs Hfr Hp Ha Hlen Hnda Ho Hh E1 Hre s0 Hs0 Hfr0 E2 t1 Hs1.
      intros s t Hs Hfr Hno. destruct (left + 1 <? target) eqn:El.
      - destruct Hfr as [Hfr|]; [|lia].
        assert (Hmid : left <= (left + target - 1) / 2 <= target - 1).
        { split; [apply Nat.div_le_lower_bound|apply Nat.div_le_upper_bound]; lia. }
        destruct (IH s t ((left + target - 1) / 2) left (target - 1) (S k))
          as (s' & ins & E & H1 & H2 & H3 & H4 & H5); auto; try lia.
        exists s', ins. split; [exact E|]. split; auto. split; auto. split; auto. left. split; [lia|auto].
      - destruct (left <? target) eqn:El2.
        + destruct Hfr as [Hfr|]; [|lia].
          pose proof Hs as (_ & _ & Hlen & _ & _).
          destruct (nth_error_lt (b_arr s) (i:=left)) as [q Hq]; [lia|].
          destruct (@b_insert_ok s t left q) as (s' & _ & H2 & H3 & H4 & H5); auto.
          { apply (Hfr left); auto. lia. }
          exists s', [q]. split; [auto|]. split; [exact H2|]. split; [auto|]. split; [apply med_one|].
          left. split; [lia|]. rewrite H3. replace (target - 1) with left by lia.
          split; [apply rearr_refl|]. split; [|simpl; lia].
          intros x. simpl. split.
          * intros [<-|[]]. exists left. split; [lia|auto].
          * intros (q' & Hq' & E'). left. assert (q' = left) as -> by lia. congruence.
        + exists s, []. split; [auto|]. split; [exact Hs|]. split; [auto|]. split; [constructor|].
          right. split; [lia|auto]. }
    assert (HRIGHT : forall s t, bst_ok s t -> fresh s t (target + 1) right ->
        b_org s <> None ->
        exists s' ins, (if target + 1 <? right
              then balance ltb crd nd rf n f s ((target + 1 + right) / 2) (target + 1) right (S k mod nd)
              else if target <? right then b_insert_nonroot ltb crd nd n right s else Ok s) = Ok s'
          /\ bst_ok s' (inserts ins 0 t) /\ b_org s' <> None
          /\ medians (S k) ins
          /\ ((target < right /\ rearr (b_arr s) (b_arr s') (target + 1) right
                /\ slice_is ins (b_arr s') (target + 1) right)
              \/ (target = right /\ ins = [] /\ b_arr s' = b_arr s))).
    { clear s t Hs Hfr Hp Ha Hlen Hnda Ho Hh E1 Hre s0 Hs0 Hfr0 E2 t1 Hs1 HLEFT.
      intros s t Hs Hfr Hno. destruct (target + 1 <? right) eqn:El.
      - assert (Hmid : target + 1 <= (target + 1 + right) / 2 <= right).
        { split; [apply Nat.div_le_lower_bound|apply Nat.div_le_upper_bound]; lia. }
        destruct (IH s t ((target + 1 + right) / 2) (target + 1) right (S k))
          as (s' & ins & E & H1 & H2 & H3 & H4 & H5); auto; try lia.
        exists s', ins. split; [exact E|]. split; auto. split; auto. split; auto. left. split; [lia|auto].
      - destruct (target <? right) eqn:El2.
        + pose proof Hs as (_ & _ & Hlen & _ & _).
          destruct (nth_error_lt (b_arr s) (i:=right)) as [q Hq]; [lia|].
          destruct (@b_insert_ok s t right q) as (s' & _ & H2 & H3 & H4 & H5); auto.
          { apply (Hfr right); auto. lia. }
          exists s', [q]. split; [auto|]. split; [exact H2|]. split; [auto|]. split; [apply med_one|].
          left. split; [lia|]. rewrite H3. replace (target + 1) with right by lia.
          split; [apply rearr_refl|]. split; [|simpl; lia].
          intros x. simpl. split.
          * intros [<-|[]]. exists right. split; [lia|auto].
          * intros (q' & Hq' & E'). left. assert (q' = right) as -> by lia. congruence.
        + exists s, []. split; [auto|]. split; [exact Hs|]. split; [auto|]. split; [constructor|].
          right. split; [lia|auto]. }
    assert (Ht1in : forall x, In x (elements t1) -> x = p \/ In x (elements t)).
    { intros x Hx. unfold t1 in Hx. eapply insert_in; exact Hx. }
    (* both parts, in either order *)
    assert (HBOTH : exists s3 A B C, 
       (if rf then
          s2 <- (if target + 1 <? right
              then balance ltb crd nd rf n f s1 ((target + 1 + right) / 2) (target + 1) right (S k mod nd)
              else if target <? right then b_insert_nonroot ltb crd nd n right s1 else Ok s1) ;;
          (if left + 1 <? target
              then balance ltb crd nd rf n f s2 ((left + target - 1) / 2) left (target - 1) (S k mod nd)
              else if left <? target then b_insert_nonroot ltb crd nd n left s2 else Ok s2)
        else
          s2 <- (if left + 1 <? target
              then balance ltb crd nd rf n f s1 ((left + target - 1) / 2) left (target - 1) (S k mod nd)
              else if left <? target then b_insert_nonroot ltb crd nd n left s1 else Ok s1) ;;
          (if target + 1 <? right
              then balance ltb crd nd rf n f s2 ((target + 1 + right) / 2) (target + 1) right (S k mod nd)
              else if target <? right then b_insert_nonroot ltb crd nd n right s2 else Ok s2)) = Ok s3
       /\ bst_ok s3 (inserts C 0 t1) /\ b_org s3 <> None
       /\ medians (S k) A /\ medians (S k) B /\ (C = A ++ B \/ C = B ++ A)
       /\ rearr a1 (b_arr s3) left right /\ nth_error (b_arr s3) target = Some p
       /\ (forall x, In x A <-> exists q, left <= q < target /\ nth_error (b_arr s3) q = Some x)
       /\ (forall x, In x B <-> exists q, target < q <= right /\ nth_error (b_arr s3) q = Some x)
       /\ length A = target - left /\ length B = right - target
       /\ (forall q, q < left \/ right < q \/ q = target -> nth_error (b_arr s3) q = nth_error a1 q)
       /\ (forall q, left <= q < target -> exists q', left <= q' < target /\ nth_error (b_arr s3) q = nth_error a1 q')
       /\ (forall q, target < q <= right -> exists q', target < q' <= right /\ nth_error (b_arr s3) q = nth_error a1 q')).
    { assert (Hf1L : fresh s1 t1 left (target - 1) \/ target = left).
      { destruct (Nat.eq_dec target left); [right; auto|left].
        intros q x Hq Hx Hc. rewrite Ha1' in Hx. destruct (Ht1in x Hc) as [->|Hc'].
        - assert (q = target) by (eapply nodup_nth; eauto). lia.
        - apply (Hfr0 q x); auto. lia. }
      assert (Hf1R : fresh s1 t1 (target + 1) right).
      { intros q x Hq Hx Hc. rewrite Ha1' in Hx. destruct (Ht1in x Hc) as [->|Hc'].
        - assert (q = target) by (eapply nodup_nth; eauto). lia.
        - apply (Hfr0 q x); auto. lia. }
      destruct rf.
      - destruct (HRIGHT s1 t1 Hs1 Hf1R Ho1) as (s2 & B & EB & HsB & HoB & HmB & HB).
        rewrite EB. cbn [bind].
        assert (HreB : rearr a1 (b_arr s2) (target + 1) right).
        { rewrite <- Ha1'. destruct HB as [(_ & HB & _)|(_ & _ & ->)]; auto using rearr_refl. }
        assert (HsB' : forall x, In x B <-> exists q, target < q <= right /\ nth_error (b_arr s2) q = Some x).
        { destruct HB as [(_ & _ & HB & _)|(Hq & -> & _)].
          - intros x. rewrite HB. split; intros (q & H1 & H2); exists q; split; auto; lia.
          - intros x. split; [intros []|]. intros (q & H1 & _). lia. }
        assert (HlB : length B = right - target).
        { destruct HB as [(_ & _ & _ & HB)|(Hq & -> & _)]; simpl; lia. }
        assert (Hf2 : fresh s2 (inserts B 0 t1) left (target - 1) \/ target = left).
        { destruct (Nat.eq_dec target left) as [->|Hne]; [right; auto|left].
          destruct Hf1L as [Hf1L|]; [|lia].
          intros q x Hq Hx Hc. rewrite (ra_out HreB) in Hx by lia.
          apply inserts_in in Hc. destruct Hc as [Hc|Hc].
          - apply HsB' in Hc. destruct Hc as (q' & Hq' & Hx').
            destruct (ra_in HreB (k:=q')) as (q'' & Hq'' & Eq''); [lia|]. rewrite Eq'' in Hx'.
            assert (q = q'') by (eapply nodup_nth; eauto). lia.
          - apply (Hf1L q x); auto. rewrite Ha1'. auto. }
        destruct (HLEFT s2 _ HsB Hf2 HoB) as (s3 & A & EA & HsA & HoA & HmA & HA).
        exists s3, A, B, (B ++ A). split; [exact EA|].
        rewrite inserts_app. split; [exact HsA|]. split; [auto|]. split; [auto|]. split; [auto|]. split; [auto|].
        assert (HreA : left < target -> rearr (b_arr s2) (b_arr s3) left (target - 1)).
        { destruct HA as [(_ & HA & _)|(Hq & _)]; auto. lia. }
        assert (Hout : forall q, q < left \/ target <= q -> nth_error (b_arr s3) q = nth_error (b_arr s2) q).
        { intros q Hq. destruct HA as [(HH & HA & _)|(_ & _ & ->)]; auto. apply (ra_out HA). lia. }
        assert (Hre3 : rearr a1 (b_arr s3) left right).
        { eapply rearr_trans; [eapply rearr_widen; [| |exact HreB]; lia|].
          destruct HA as [(HH & HA & _)|(_ & _ & ->)]; [|apply rearr_refl].
          eapply rearr_widen; [| |exact HA]; lia. }
        repeat match goal with |- _ /\ _ => split end; auto.
        + rewrite Hout by lia. rewrite (ra_out HreB) by lia. auto.
        + destruct HA as [(HH & _ & HA & _)|(Hq & -> & _)].
          * intros x. rewrite HA. split; intros (q & H1 & H2); exists q; split; auto; lia.
          * intros x. split; [intros []|]. intros (q & H1 & _). lia.
        + intros x. rewrite HsB'. split; intros (q & H1 & H2); exists q; split; auto;
            [rewrite Hout by lia|rewrite Hout in H2 by lia]; auto.
        + destruct HA as [(HH & _ & _ & HA)|(Hq & -> & _)]; simpl; lia.
        + intros q Hq. rewrite Hout by lia. apply (ra_out HreB). lia.
        + intros q Hq. destruct HA as [(HH & HA & _)|(Hq' & _)]; [|lia].
          destruct (ra_in HA (k:=q)) as (q' & Hq' & Eq'); [lia|].
          exists q'. split; [lia|]. rewrite Eq'. apply (ra_out HreB). lia.
        + intros q Hq. rewrite Hout by lia.
          destruct (ra_in HreB (k:=q)) as (q' & Hq' & Eq'); [lia|].
          exists q'. split; [lia|]. auto.
      - destruct (HLEFT s1 t1 Hs1 Hf1L Ho1) as (s2 & A & EA & HsA & HoA & HmA & HA).
        rewrite EA. cbn [bind].
        assert (Hout : forall q, q < left \/ target <= q -> nth_error (b_arr s2) q = nth_error a1 q).
        { intros q Hq. rewrite <- Ha1'. destruct HA as [(HH & HA & _)|(_ & _ & ->)]; auto. apply (ra_out HA). lia. }
        assert (HsA' : forall x, In x A <-> exists q, left <= q < target /\ nth_error (b_arr s2) q = Some x).
        { destruct HA as [(HH & _ & HA & _)|(Hq & -> & _)].
          - intros x. rewrite HA. split; intros (q & H1 & H2); exists q; split; auto; lia.
          - intros x. split; [intros []|]. intros (q & H1 & _). lia. }
        assert (HinA : forall q, left <= q < target -> exists q', left <= q' < target /\ nth_error (b_arr s2) q = nth_error a1 q').
        { intros q Hq. destruct HA as [(HH & HA & _)|(Hq' & _)]; [|lia].
          destruct (ra_in HA (k:=q)) as (q' & Hq' & Eq'); [lia|].
          exists q'. split; [lia|]. rewrite Eq', Ha1'. auto. }
        assert (Hf2 : fresh s2 (inserts A 0 t1) (target + 1) right).
        { intros q x Hq Hx Hc. rewrite Hout in Hx by lia.
          apply inserts_in in Hc. destruct Hc as [Hc|Hc].
          - apply HsA' in Hc. destruct Hc as (q' & Hq' & Hx').
            destruct (HinA q' Hq') as (q'' & Hq'' & Eq''). rewrite Eq'' in Hx'.
            assert (q = q'') by (eapply nodup_nth; eauto). lia.
          - apply (Hf1R q x); auto. rewrite Ha1'. auto. }
        destruct (HRIGHT s2 _ HsA Hf2 HoA) as (s3 & B & EB & HsB & HoB & HmB & HB).
        exists s3, A, B, (A ++ B). split; [exact EB|].
        rewrite inserts_app. split; [exact HsB|]. split; [auto|]. split; [auto|]. split; [auto|]. split; [auto|].
        assert (HreB : rearr (b_arr s2) (b_arr s3) (target + 1) right).
        { destruct HB as [(_ & HB & _)|(_ & _ & ->)]; auto using rearr_refl. }
        assert (Hre3 : rearr a1 (b_arr s3) left right).
        { eapply rearr_trans; [|eapply rearr_widen; [| |exact HreB]; lia].
          rewrite <- Ha1'. destruct HA as [(HH & HA & _)|(_ & _ & ->)]; [|apply rearr_refl].
          eapply rearr_widen; [| |exact HA]; lia. }
        repeat match goal with |- _ /\ _ => split end; auto.
        + rewrite (ra_out HreB) by lia. rewrite Hout by lia. auto.
        + intros x. rewrite HsA'. split; intros (q & H1 & H2); exists q; split; auto;
            [rewrite (ra_out HreB) by lia|rewrite (ra_out HreB) in H2 by lia]; auto.
        + destruct HB as [(HH & _ & HB & _)|(Hq & -> & _)].
          * intros x. rewrite HB. split; intros (q & H1 & H2); exists q; split; auto; lia.
          * intros x. split; [intros []|]. intros (q & H1 & _). lia.
        + destruct HA as [(HH & _ & _ & HA)|(Hq & -> & _)]; simpl; lia.
        + destruct HB as [(HH & _ & _ & HB)|(Hq & -> & _)]; simpl; lia.
        + intros q Hq. rewrite (ra_out HreB) by lia. apply Hout. lia.
        + intros q Hq. rewrite (ra_out HreB) by lia. apply HinA; auto.
        + intros q Hq. destruct (ra_in HreB (k:=q)) as (q' & Hq' & Eq'); [lia|].
          exists q'. split; [lia|]. rewrite Eq'. apply Hout. lia. }
    destruct HBOTH as (s3 & A & B & C & E3 & Hs3 & Ho3 & HmA & HmB & HC & Hre3 & Hp3 & HA & HB & HlA & HlB & Hout3 & HinA & HinB).
    exists s3, (p :: C). split; [exact E3|].
    assert (HinC : forall x, In x C <-> In x A \/ In x B).
    { intros x. destruct HC as [-> | ->]; rewrite in_app_iff; tauto. }
    assert (HlC : length C = length A + length B).
    { destruct HC as [-> | ->]; rewrite app_length; lia. }
    split; [exact Hs3|]. split; [eapply rearr_trans; eauto|]. split; [|split; [|auto]].
    - split; [|simpl; lia]. intros x. simpl. rewrite HinC, HA, HB. split.
      + intros [<-|[(q & Hq & Ex)|(q & Hq & Ex)]]; [exists target|exists q|exists q]; split; auto; lia.
      + intros (q & Hq & Ex). destruct (lt_eq_lt_dec q target) as [[Hlt| ->]|Hgt].
        * right; left; exists q; split; auto; lia.
        * left; congruence.
        * right; right; exists q; split; auto; lia.
    - apply med_node with (A := A) (B := B); auto; try (rewrite HlA, HlB).
      + intros x Hx. apply HA in Hx. destruct Hx as (q & Hq & Ex).
        destruct (HinA q Hq) as (q' & Hq' & Eq'). rewrite Eq' in Ex.
        apply (Hsel q' x p); auto; lia.
      + intros x Hx. apply HB in Hx. destruct Hx as (q & Hq & Ex).
        destruct (HinB q Hq) as (q' & Hq' & Eq'). rewrite Eq' in Ex.
        apply (Hsel q' x p); auto; lia.
      + replace (1 + (target - left) + (right - target)) with (1 + (right - left)) by lia. auto.
      + replace (1 + (target - left) + (right - target)) with (1 + (right - left)) by lia. auto.
  Qed.

  Lemma inserts_left A k p l r :
    (forall x, In x A -> ltb (P p (k mod nd)) (P x (k mod nd)) = false) ->
    inserts A k (Node p l r) = Node p (inserts A (S k) l) r.
  Proof.
    revert l; induction A as [|a A IH]; intros l H; simpl; auto.
    unfold inserts in *. simpl. rewrite (H a) by (left; auto). apply IH. intros x Hx. apply H. right; auto.
  Qed.
  Lemma inserts_right A k p l r :
    (forall x, In x A -> ltb (P p (k mod nd)) (P x (k mod nd)) = true) ->
    inserts A k (Node p l r) = Node p l (inserts A (S k) r).
  Proof.
    revert r; induction A as [|a A IH]; intros r H; simpl; auto.
    unfold inserts in *. simpl. rewrite (H a) by (left; auto). apply IH. intros x Hx. apply H. right; auto.
  Qed.

  (** No two points share a coordinate. *)
  Definition distinct_coords (S : list nat) : Prop :=
    forall x y d, In x S -> In y S -> x <> y -> d < nd ->
      ltb (P x d) (P y d) = true \/ ltb (P y d) (P x d) = true.

  Lemma log2_half a m : a <= m / 2 -> a <> 0 -> Nat.log2 a + 1 <= Nat.log2 m.
  Proof.
    intros H H0. assert (2 * a <= m) by lia.
    pose proof (Nat.log2_le_mono _ _ H1). rewrite Nat.log2_double in H2 by lia. lia.
  Qed.

  Lemma medians_height k ins :
    medians k ins -> NoDup ins -> distinct_coords ins ->
    height (inserts ins k Leaf) <= match ins with [] => 0 | _ => Nat.log2 (length ins) + 1 end.
  Proof.
    intros H. induction H as [k|k p A B C HA IHA HB IHB HC Hlt Hgt La Lb]; intros Hnd Hd; [simpl; auto|].
    assert (HinC : forall x, In x C <-> In x A \/ In x B).
    { intros x. destruct HC as [-> | ->]; rewrite in_app_iff; tauto. }
    assert (HndA : NoDup A).
    { inversion Hnd as [|? ? _ Hn]; subst. destruct HC as [-> | ->]; apply NoDup_app_inv in Hn; tauto. }
    assert (HndB : NoDup B).
    { inversion Hnd as [|? ? _ Hn]; subst. destruct HC as [-> | ->]; apply NoDup_app_inv in Hn; tauto. }
    assert (Hgt' : forall x, In x B -> ltb (P p (k mod nd)) (P x (k mod nd)) = true).
    { intros x Hx. destruct (Hd x p (k mod nd)) as [Hq|Hq]; auto.
      - right. apply HinC. auto.
      - left; auto.
      - intros ->. inversion Hnd as [|? ? Hni _]; subst. apply Hni, HinC. auto.
      - apply Nat.mod_upper_bound. lia.
      - rewrite (Hgt x Hx) in Hq. discriminate. }
    assert (E : inserts (p :: C) k Leaf = Node p (inserts A (S k) Leaf) (inserts B (S k) Leaf)).
    { change (inserts (p :: C) k Leaf) with (inserts C k (Node p Leaf Leaf)).
      destruct HC as [-> | ->]; rewrite inserts_app.
      - rewrite inserts_left, inserts_right by auto. reflexivity.
      - rewrite inserts_right, inserts_left by auto. reflexivity. }
    assert (HlC : length C = length A + length B).
    { destruct HC as [-> | ->]; rewrite app_length; lia. }
    rewrite E. cbn [height length]. rewrite HlC.
    specialize (IHA HndA). specialize (IHB HndB).
    assert (HdA : distinct_coords A).
    { intros x y d Hx Hy. apply Hd; right; apply HinC; auto. }
    assert (HdB : distinct_coords B).
    { intros x y d Hx Hy. apply Hd; right; apply HinC; auto. }
    specialize (IHA HdA). specialize (IHB HdB).
    assert (EA : height (inserts A (S k) Leaf) <= Nat.log2 (S (length A + length B))).
    { destruct A as [|a0 A']; [lia|]. etransitivity; [exact IHA|].
      apply log2_half; [|simpl; lia]. exact La. }
    assert (EB : height (inserts B (S k) Leaf) <= Nat.log2 (S (length A + length B))).
    { destruct B as [|b0 B']; [lia|]. etransitivity; [exact IHB|].
      apply log2_half; [|simpl; lia]. exact Lb. }
    lia.
  Qed.

  Lemma seq_self m x : x < m -> nth_error (seq 0 m) x = Some x.
  Proof.
    intros H. rewrite (nth_error_nth' (seq 0 m) 0) by (rewrite seq_length; auto).
    rewrite seq_nth; auto.
  Qed.

  Lemma build_ok rf : 0 < n ->
    exists lf rt root h t, build ltb crd nd rf n = Ok ((lf, rt), root, h)
      /\ kd_tree ltb P nd n lf rt root t
      /\ Nat.max 1 h = height t
      /\ (distinct_coords (seq 0 n) -> height t <= Nat.log2 n + 1)
      /\ exists ins, t = inserts ins 0 Leaf /\ length ins = n.
  Proof.
    intros Hn. unfold build. destruct (n =? 0) eqn:E0; [lia|].
    set (s0 := BS (seq 0 n, seq 0 n) None 0 (seq 0 n)).
    assert (Hs0 : bst_ok s0 Leaf).
    { unfold bst_ok, s0. cbn [b_lk b_org b_h b_arr fst snd].
      split; [|split; [|split; [apply seq_length|split; [apply seq_NoDup|split; [auto|reflexivity]]]]].
      - split; simpl; auto using seq_length.
        + constructor.
        + intros x [].
        + intros x Hx _. rewrite seq_self by auto. auto.
      - intros x Hx. apply in_seq in Hx. lia. }
    assert (Hdiv : n / 2 <= n - 1) by lia.
    pose proof (@balance_ok rf (S n) s0 Leaf (n / 2) 0 (n - 1) 0) as HB.
    rewrite Nat.mod_small in HB by lia.
    destruct HB as (s' & ins & E & Hs' & Hre & [Hsl Hlen] & Hmed & Ho); auto; try lia.
    { intros q x _ _ []. }
    fold s0. rewrite E. cbn [bind].
    destruct Hs' as (Hp & Ha & Hl & Hnd & Hroot & Hh).
    destruct (b_org s') as [o|]; [|congruence].
    destruct (b_lk s') as [lf rt]. cbn [fst snd] in Hp.
    assert (Hpe : Permutation (elements (inserts ins 0 Leaf)) ins).
    { rewrite inserts_elements. simpl. rewrite app_nil_r. reflexivity. }
    assert (Hins : forall x, In x ins <-> x < n).
    { intros x. rewrite Hsl. split.
      - intros (q & _ & Hx). apply Ha. eapply nth_error_In; eauto.
      - intros Hx. assert (Hi : In x (b_arr s')).
        { eapply Permutation_in; [apply Hre|]. apply in_seq. lia. }
        apply In_nth_error in Hi. destruct Hi as [q Hq]. exists q. split; auto.
        pose proof (nth_error_Some_lt _ _ Hq). lia. }
    exists lf, rt, o, (b_h s'), (inserts ins 0 Leaf).
    assert (Hndi : NoDup ins) by (eapply Permutation_NoDup; [exact Hpe|apply Hp]).
    split; [reflexivity|]. split; [|split; [|split]].
    - destruct Hp as [L1 L2 R N I S O]. repeat (split; [now auto|]).
      split; [|exact O].
      apply NoDup_Permutation; auto using seq_NoDup.
      intros x. rewrite in_seq. rewrite inserts_in, Hins. simpl. lia.
    - destruct Hroot as (l & r & ER). rewrite ER in *. cbn [height] in *. lia.
    - intros Hd. etransitivity; [apply medians_height; auto|].
      + intros x y d Hx Hy. apply Hd; apply in_seq; rewrite Hins in Hx, Hy; lia.
      + destruct ins as [|i0 ins']; [simpl in Hlen; lia|]. rewrite Hlen.
        replace (n - 1 + 1 - 0) with n by lia. auto.
    - exists ins. split; auto. lia.
  Qed.

  (** Equal coordinates: every point goes to the left of the previous ones. *)
  Lemma inserts_chain ins k t :
    (forall x y d, ltb (P x d) (P y d) = false) -> 
    (forall l r i, t = Node i l r -> r = Leaf) -> 
    (forall k p t, (fix chain t := match t with Leaf => True | Node _ l r => r = Leaf /\ chain l end) t ->
        (fix chain t := match t with Leaf => True | Node _ l r => r = Leaf /\ chain l end) (insert ltb P nd p k t)
        /\ height (insert ltb P nd p k t) = S (height t)) ->
    (fix chain t := match t with Leaf => True | Node _ l r => r = Leaf /\ chain l end) t ->
    height (inserts ins k t) = length ins + height t.
  Proof.
    intros He _ Hi. revert t. induction ins as [|p ins IH]; intros t Hc; simpl; auto.
    destruct (Hi k p t Hc) as [Hc' Hh]. unfold inserts in *. simpl. rewrite IH by auto. lia.
  Qed.
  Lemma insert_chain k p t :
    (forall x y d, ltb (P x d) (P y d) = false) ->
    (fix chain t := match t with Leaf => True | Node _ l r => r = Leaf /\ chain l end) t ->
    (fix chain t := match t with Leaf => True | Node _ l r => r = Leaf /\ chain l end) (insert ltb P nd p k t)
        /\ height (insert ltb P nd p k t) = S (height t).
  Proof.
    intros He. revert k; induction t as [|i l IHl r IHr]; intros k Hc; simpl; auto.
    destruct Hc as [-> Hc]. rewrite He. destruct (IHl (S k) Hc) as [H1 H2].
    split; [split; auto|]. cbn [height]. rewrite H2. lia.
  Qed.

  Lemma build_equal_height rf : 0 < n -> (forall x y d, ltb (P x d) (P y d) = false) ->
    exists lf rt root h t, build ltb crd nd rf n = Ok ((lf, rt), root, h)
      /\ kd_tree ltb P nd n lf rt root t /\ height t = n.
  Proof.
    intros Hn He. destruct (build_ok rf Hn) as (lf & rt & root & h & t & E & K & _ & _ & ins & -> & Hl).
    exists lf, rt, root, h, (inserts ins 0 Leaf). split; auto. split; auto.
    rewrite inserts_chain; auto; simpl; try lia; try discriminate.
    intros k p t Hc. apply insert_chain; auto.
  Qed.
End Build.
