(** Proofs about the kd-tree searches (KdTree.v: nn, nn2, in_sphere, trim). *)
From Verif Require Import Base Num MemoryHandler KdTree SamplingSpec SamplingProofs KdSpec KdTreeProofs.
From Coq Require Import Reals Lra.
Local Open Scope R_scope.

Lemma nodup_app_intro {A} (l1 l2 : list A) :
  NoDup l1 -> NoDup l2 -> (forall y, In y l1 -> In y l2 -> False) -> NoDup (l1 ++ l2).
Proof.
  induction l1 as [|a l1 IH]; simpl; intros H1 H2 H; auto.
  inversion H1; subst. constructor.
  - intros Hi. apply in_app_or in Hi. destruct Hi as [Hi|Hi]; [auto|]. apply (H a); auto.
  - apply IH; auto. intros y Hy. apply H. auto.
Qed.

(** ** Nearest-point answers compose. *)
Section Nearest.
  Variable D : nat -> R.
  Variable e : nat -> Prop.

  Lemma nearest_weaken S a b : nearest D e S a b -> snd b <= snd a.
  Proof. intros [[-> _]|(i & _ & _ & -> & H & _)]; simpl; lra. Qed.

  Lemma nearest_bound S a b : nearest D e S a b -> forall j, In j S -> e j -> snd b <= D j.
  Proof.
    intros [[-> H]|(i & _ & _ & -> & _ & H)] j Hj He; simpl; auto.
  Qed.

  Lemma nearest_app S1 S2 a b c : nearest D e S1 a b -> nearest D e S2 b c -> nearest D e (S1 ++ S2) a c.
  Proof.
    intros H1 H2. pose proof (nearest_bound H1) as B1. pose proof (nearest_weaken H2) as W2.
    destruct H2 as [[-> H2]|(i & Hi & He & -> & Hlt & H2)].
    - destruct H1 as [[-> H1]|(i & Hi & He & -> & Hlt & H1)].
      + left. split; auto. intros j Hj Hej. apply in_app_or in Hj. destruct Hj; auto.
      + right. exists i. split; [apply in_or_app; auto|]. split; auto. split; auto. split; auto.
        intros j Hj Hej. apply in_app_or in Hj. destruct Hj as [Hj|Hj]; auto.
    - right. exists i. split; [apply in_or_app; auto|]. split; auto. split; auto. split.
      + pose proof (nearest_weaken H1). lra.
      + intros j Hj Hej. apply in_app_or in Hj. destruct Hj as [Hj|Hj]; auto.
        specialize (B1 j Hj Hej). simpl in W2. lra.
  Qed.

  Lemma nearest_skip S a : (forall j, In j S -> snd a <= D j) -> nearest D e S a a.
  Proof. intros H. left. split; auto. Qed.

  Lemma nearest_perm S S' a b : (forall x, In x S <-> In x S') -> nearest D e S a b -> nearest D e S' a b.
  Proof.
    intros Hs [[-> H]|(i & Hi & He & -> & Hlt & H)].
    - left. split; auto. intros j Hj. apply H, Hs, Hj.
    - right. exists i. split; [apply Hs; auto|]. split; auto. split; auto. split; auto.
      intros j Hj. apply H, Hs, Hj.
  Qed.
End Nearest.

Lemma rsum_map_nonneg {A} (f : A -> R) l : (forall x, In x l -> 0 <= f x) -> 0 <= rsum (map f l).
Proof.
  induction l as [|a l IH]; intros H; simpl; rewrite ?rsum_nil, ?rsum_cons; [lra|].
  pose proof (H a (or_introl eq_refl)). assert (0 <= rsum (map f l)) by (apply IH; intros; apply H; right; auto). lra.
Qed.
Lemma rsum_map_ge {A} (f : A -> R) l a : (forall x, In x l -> 0 <= f x) -> In a l -> f a <= rsum (map f l).
Proof.
  induction l as [|b l IH]; intros H Ha; [destruct Ha|]. simpl. rewrite rsum_cons.
  pose proof (H b (or_introl eq_refl)).
  destruct Ha as [->|Ha].
  - assert (0 <= rsum (map f l)) by (apply rsum_map_nonneg; intros; apply H; right; auto). lra.
  - assert (f a <= rsum (map f l)) by (apply IH; auto; intros; apply H; right; auto). lra.
Qed.

Lemma sqdist_nonneg nd P x i : 0 <= sqdist nd P x i.
Proof. apply rsum_map_nonneg. intros k _. apply Rle_0_sqr. Qed.
Lemma dist_nonneg nd P x i : 0 <= edist nd P x i.
Proof. apply sqrt_pos. Qed.
Lemma dist_sq nd P x i : edist nd P x i * edist nd P x i = sqdist nd P x i.
Proof. apply sqrt_sqrt, sqdist_nonneg. Qed.

Lemma coord_le_dist nd P x i d : (d < nd)%nat -> Rabs (nth d x 0 - P i d) <= edist nd P x i.
Proof.
  intros Hd. unfold edist. rewrite <- sqrt_Rsqr_abs. apply sqrt_le_1_alt. unfold Rsqr, sqdist.
  apply (rsum_map_ge (fun k => (nth k x 0 - P i k) * (nth k x 0 - P i k))).
  - intros; apply Rle_0_sqr.
  - apply in_seq. lia.
Qed.

Lemma sqdist_lt_dist nd P x i D : 0 <= D -> (sqdist nd P x i < D * D <-> edist nd P x i < D).
Proof.
  intros HD. rewrite <- dist_sq. pose proof (dist_nonneg nd P x i). split; intros; nra.
Qed.

Section Queries.
  Variable P : nat -> nat -> R.
  Variable nd : nat.
  Hypothesis nd_pos : (0 < nd)%nat.
  Variable crd : nat -> nat -> res R.
  Variable n : nat.
  Hypothesis crd_ok : forall i d, (i < n)%nat -> (d < nd)%nat -> crd i d = Ok (P i d).
  Variables lf rt : list nat.
  Let lk : links := (lf, rt).

  Lemma wrap_mod k : wrap nd (k mod nd) = (k mod nd)%nat.
  Proof.
    unfold wrap. pose proof (Nat.mod_upper_bound k nd ltac:(lia)).
    destruct (k mod nd =? nd)%nat eqn:E; auto. apply Nat.eqb_eq in E. lia.
  Qed.
  Lemma wrap_succ k : wrap nd (S (k mod nd)) = (S k mod nd)%nat.
  Proof.
    rewrite <- next_dim_mod by auto. unfold wrap, next_dim. rewrite Nat.add_1_r. reflexivity.
  Qed.
  Lemma modnd k : (k mod nd < nd)%nat.
  Proof. apply Nat.mod_upper_bound. lia. Qed.

  (** The dimension argument of a call at depth k: the first call gets 0, a
      recursive call gets 1 + the dimension above, wrapped on entry. *)
  Definition dim_at (d k : nat) : Prop := wrap nd d = (k mod nd)%nat.
  Lemma dim_at_0 : dim_at 0 0.
  Proof. unfold dim_at. rewrite Nat.mod_small by lia. unfold wrap. destruct nd; simpl; auto; lia. Qed.
  Lemma dim_at_S k : dim_at (S (k mod nd)) (S k).
  Proof. unfold dim_at. apply wrap_succ. Qed.

  Lemma dst_sq_ok x i : (nd <= length x)%nat -> (i < n)%nat -> dst_sq crd nd x i = Ok (sqdist nd P x i).
  Proof.
    intros Hx Hi. unfold dst_sq, sqdist.
    assert (G : forall m k s, (k + m = nd)%nat ->
      dst_sq_from crd x i k m s
      = Ok (s + rsum (map (fun k => (nth k x 0 - P i k) * (nth k x 0 - P i k)) (seq k m)))).
    { induction m as [|m IH]; intros k s Hk; simpl.
      - rewrite rsum_nil. f_equal. lra.
      - destruct (nth_error_lt x (i:=k)) as [a Ha]; [lia|].
        rewrite (get_some Ha). cbn [bind]. rewrite crd_ok by (auto; lia). cbn [bind].
        rewrite IH by lia. f_equal. rewrite rsum_cons.
        rewrite (nth_error_nth x k 0 Ha). lra. }
    rewrite G by lia. f_equal. unfold n0. simpl. lra.
  Qed.

  (** A subtree to be searched. *)
  Record sub (t : tree) (k : nat) : Prop := {
    sb_rep : represents lf rt t;
    sb_nd : NoDup (elements t);
    sb_in : forall j, In j (elements t) -> (j < n)%nat;
    sb_ord : ordered Rltb P nd k t
  }.

  Lemma sub_left i l r k : sub (Node i l r) k -> sub l (S k).
  Proof.
    intros [R N I O]. destruct (nodup_node N) as (_ & _ & N1 & N2 & _).
    destruct R as (_ & _ & R1 & R2), O as (_ & _ & O1 & O2).
    split; auto. intros j Hj. apply I. right. apply in_or_app. auto.
  Qed.
  Lemma sub_right i l r k : sub (Node i l r) k -> sub r (S k).
  Proof.
    intros [R N I O]. destruct (nodup_node N) as (_ & _ & N1 & N2 & _).
    destruct R as (_ & _ & R1 & R2), O as (_ & _ & O1 & O2).
    split; auto. intros j Hj. apply I. right. apply in_or_app. auto.
  Qed.

  (** Points beyond the splitting plane are at least as far as the plane. *)
  Lemma right_far i l r k x D : sub (Node i l r) k ->
    nth (k mod nd) x 0 + D <= P i (k mod nd) ->
    forall j, In j (elements r) -> D <= edist nd P x j.
  Proof.
    intros [_ _ _ (_ & O & _)] H j Hj. specialize (O j Hj). apply Rltb_true in O.
    pose proof (coord_le_dist P x j (modnd k)) as C.
    unfold Rabs in C. destruct (Rcase_abs _) in C; lra.
  Qed.
  Lemma left_far i l r k x D : sub (Node i l r) k ->
    P i (k mod nd) <= nth (k mod nd) x 0 - D ->
    forall j, In j (elements l) -> D <= edist nd P x j.
  Proof.
    intros [_ _ _ (O & _ & _)] H j Hj. specialize (O j Hj). apply Rltb_false in O.
    pose proof (coord_le_dist P x j (modnd k)) as C.
    unfold Rabs in C. destruct (Rcase_abs _) in C; lra.
  Qed.

  Variable x : list R.
  Hypothesis Hx : (nd <= length x)%nat.

  Lemma get_x d : (d < nd)%nat -> get x d = Ok (nth d x 0).
  Proof.
    intros Hd. destruct (nth_error_lt x (i:=d)) as [a Ha]; [lia|].
    rewrite (get_some Ha). now rewrite (nth_error_nth x d 0 Ha).
  Qed.

  Section Elig.
  Variable elig : nat -> res bool.
  Variable e : nat -> bool.
  Hypothesis elig_ok : forall i, (i < n)%nat -> elig i = Ok (e i).
  Let E (i : nat) : Prop := e i = true.
  Let D := edist nd P x.

  Lemma nn_visit_ok i best : (i < n)%nat -> 0 <= snd best ->
    exists b, nn_visit crd nd elig x i best = Ok b /\ nearest D E [i] best b /\ 0 <= snd b.
  Proof.
    intros Hi Hb. unfold nn_visit. rewrite elig_ok by auto. cbn [bind].
    destruct (e i) eqn:Ee.
    - rewrite dst_sq_ok by auto. cbn [bind]. cbn [nltb RNum nmul nsqrt].
      destruct (Rltb _ _) eqn:El.
      + apply Rltb_true in El. apply (proj1 (sqdist_lt_dist nd P x i Hb)) in El.
        exists (i, D i). split; [reflexivity|]. split; [|apply dist_nonneg].
        right. exists i. split; [left; auto|]. split; [exact Ee|]. split; [auto|]. split; [exact El|].
        intros j [<-|[]] _. lra.
      + apply Rltb_false in El. exists best. split; auto. split; auto. left. split; auto.
        intros j [<-|[]] _. apply Rnot_lt_le. intros Hc.
        apply (proj2 (sqdist_lt_dist nd P x i Hb)) in Hc. lra.
    - exists best. split; auto. split; auto. left. split; auto. intros j [<-|[]] Hj. unfold E in Hj. congruence.
  Qed.

  Lemma nn_ok fuel d k i l r best :
    sub (Node i l r) k -> dim_at d k -> (height (Node i l r) <= fuel)%nat -> 0 <= snd best ->
    exists b, nn crd nd lk fuel elig x d i best = Ok b
      /\ nearest D E (elements (Node i l r)) best b /\ 0 <= snd b.
  Proof.
    revert d k i l r best.
    induction fuel as [|f IH]; intros d k i l r best Hs Hd Hf Hb; [cbn [height] in Hf; lia|].
    cbn [nn]. cbn zeta. rewrite Hd.
    pose proof Hs as [(Rl & Rr & _ & _) N I O].
    assert (Hi : (i < n)%nat) by (apply I; left; auto).
    destruct (nodup_node N) as (Nil & Nir & _).
    destruct (nn_visit_ok best Hi Hb) as (b1 & E1 & N1 & P1). rewrite E1. cbn [bind].
    unfold lk at 1 2. cbn [fst snd]. rewrite (get_some Rr), (get_some Rl). cbn [bind].
    rewrite get_x by apply modnd. cbn [bind]. rewrite crd_ok by (auto using modnd). cbn [bind].
    set (xd := nth (k mod nd) x 0). set (p := P i (k mod nd)).
    (* each branch *)
    assert (HL : l <> Leaf -> forall b, 0 <= snd b -> exists b',
       nn crd nd lk f elig x (S (k mod nd)) (root_or i l) b = Ok b'
       /\ nearest D E (elements l) b b' /\ 0 <= snd b').
    { intros Hl b Hb'. destruct l as [|i' l' r']; [congruence|]. cbn [root_or].
      apply IH with (k := S k); auto using dim_at_S; [eapply sub_left; eauto|cbn [height] in *; lia]. }
    assert (HR : r <> Leaf -> forall b, 0 <= snd b -> exists b',
       nn crd nd lk f elig x (S (k mod nd)) (root_or i r) b = Ok b'
       /\ nearest D E (elements r) b b' /\ 0 <= snd b').
    { intros Hl b Hb'. destruct r as [|i' l' r']; [congruence|]. cbn [root_or].
      apply IH with (k := S k); auto using dim_at_S; [eapply sub_right; eauto|cbn [height] in *; lia]. }
    assert (FR : forall b : nat * R, xd + snd b <= p -> nearest D E (elements r) b b).
    { intros b Hb'. apply nearest_skip. intros j Hj. eapply right_far; eauto. }
    assert (FL : forall b : nat * R, p <= xd - snd b -> nearest D E (elements l) b b).
    { intros b Hb'. apply nearest_skip. intros j Hj. eapply left_far; eauto. }
    assert (Fin : forall b2 b3, (nearest D E (elements r) b1 b2 /\ nearest D E (elements l) b2 b3)
                   \/ (nearest D E (elements l) b1 b2 /\ nearest D E (elements r) b2 b3) ->
                   nearest D E (elements (Node i l r)) best b3).
    { intros b2 b3 [[H1 H2]|[H1 H2]].
      - change (elements (Node i l r)) with ([i] ++ (elements r ++ elements l)).
        eapply nearest_app; [exact N1|]. eapply nearest_app; eauto.
      - apply nearest_perm with (S := [i] ++ (elements l ++ elements r)).
        { intros y. simpl. rewrite !in_app_iff. tauto. }
        eapply nearest_app; [exact N1|]. eapply nearest_app; eauto. }
    assert (Lleaf : l = Leaf -> forall b, nearest D E (elements l) b b).
    { intros -> b. apply nearest_skip. intros j []. }
    assert (Rleaf : r = Leaf -> forall b, nearest D E (elements r) b b).
    { intros -> b. apply nearest_skip. intros j []. }
    (* the two flags *)
    set (cr := if neqb (snd b1) dbl_max then negb (root_or i r =? i)%nat
               else negb (root_or i r =? i)%nat && nltb p (nadd xd (snd b1))).
    set (cl := if neqb (snd b1) dbl_max then negb (root_or i l =? i)%nat
               else negb (root_or i l =? i)%nat && nltb (nsub xd (snd b1)) p).
    replace (if neqb (snd b1) dbl_max
             then (negb (root_or i r =? i)%nat, negb (root_or i l =? i)%nat)
             else (negb (root_or i r =? i)%nat && nltb p (nadd xd (snd b1)),
                   negb (root_or i l =? i)%nat && nltb (nsub xd (snd b1)) p))
      with (cr, cl) by (unfold cr, cl; destruct (neqb _ _); reflexivity).
    assert (Cr : cr = true -> r <> Leaf).
    { intros Hc ->. unfold cr in Hc. simpl in Hc. rewrite Nat.eqb_refl in Hc. destruct (Reqb _ _); discriminate. }
    assert (Cl : cl = true -> l <> Leaf).
    { intros Hc ->. unfold cl in Hc. simpl in Hc. rewrite Nat.eqb_refl in Hc. destruct (Reqb _ _); discriminate. }
    assert (Cr' : cr = false -> nearest D E (elements r) b1 b1).
    { intros Hc. unfold cr in Hc. destruct (root_or i r =? i)%nat eqn:Er.
      - apply Rleaf. apply root_or_eq in Er; auto.
      - apply FR. cbn in Hc. destruct (Reqb _ _); [discriminate|]. apply Rltb_false in Hc. exact Hc. }
    assert (Cl' : cl = false -> nearest D E (elements l) b1 b1).
    { intros Hc. unfold cl in Hc. destruct (root_or i l =? i)%nat eqn:Er.
      - apply Lleaf. apply root_or_eq in Er; auto.
      - apply FL. cbn in Hc. destruct (Reqb _ _); [discriminate|]. apply Rltb_false in Hc. lra. }
    clearbody cr cl. cbn [nltb nadd nsub RNum].
    destruct cr, cl; cbn [andb].
    - destruct (Rltb p xd) eqn:Epx.
      + destruct (HR (Cr eq_refl) b1 P1) as (b2 & E2 & N2 & P2). rewrite E2. cbn [bind].
        destruct (Rltb (xd - snd b2) p) eqn:Ec.
        * destruct (HL (Cl eq_refl) b2 P2) as (b3 & E3 & N3 & P3). exists b3. split; [exact E3|]. split; [|auto]. eauto.
        * apply Rltb_false in Ec. exists b2. split; [auto|]. split; [|auto]. eapply Fin. left; split; eauto.
      + destruct (HL (Cl eq_refl) b1 P1) as (b2 & E2 & N2 & P2). rewrite E2. cbn [bind].
        destruct (Rltb p (xd + snd b2)) eqn:Ec.
        * destruct (HR (Cr eq_refl) b2 P2) as (b3 & E3 & N3 & P3). exists b3. split; [exact E3|]. split; [|auto]. eauto.
        * apply Rltb_false in Ec. exists b2. split; [auto|]. split; [|auto]. eapply Fin. right; split; eauto.
    - destruct (HR (Cr eq_refl) b1 P1) as (b2 & E2 & N2 & P2). exists b2. split; [exact E2|]. split; [|auto].
      eapply Fin. right. split; [apply Cl'; auto|auto].
    - destruct (HL (Cl eq_refl) b1 P1) as (b2 & E2 & N2 & P2). exists b2. split; [exact E2|]. split; [|auto].
      eapply Fin. left. split; [apply Cr'; auto|auto].
    - exists b1. split; [auto|]. split; [|auto]. eapply Fin. left. split; [apply Cr'|apply Cl']; auto.
  Qed.

  Lemma nn2_ok fuel d k i l r best :
    sub (Node i l r) k -> dim_at d k -> (height (Node i l r) <= fuel)%nat ->
    exists b, nn2 crd nd lk fuel elig x d i best = Ok b
      /\ nearest D E (elements (Node i l r)) best b.
  Proof.
    revert d k i l r best.
    induction fuel as [|f IH]; intros d k i l r best Hs Hd Hf; [cbn [height] in Hf; lia|].
    cbn [nn2]. cbn zeta. rewrite Hd.
    pose proof Hs as [(Rl & Rr & _ & _) N I O].
    assert (Hi : (i < n)%nat) by (apply I; left; auto).
    destruct (nodup_node N) as (Nil & Nir & _).
    assert (exists b1, nn2_visit crd nd elig x i best = Ok b1 /\ nearest D E [i] best b1) as (b1 & E1 & N1).
    { unfold nn2_visit. rewrite dst_sq_ok by auto. cbn [bind]. rewrite elig_ok by auto. cbn [bind].
      cbn [nltb nsqrt RNum]. destruct (Rltb _ _) eqn:El, (e i) eqn:Ee; cbn [andb].
      - apply Rltb_true in El. eexists. split; [reflexivity|]. right. exists i. split; [left; auto|].
        split; [exact Ee|]. split; [reflexivity|]. split; [exact El|]. intros j [<-|[]] _. unfold D, edist. lra.
      - eexists. split; [reflexivity|]. left. split; auto. intros j [<-|[]] Hj. unfold E in Hj. congruence.
      - apply Rltb_false in El. eexists. split; [reflexivity|]. left. split; auto. intros j [<-|[]] Hj. exact El.
      - eexists. split; [reflexivity|]. left. split; auto. intros j [<-|[]] Hj. unfold E in Hj. congruence. }
    rewrite E1. cbn [bind].
    unfold lk at 1 2. cbn [fst snd]. rewrite (get_some Rr), (get_some Rl). cbn [bind].
    rewrite get_x by apply modnd. cbn [bind]. rewrite crd_ok by (auto using modnd). cbn [bind].
    set (xd := nth (k mod nd) x 0). set (p := P i (k mod nd)).
    assert (HR : exists b2, (if negb (root_or i r =? i)%nat && nltb p (nadd xd (snd b1))
        then nn2 crd nd lk f elig x (S (k mod nd)) (root_or i r) b1 else Ok b1) = Ok b2
        /\ nearest D E (elements r) b1 b2).
    { cbn [nltb nadd RNum]. destruct (root_or i r =? i)%nat eqn:Er; cbn [negb andb].
      - apply root_or_eq in Er; auto. subst r. exists b1. split; auto. apply nearest_skip. intros j [].
      - destruct (Rltb p (xd + snd b1)) eqn:Ec.
        + destruct r as [|i' l' r']; [simpl in Er; rewrite Nat.eqb_refl in Er; discriminate|].
          cbn [root_or]. apply IH with (k := S k); auto using dim_at_S; [eapply sub_right; eauto|cbn [height] in *; lia].
        + apply Rltb_false in Ec. exists b1. split; auto. apply nearest_skip. intros j Hj. eapply right_far; eauto. }
    destruct HR as (b2 & E2 & N2). unfold links in *. rewrite E2. cbn [bind].
    assert (HL : exists b3, (if negb (root_or i l =? i)%nat && nltb (nsub xd (snd b2)) p
        then nn2 crd nd lk f elig x (S (k mod nd)) (root_or i l) b2 else Ok b2) = Ok b3
        /\ nearest D E (elements l) b2 b3).
    { cbn [nltb nsub RNum]. destruct (root_or i l =? i)%nat eqn:Er; cbn [negb andb].
      - apply root_or_eq in Er; auto. subst l. exists b2. split; auto. apply nearest_skip. intros j [].
      - destruct (Rltb (xd - snd b2) p) eqn:Ec.
        + destruct l as [|i' l' r']; [simpl in Er; rewrite Nat.eqb_refl in Er; discriminate|].
          cbn [root_or]. apply IH with (k := S k); auto using dim_at_S; [eapply sub_left; eauto|cbn [height] in *; lia].
        + apply Rltb_false in Ec. exists b2. split; auto. apply nearest_skip. intros j Hj. eapply left_far; eauto. }
    destruct HL as (b3 & E3 & N3). exists b3. split; [exact E3|].
    change (elements (Node i l r)) with ([i] ++ (elements r ++ elements l)).
    eapply nearest_app; [exact N1|]. eapply nearest_app; eauto.
  Qed.

  (** ** Points in a sphere. *)
  Lemma collects_app (ins must : nat -> Prop) S1 S2 a b c :
    (forall y, In y S1 -> In y S2 -> False) ->
    collects E ins must S1 a b -> collects E ins must S2 b c -> collects E ins must (S1 ++ S2) a c.
  Proof.
    intros Hdis (l1 & -> & Nd1 & I1 & A1 & M1) (l2 & -> & Nd2 & I2 & A2 & M2).
    exists (l1 ++ l2). split; [now rewrite app_assoc|]. split.
    - apply nodup_app_intro; auto. intros y Hy Hy'. apply (Hdis y); auto.
    - split; [|split].
      + intros y Hy. apply in_or_app. apply in_app_or in Hy. destruct Hy; auto.
      + intros y Hy. apply in_app_or in Hy. destruct Hy; auto.
      + intros y Hy He Hm. apply in_or_app. apply in_app_or in Hy. destruct Hy; auto.
  Qed.
  Lemma collects_skip (ins must : nat -> Prop) S a : (forall y, In y S -> ~ must y) -> collects E ins must S a a.
  Proof.
    intros H. exists []. rewrite app_nil_r. split; auto. split; [constructor|]. split; [intros y []|].
    split; [intros y []|]. intros y Hy _ Hm. exfalso. eapply H; eauto.
  Qed.

  Lemma in_sphere_ok fuel accept rad d k i l r acc :
    (forall j, (j < n)%nat -> D j < rad -> sqdist nd P x j < accept) ->
    sub (Node i l r) k -> dim_at d k -> (height (Node i l r) <= fuel)%nat ->
    exists out, in_sphere crd nd lk fuel elig accept x rad d i acc = Ok out
      /\ collects E (fun j => sqdist nd P x j < accept) (fun j => D j < rad) (elements (Node i l r)) acc out.
  Proof.
    intros Hacc. revert d k i l r acc.
    induction fuel as [|f IH]; intros d k i l r acc Hs Hd Hf; [cbn [height] in Hf; lia|].
    cbn [in_sphere]. cbn zeta. rewrite Hd.
    pose proof Hs as [(Rl & Rr & _ & _) N I O].
    assert (Hi : (i < n)%nat) by (apply I; left; auto).
    destruct (nodup_node N) as (Nil & Nir & _ & _ & Dis).
    rewrite elig_ok by auto. cbn [bind].
    set (C := collects E (fun j => sqdist nd P x j < accept) (fun j => D j < rad)).
    assert (exists a1, (if e i then q <- dst_sq crd nd x i;; Ok (if nltb q accept then acc ++ [i] else acc) else Ok acc) = Ok a1
        /\ C [i] acc a1) as (a1 & E1 & N1).
    { destruct (e i) eqn:Ee.
      - rewrite dst_sq_ok by auto. cbn [bind]. cbn [nltb RNum]. eexists. split; [reflexivity|].
        destruct (Rltb _ _) eqn:El.
        + apply Rltb_true in El. exists [i]. split; auto. split; [constructor; auto; constructor|].
          split; [intros y Hy; exact Hy|]. split.
          * intros y [<-|[]]. split; auto.
          * intros y Hy _ _. exact Hy.
        + apply Rltb_false in El. apply collects_skip. intros y [<-|[]] Hc. specialize (Hacc i Hi Hc). lra.
      - exists acc. split; auto. exists []. rewrite app_nil_r. split; auto. split; [constructor|]. split; [intros y []|].
        split; [intros y []|]. intros y [<-|[]] Hc _. unfold E in Hc. congruence. }
    rewrite E1. cbn [bind].
    unfold lk at 1 2. cbn [fst snd]. rewrite (get_some Rr), (get_some Rl). cbn [bind].
    rewrite get_x by apply modnd. cbn [bind]. rewrite crd_ok by (auto using modnd). cbn [bind].
    set (xd := nth (k mod nd) x 0). set (p := P i (k mod nd)).
    assert (HR : exists b2, (if negb (root_or i r =? i)%nat && nltb p (nadd xd rad)
        then in_sphere crd nd lk f elig accept x rad (S (k mod nd)) (root_or i r) a1 else Ok a1) = Ok b2
        /\ C (elements r) a1 b2).
    { cbn [nltb nadd RNum]. destruct (root_or i r =? i)%nat eqn:Er; cbn [negb andb].
      - apply root_or_eq in Er; auto. subst r. exists a1. split; auto. apply collects_skip. intros j [].
      - destruct (Rltb p (xd + rad)) eqn:Ec.
        + destruct r as [|i' l' r']; [simpl in Er; rewrite Nat.eqb_refl in Er; discriminate|].
          cbn [root_or]. apply IH with (k := S k); auto using dim_at_S; [eapply sub_right; eauto|cbn [height] in *; lia].
        + apply Rltb_false in Ec. exists a1. split; auto. apply collects_skip. intros j Hj.
          pose proof (@right_far i l r k x rad Hs Ec j Hj). unfold D. lra. }
    destruct HR as (b2 & E2 & N2). unfold links in *. rewrite E2. cbn [bind].
    assert (HL : exists b3, (if negb (root_or i l =? i)%nat && nltb (nsub xd rad) p
        then in_sphere crd nd lk f elig accept x rad (S (k mod nd)) (root_or i l) b2 else Ok b2) = Ok b3
        /\ C (elements l) b2 b3).
    { cbn [nltb nsub RNum]. destruct (root_or i l =? i)%nat eqn:Er; cbn [negb andb].
      - apply root_or_eq in Er; auto. subst l. exists b2. split; auto. apply collects_skip. intros j [].
      - destruct (Rltb (xd - rad) p) eqn:Ec.
        + destruct l as [|i' l' r']; [simpl in Er; rewrite Nat.eqb_refl in Er; discriminate|].
          cbn [root_or]. apply IH with (k := S k); auto using dim_at_S; [eapply sub_left; eauto|cbn [height] in *; lia].
        + apply Rltb_false in Ec. exists b2. split; auto. apply collects_skip. intros j Hj.
          pose proof (@left_far i l r k x rad Hs Ec j Hj). unfold D. lra. }
    destruct HL as (b3 & E3 & N3). exists b3. split; [exact E3|].
    change (elements (Node i l r)) with ([i] ++ (elements r ++ elements l)).
    eapply collects_app; [|exact N1|eapply collects_app; eauto].
    intros y [<-|[]] Hy. apply in_app_or in Hy. destruct Hy; auto.
  Qed.
  End Elig.
End Queries.
