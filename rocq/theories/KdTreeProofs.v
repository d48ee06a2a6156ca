(** Proofs about the construction of kd-trees (KdTree.v). *)
From Verif Require Import Base Num MemoryHandler SortSpec MemoryHandlerProofs KdTree KdSpec.

Lemma next_dim_mod nd k : 0 < nd -> next_dim nd (k mod nd) = S k mod nd.
Proof.
  intros H. unfold next_dim.
  pose proof (Nat.mod_upper_bound k nd ltac:(lia)) as Hk.
  rewrite <- (Nat.add_1_r k). rewrite Nat.add_mod by lia.
  destruct (Nat.eq_dec nd 1) as [->|Hn].
  - rewrite !Nat.mod_1_r. reflexivity.
  - rewrite (Nat.mod_small 1) by lia.
    destruct (k mod nd + 1 =? nd) eqn:E.
    + apply Nat.eqb_eq in E. rewrite E, Nat.mod_same by lia. reflexivity.
    + apply Nat.eqb_neq in E. rewrite (@Nat.mod_small (k mod nd + 1)) by lia. reflexivity.
Qed.

Lemma elements_root i l r : In i (elements (Node i l r)).
Proof. left; auto. Qed.

Lemma root_or_in i t : root_or i t = i \/ In (root_or i t) (elements t).
Proof. destruct t; simpl; auto. Qed.

Lemma height_elements t : height t <= length (elements t).
Proof. induction t; simpl; [lia|]. rewrite app_length. lia. Qed.

Lemma NoDup_app_inv {A} (l1 l2 : list A) : NoDup (l1 ++ l2) ->
  NoDup l1 /\ NoDup l2 /\ forall x, In x l1 -> In x l2 -> False.
Proof.
  induction l1 as [|a l1 IH]; simpl; intros H.
  - repeat split; auto. constructor.
  - inversion H as [|? ? Hn Hr]; subst. destruct (IH Hr) as (H1 & H2 & H3).
    repeat split; auto.
    + constructor; auto. intros Hi. apply Hn, in_or_app; auto.
    + intros x [->|Hx] Hx2; [apply Hn, in_or_app; auto|eauto].
Qed.

Lemma nodup_node i l r : NoDup (elements (Node i l r)) ->
  ~ In i (elements l) /\ ~ In i (elements r) /\ NoDup (elements l) /\ NoDup (elements r)
  /\ forall x, In x (elements r) -> In x (elements l) -> False.
Proof.
  simpl. intros H. inversion H as [|? ? Hn Hr]; subst.
  destruct (NoDup_app_inv _ _ Hr) as (H1 & H2 & H3).
  repeat split; auto; intros Hi; apply Hn, in_or_app; auto.
Qed.

Lemma root_or_eq i l : ~ In i (elements l) -> (root_or i l =? i) = true <-> l = Leaf.
Proof.
  destruct l as [|j a b]; simpl; intros H.
  - rewrite Nat.eqb_refl. tauto.
  - destruct (j =? i) eqn:E; [|split; discriminate].
    apply Nat.eqb_eq in E. subst. exfalso; auto.
Qed.

Lemma represents_frame lf rt lf' rt' t :
  (forall i, In i (elements t) -> nth_error lf' i = nth_error lf i /\ nth_error rt' i = nth_error rt i) ->
  represents lf rt t -> represents lf' rt' t.
Proof.
  induction t as [|i l IHl r IHr]; simpl; auto.
  intros Hf (H1 & H2 & H3 & H4).
  destruct (Hf i (or_introl eq_refl)) as [-> ->].
  repeat split; auto; [apply IHl|apply IHr]; auto; intros j Hj; apply Hf; right; apply in_or_app; auto.
Qed.

Section Insert.
  Context {F : Type}.
  Variable ltb : F -> F -> bool.
  Variable P : nat -> nat -> F.
  Variable nd : nat.
  Hypothesis nd_pos : 0 < nd.

  Fixpoint insert (s d : nat) (t : tree) : tree :=
    match t with
    | Leaf => Node s Leaf Leaf
    | Node i l r => if ltb (P i (d mod nd)) (P s (d mod nd))
                    then Node i l (insert s (S d) r) else Node i (insert s (S d) l) r
    end.
  Fixpoint insert_depth (s d : nat) (t : tree) : nat :=
    match t with
    | Leaf => 1
    | Node i l r => if ltb (P i (d mod nd)) (P s (d mod nd))
                    then S (insert_depth s (S d) r) else S (insert_depth s (S d) l)
    end.

  Lemma insert_elements s d t : Permutation (elements (insert s d t)) (s :: elements t).
  Proof.
    revert d; induction t as [|i l IHl r IHr]; intros d; simpl; auto.
    destruct (ltb _ _); simpl.
    - rewrite (IHr (S d)). simpl. constructor.
    - rewrite (IHl (S d)). rewrite <- Permutation_middle. constructor.
  Qed.

  Lemma insert_in s d t x : In x (elements (insert s d t)) <-> x = s \/ In x (elements t).
  Proof.
    split; intros Hx.
    - apply (Permutation_in _ (insert_elements s d t)) in Hx. destruct Hx; auto.
    - apply (Permutation_in _ (Permutation_sym (insert_elements s d t))). destruct Hx; [left|right]; auto.
  Qed.

  Lemma insert_ordered s d t : ordered ltb P nd d t -> ordered ltb P nd d (insert s d t).
  Proof.
    revert d; induction t as [|i l IHl r IHr]; intros d; simpl.
    - intros _. repeat split; intros j [].
    - intros (H1 & H2 & H3 & H4). destruct (ltb _ _) eqn:E; simpl; repeat split; auto.
      + intros j Hj. apply insert_in in Hj. destruct Hj as [->|Hj]; auto.
      + intros j Hj. apply insert_in in Hj. destruct Hj as [->|Hj]; auto.
  Qed.

  Lemma insert_height s d t : height (insert s d t) = Nat.max (height t) (insert_depth s d t).
  Proof.
    revert d; induction t as [|i l IHl r IHr]; intros d; simpl; auto.
    destruct (ltb _ _); simpl; [rewrite IHr|rewrite IHl]; lia.
  Qed.

  Lemma insert_not_leaf s d t : insert s d t <> Leaf.
  Proof. destruct t; simpl; [discriminate|]. destruct (ltb _ _); discriminate. Qed.

  Lemma insert_root_or s d t i : t <> Leaf -> root_or i (insert s d t) = root_or i t.
  Proof. destruct t; simpl; [congruence|]. destruct (ltb _ _); reflexivity. Qed.

  Variable crd : nat -> nat -> res F.
  Variable n : nat.
  Hypothesis crd_ok : forall i d, i < n -> d < nd -> crd i d = Ok (P i d).

  Lemma modlt k : k mod nd < nd.
  Proof. apply Nat.mod_upper_bound. lia. Qed.

  Lemma kd_add_ok fuel lf rt s k i l r h :
    let t := Node i l r in
    represents lf rt t -> NoDup (elements t) -> ~ In s (elements t) ->
    (forall x, In x (elements t) -> x < n) -> s < n ->
    length lf = n -> length rt = n ->
    nth_error lf s = Some s -> nth_error rt s = Some s ->
    height t <= fuel ->
    exists lf' rt', kd_add ltb crd nd fuel (lf, rt) s i (k mod nd) h
        = Ok ((lf', rt'), h + insert_depth s k t - 1)
      /\ represents lf' rt' (insert s k t)
      /\ length lf' = n /\ length rt' = n
      /\ (forall j, ~ In j (elements t) -> nth_error lf' j = nth_error lf j /\ nth_error rt' j = nth_error rt j).
  Proof.
    revert k i l r h.
    induction fuel as [|f IH]; intros k i l r h t Hrep Hnd Hs Hin Hsn Hll Hlr Hls Hrs Hf;
      [unfold t in Hf; simpl in Hf; lia|].
    destruct (nodup_node Hnd) as (Hil & Hir & Hndl & Hndr & Hdis).
    destruct Hrep as (H1 & H2 & H3 & H4).
    assert (Hi : i < n) by (apply Hin; left; auto).
    assert (Hsi : s <> i) by (intros ->; apply Hs; left; auto).
    cbn [kd_add]. rewrite crd_ok by (auto using modlt). cbn [bind].
    rewrite crd_ok by (auto using modlt). cbn [bind].
    unfold t; cbn [insert insert_depth].
    rewrite next_dim_mod by assumption.
    destruct (ltb (P i (k mod nd)) (P s (k mod nd))) eqn:E.
    - rewrite (get_some H2). cbn [bind].
      destruct (root_or i r =? i) eqn:Er.
      + apply root_or_eq in Er; auto. subst r.
        rewrite set_Ok by lia. cbn [bind]. simpl.
        exists lf, (upd rt i s). split; [f_equal; f_equal; lia|].
        split; [|split; [auto|split; [rewrite upd_length; auto|]]].
        * repeat split; auto; simpl.
          -- rewrite upd_nth_same by lia. reflexivity.
          -- eapply represents_frame; [|exact H3]. intros j Hj. split; auto.
             apply upd_nth_other. intros <-. auto.
          -- rewrite upd_nth_other by auto. exact Hrs.
        * intros j Hj. split; auto. apply upd_nth_other. intros <-. apply Hj. left; auto.
      + destruct r as [|i' l' r']; [simpl in Er; rewrite Nat.eqb_refl in Er; discriminate|].
        cbn [root_or].
        destruct (IH (S k) i' l' r' (h + 1)) as (lf' & rt' & E' & Hr' & L1 & L2 & Hfr); auto.
        * intros Hc. apply Hs. right. apply in_or_app. auto.
        * intros x Hx. apply Hin. right. apply in_or_app. auto.
        * unfold t in Hf; cbn [height] in *; lia.
        * exists lf', rt'. split.
          { rewrite E'. f_equal. f_equal. simpl. destruct (ltb _ _); lia. }
          split; [|split; [auto|split; auto]].
          -- destruct (Hfr i Hir) as [F1 F2].
             cbn [represents]. rewrite insert_root_or by discriminate.
             rewrite F1, F2. repeat split; auto.
             eapply represents_frame; [|exact H3].
             intros j Hj. apply Hfr. intros Hc. eapply Hdis; eauto.
          -- intros j Hj. apply Hfr. intros Hc. apply Hj. right. apply in_or_app. auto.
    - rewrite (get_some H1). cbn [bind].
      destruct (root_or i l =? i) eqn:Er.
      + apply root_or_eq in Er; auto. subst l.
        rewrite set_Ok by lia. cbn [bind]. simpl.
        exists (upd lf i s), rt. split; [f_equal; f_equal; lia|].
        split; [|split; [rewrite upd_length; auto|split; [auto|]]].
        * repeat split; auto; simpl.
          -- rewrite upd_nth_same by lia. reflexivity.
          -- rewrite upd_nth_other by auto. exact Hls.
          -- eapply represents_frame; [|exact H4]. intros j Hj. split; auto.
             apply upd_nth_other. intros <-. auto.
        * intros j Hj. split; auto. apply upd_nth_other. intros <-. apply Hj. left; auto.
      + destruct l as [|i' l' r']; [simpl in Er; rewrite Nat.eqb_refl in Er; discriminate|].
        cbn [root_or].
        destruct (IH (S k) i' l' r' (h + 1)) as (lf' & rt' & E' & Hr' & L1 & L2 & Hfr); auto.
        * intros Hc. apply Hs. right. apply in_or_app. auto.
        * intros x Hx. apply Hin. right. apply in_or_app. auto.
        * unfold t in Hf; cbn [height] in *; lia.
        * exists lf', rt'. split.
          { rewrite E'. f_equal. f_equal. simpl. destruct (ltb _ _); lia. }
          split; [|split; [auto|split; auto]].
          -- destruct (Hfr i Hil) as [F1 F2].
             cbn [represents]. rewrite insert_root_or by discriminate.
             rewrite F1, F2. repeat split; auto.
             eapply represents_frame; [|exact H4].
             intros j Hj. apply Hfr. intros Hc. eapply Hdis; eauto.
          -- intros j Hj. apply Hfr. intros Hc. apply Hj. right. apply in_or_app. auto.
  Qed.

  (** A tree under construction: a valid kd-tree of some of the points; the other
      points still have their self links. *)
  Record partial (lf rt : list nat) (t : tree) : Prop := {
    pt_lf : length lf = n;
    pt_rt : length rt = n;
    pt_rep : represents lf rt t;
    pt_nd : NoDup (elements t);
    pt_in : forall x, In x (elements t) -> x < n;
    pt_self : forall x, x < n -> ~ In x (elements t) -> nth_error lf x = Some x /\ nth_error rt x = Some x;
    pt_ord : ordered ltb P nd 0 t
  }.

  Lemma nodup_bound (l : list nat) : NoDup l -> (forall x, In x l -> x < n) -> length l <= n.
  Proof.
    intros H1 H2. rewrite <- (seq_length n 0). apply NoDup_incl_length; auto.
    intros x Hx. apply in_seq. specialize (H2 x Hx). lia.
  Qed.

  Lemma kd_add_point_ok lf rt s i l r height0 :
    partial lf rt (Node i l r) -> s < n -> ~ In s (elements (Node i l r)) ->
    exists lf' rt', kd_add_point ltb crd nd n (lf, rt) i s height0
        = Ok ((lf', rt'), Nat.max height0 (insert_depth s 0 (Node i l r)))
      /\ partial lf' rt' (insert s 0 (Node i l r)).
  Proof.
    intros [L1 L2 R N I S O] Hsn Hs. destruct (S s Hsn Hs) as [S1 S2].
    unfold kd_add_point.
    destruct (@kd_add_ok (Datatypes.S n) lf rt s 0 i l r 1) as (lf' & rt' & E & R' & L1' & L2' & Fr); auto.
    { etransitivity; [apply height_elements|]. pose proof (nodup_bound N I). lia. }
    rewrite Nat.mod_small in E by lia.
    rewrite E. cbn [bind]. exists lf', rt'. split.
    - f_equal. f_equal.
      match goal with |- context [?a <? ?b] => destruct (a <? b) eqn:Eh end; lia.
    - split; auto.
      + eapply Permutation_NoDup; [symmetry; apply insert_elements|]. constructor; auto.
      + intros x Hx. apply insert_in in Hx. destruct Hx as [->|Hx]; auto.
      + intros x Hx Hnx. destruct (Fr x) as [-> ->].
        * intros Hc. apply Hnx, insert_in. auto.
        * apply S; auto. intros Hc. apply Hnx, insert_in. auto.
      + apply insert_ordered. exact O.
  Qed.
End Insert.
