(** Proof that re-enumeration renumbers the nodes of the tree in preorder
    (KdTree.v: nodes_order, new_index, relabel, re_enumerate). *)
From Verif Require Import Base MemoryHandler KdTree KdSpec KdTreeProofs.

Fixpoint tmap (f : nat -> nat) (t : tree) : tree :=
  match t with
  | Leaf => Leaf
  | Node i l r => Node (f i) (tmap f l) (tmap f r)
  end.
Lemma elements_tmap f t : elements (tmap f t) = map f (elements t).
Proof. induction t as [|i l IHl r IHr]; simpl; auto. now rewrite map_app, IHl, IHr. Qed.
Lemma height_tmap f t : height (tmap f t) = height t.
Proof. induction t as [|i l IHl r IHr]; simpl; auto. Qed.
Lemma root_or_tmap f i t : root_or (f i) (tmap f t) = f (root_or i t).
Proof. destruct t; reflexivity. Qed.

Lemma nodes_order_ok fuel lf rt i l r acc :
  represents lf rt (Node i l r) -> NoDup (elements (Node i l r)) -> height (Node i l r) <= fuel ->
  nodes_order fuel (lf, rt) i acc = Ok (acc ++ elements (Node i l r)).
Proof.
  revert i l r acc. induction fuel as [|f IH]; intros i l r acc (Rl & Rr & Hl & Hr) N Hf.
  { cbn [height] in Hf. lia. }
  cbn [nodes_order]. cbn zeta. destruct (nodup_node N) as (Nil & Nir & Nl & Nr & _).
  rewrite (get_some Rr), (get_some Rl). cbn [bind]. cbn [height] in Hf.
  assert (E2 : (if root_or i r =? i then Ok (acc ++ [i]) else nodes_order f (lf, rt) (root_or i r) (acc ++ [i]))
               = Ok (acc ++ i :: elements r)).
  { destruct r as [|j a b].
    - simpl. rewrite Nat.eqb_refl. reflexivity.
    - destruct (root_or i (Node j a b) =? i) eqn:E.
      + apply root_or_eq in E; auto. discriminate.
      + cbn [root_or]. rewrite (IH j a b); auto; [|lia]. now rewrite <- app_assoc. }
  rewrite E2. cbn [bind].
  destruct l as [|j a b].
  - simpl. rewrite Nat.eqb_refl, app_nil_r. reflexivity.
  - destruct (root_or i (Node j a b) =? i) eqn:E.
    + apply root_or_eq in E; auto. discriminate.
    + cbn [root_or]. rewrite (IH j a b); auto; [|lia]. rewrite <- app_assoc. reflexivity.
Qed.

Lemma nodup_nth_inj (a : list nat) i j x : NoDup a -> nth_error a i = Some x -> nth_error a j = Some x -> i = j.
Proof.
  intros N Hi Hj. rewrite NoDup_nth_error in N. apply N; [eapply nth_error_Some_lt; eauto|congruence].
Qed.

Section Reenum.
  Variables (n : nat) (ord : list nat).
  Hypothesis ord_perm : Permutation ord (seq 0 n).

  Lemma ord_len : length ord = n.
  Proof. rewrite (Permutation_length ord_perm). apply seq_length. Qed.
  Lemma ord_nodup : NoDup ord.
  Proof. eapply Permutation_NoDup; [symmetry; exact ord_perm|apply seq_NoDup]. Qed.
  Lemma ord_in x : In x ord <-> x < n.
  Proof.
    split; intros Hx.
    - apply (Permutation_in _ ord_perm), in_seq in Hx. lia.
    - apply (Permutation_in _ (Permutation_sym ord_perm)), in_seq. lia.
  Qed.

  Lemma new_index_ok : exists ni, new_index n ord = Ok ni /\ length ni = n
    /\ forall i x, nth_error ord i = Some x -> nth_error ni x = Some i.
  Proof.
    unfold new_index.
    destruct (@for_res_inv _ (fun k ni => length ni = n /\
        forall i x, i < k -> nth_error ord i = Some x -> nth_error ni x = Some i)
      n 0 (fun i ni => c <- get ord i ;; set ni c i) (repeat 0 n)) as (ni & E & L & Hni).
    - rewrite repeat_length. split; auto. intros; lia.
    - intros k ni Hk (L & Hni). destruct (nth_error_lt ord (i:=k)) as [c Hc]; [rewrite ord_len; lia|].
      assert (c < n) by (apply ord_in; eapply nth_error_In; eauto).
      rewrite (get_some Hc). cbn [bind]. rewrite set_Ok by lia. eexists. split; [reflexivity|].
      split; [now rewrite upd_length|]. intros i x Hi Hx.
      destruct (Nat.eq_dec i k) as [->|Hne].
      + assert (x = c) by congruence. subst x. apply upd_nth_same. lia.
      + rewrite upd_nth_other; [apply Hni; auto; lia|].
        intros ->. apply Hne. eapply nodup_nth_inj; eauto using ord_nodup.
    - exists ni. split; auto. split; auto. intros i x Hx. apply Hni; auto.
      apply nth_error_Some_lt in Hx. rewrite ord_len in Hx. lia.
  Qed.

  Lemma relabel_ok ni lk o :
    (forall x, In x o -> exists y, nth_error lk x = Some y /\ y < length ni) ->
    exists l, relabel ni lk o = Ok l /\ length l = length o /\
      forall i x y, nth_error o i = Some x -> nth_error lk x = Some y -> nth_error l i = nth_error ni y.
  Proof.
    induction o as [|c o IH]; intros H0.
    - exists []. simpl. split; auto. split; auto. intros [|i]; discriminate.
    - destruct IH as (l & E & L & Hl); [intros; apply H0; right; auto|].
      destruct (H0 c (or_introl eq_refl)) as (y & Hy & Hlt).
      destruct (nth_error_lt ni Hlt) as [m Hm].
      simpl. rewrite (get_some Hy). cbn [bind]. rewrite (get_some Hm). cbn [bind]. rewrite E. cbn [bind].
      eexists. split; [reflexivity|]. split; [simpl; auto|].
      intros [|i] x y' Hx Hy'; simpl in *.
      + assert (x = c) by congruence. subst. congruence.
      + eauto.
  Qed.
End Reenum.

Lemma gather_ok {A} (xs : list A) (d : A) o : (forall c, In c o -> c < length xs) ->
  gather xs o = Ok (map (fun c => nth c xs d) o).
Proof.
  induction o as [|c o IH]; intros H0; simpl; auto.
  destruct (nth_error_lt xs (H0 c (or_introl eq_refl))) as [a Ha].
  rewrite (get_some Ha). cbn [bind]. rewrite IH by (intros; apply H0; right; auto). cbn [bind].
  now rewrite (nth_error_nth xs c d Ha).
Qed.

Lemma represents_in lf rt t i : represents lf rt t -> In i (elements t) ->
  exists l r, nth_error lf i = Some (root_or i l) /\ nth_error rt i = Some (root_or i r)
    /\ incl (elements l) (elements t) /\ incl (elements r) (elements t).
Proof.
  induction t as [|j l IHl r IHr]; simpl; [tauto|].
  intros (Rl & Rr & Hl & Hr) [->|Hi].
  - exists l, r. split; auto. split; auto. split; intros x Hx; right; apply in_or_app; auto.
  - apply in_app_or in Hi as [Hi|Hi].
    + destruct (IHr Hr Hi) as (a & b & ? & ? & I1 & I2). exists a, b. split; auto. split; auto.
      split; intros x Hx; right; apply in_or_app; left; auto.
    + destruct (IHl Hl Hi) as (a & b & ? & ? & I1 & I2). exists a, b. split; auto. split; auto.
      split; intros x Hx; right; apply in_or_app; right; auto.
Qed.

Lemma re_enumerate_ok {F} (ltb : F -> F -> bool) (P : nat -> nat -> F) nd n lf rt root t :
  kd_tree ltb P nd n lf rt root t ->
  exists lf' rt' t', re_enumerate n (lf, rt) root = Ok ((lf', rt'), 0, elements t)
    /\ kd_tree ltb (fun i => P (nth i (elements t) 0)) nd n lf' rt' 0 t'
    /\ elements t' = seq 0 n /\ height t' = height t.
Proof.
  intros (L1 & L2 & (l & r & ->) & Rep & Perm & Ord).
  set (t := Node root l r) in *. set (o := elements t) in *.
  pose proof (@ord_nodup n o Perm) as N. pose proof (@ord_len n o Perm) as Lo.
  pose proof (@ord_in n o Perm) as Hin.
  unfold re_enumerate.
  rewrite nodes_order_ok with (l := l) (r := r); auto.
  2:{ pose proof (height_elements t). fold o in H. unfold t in *. lia. }
  cbn [bind app]. change (elements (Node root l r)) with o.
  destruct (@new_index_ok n o Perm) as (ni & E1 & Ln & Hni). rewrite E1. cbn [bind].
  rewrite firstn_all2 by lia. cbn [fst snd].
  assert (Hlk : forall i, In i o -> exists yl yr, nth_error lf i = Some yl /\ nth_error rt i = Some yr /\ In yl o /\ In yr o).
  { intros i Hi. destruct (@represents_in lf rt t i Rep Hi) as (a & b & Ha & Hb & Ia & Ib).
    exists (root_or i a), (root_or i b). split; auto. split; auto.
    split.
    - destruct (root_or_in i a) as [->|H]; [auto|apply Ia; auto].
    - destruct (root_or_in i b) as [->|H]; [auto|apply Ib; auto]. }
  destruct (@relabel_ok ni lf o) as (lf' & E2 & L2' & Hlf).
  { intros x Hx. destruct (Hlk x Hx) as (yl & yr & ? & ? & Il & Ir). exists yl. split; auto.
    rewrite Ln. apply Hin; auto. }
  destruct (@relabel_ok ni rt o) as (rt' & E3 & L3' & Hrt).
  { intros x Hx. destruct (Hlk x Hx) as (yl & yr & ? & ? & Il & Ir). exists yr. split; auto.
    rewrite Ln. apply Hin; auto. }
  rewrite E2, E3. cbn [bind].
  assert (H0 : nth_error o 0 = Some root) by reflexivity.
  rewrite (get_some (Hni _ _ H0)). cbn [bind].
  set (f := fun c => nth c ni 0).
  assert (Hf : forall i x, nth_error o i = Some x -> f x = i).
  { intros i x Hx. unfold f. now rewrite (nth_error_nth ni x 0 (Hni _ _ Hx)). }
  assert (Hfo : forall x, In x o -> nth_error o (f x) = Some x).
  { intros x Hx. apply In_nth_error in Hx as [i Hi]. now rewrite (Hf _ _ Hi). }
  assert (Hmap : map f o = seq 0 n).
  { apply list_ext. intros k. rewrite map_nth_error'. destruct (nth_error o k) as [x|] eqn:Ek; simpl.
    - rewrite (Hf _ _ Ek). symmetry. apply nth_error_Some_lt in Ek. rewrite Lo in Ek.
      rewrite (nth_error_nth' (seq 0 n) 0) by (rewrite seq_length; auto). now rewrite seq_nth.
    - symmetry. apply nth_error_None. apply nth_error_None in Ek. rewrite seq_length. lia. }
  exists lf', rt', (tmap f t). split; [reflexivity|]. split; [|split; [|apply height_tmap]].
  2:{ now rewrite elements_tmap. }
  split; [lia|]. split; [lia|]. split.
  { exists (tmap f l), (tmap f r). unfold t. simpl. now rewrite (Hf 0 root H0). }
  split; [|split].
  - assert (G : forall u, incl (elements u) o -> represents lf rt u -> represents lf' rt' (tmap f u)).
    { induction u as [|i a IHa b IHb]; simpl; auto. intros Hu (Ra & Rb & Ta & Tb).
      assert (Hi : In i o) by (apply Hu; left; auto).
      assert (Ia : incl (elements a) o) by (intros x Hx; apply Hu; right; apply in_or_app; auto).
      assert (Ib : incl (elements b) o) by (intros x Hx; apply Hu; right; apply in_or_app; auto).
      rewrite (Hlf _ _ _ (Hfo i Hi) Ra), (Hrt _ _ _ (Hfo i Hi) Rb).
      assert (Hro : forall u, incl (elements u) o -> In (root_or i u) o).
      { intros u Hu'. destruct (root_or_in i u) as [->|Hx]; auto. }
      rewrite !root_or_tmap.
      split; [apply Hni, Hfo, Hro; auto|]. split; [apply Hni, Hfo, Hro; auto|]. auto. }
    apply G; auto. intros x Hx; exact Hx.
  - rewrite elements_tmap. fold o. now rewrite Hmap.
  - assert (Q : forall x d, In x o -> P (nth (f x) o 0) d = P x d).
    { intros x d Hx. now rewrite (nth_error_nth o (f x) 0 (Hfo x Hx)). }
    assert (G : forall u d, incl (elements u) o -> ordered ltb P nd d u ->
                ordered ltb (fun i => P (nth i o 0)) nd d (tmap f u)).
    { induction u as [|i a IHa b IHb]; [simpl; auto|]. cbn [tmap ordered elements]. intros d Hu (Oa & Ob & Ta & Tb).
      assert (Hi : In i o) by (apply Hu; left; auto).
      assert (Ia : incl (elements a) o) by (intros x Hx; apply Hu; right; apply in_or_app; auto).
      assert (Ib : incl (elements b) o) by (intros x Hx; apply Hu; right; apply in_or_app; auto).
      rewrite !elements_tmap.
      split; [|split; [|split; auto]].
      - intros j Hj. apply in_map_iff in Hj as (x & <- & Hx). cbv beta. rewrite (Q i), (Q x) by auto. auto.
      - intros j Hj. apply in_map_iff in Hj as (x & <- & Hx). cbv beta. rewrite (Q i), (Q x) by auto. auto. }
    apply G; auto. intros x Hx; exact Hx.
Qed.
