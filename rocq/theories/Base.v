(** Base vocabulary shared by all models: outcomes of C++ code, memory
    accesses, loops.  No property of the repository is stated here. *)
From Coq Require Export List Arith ZArith NArith Lia Bool.
From Coq Require Export Permutation Sorted.
From Coq Require Export ZifyBool ZifyNat ZifyN.
Export ListNotations.
#[export] Set Implicit Arguments.
#[export] Set Asymmetric Patterns.

(** Outcome of a piece of C++: a value, undefined behaviour (out-of-bounds
    access, null dereference, unsigned underflow used as an index, integer
    division by zero), or "the fuel of a modelled loop ran out". *)
Inductive res (A : Type) : Type :=
| Ok (a : A)
| UB
| Fuel.
Arguments Ok {A} a.
Arguments UB {A}.
Arguments Fuel {A}.

Definition bind {A B} (x : res A) (f : A -> res B) : res B :=
  match x with Ok a => f a | UB => UB | Fuel => Fuel end.
Notation "x <- e ;; f" := (bind e (fun x => f))
  (at level 61, e at next level, right associativity).
Notation "' p <- e ;; f" := (bind e (fun p => f))
  (at level 61, p pattern, e at next level, right associativity).

(** [p[i]] as an rvalue. *)
Definition get {A} (l : list A) (i : nat) : res A :=
  match nth_error l i with Some a => Ok a | None => UB end.

(** Functional update, unchanged when out of range. *)
Fixpoint upd {A} (l : list A) (i : nat) (a : A) : list A :=
  match l, i with
  | [], _ => []
  | _ :: t, O => a :: t
  | h :: t, S j => h :: upd t j a
  end.

(** [p[i] = a]. *)
Definition set {A} (l : list A) (i : nat) (a : A) : res (list A) :=
  if i <? length l then Ok (upd l i a) else UB.

(** [tmp = p[i]; p[i] = p[j]; p[j] = tmp]. *)
Definition aswap {A} (l : list A) (i j : nat) : res (list A) :=
  tmp <- get l i ;; b <- get l j ;; l1 <- set l i b ;; set l1 j tmp.

(** [for (k = lo; k < lo + n; k++) s = body(k, s)]. *)
Fixpoint for_res {St} (n lo : nat) (body : nat -> St -> res St) (s : St) : res St :=
  match n with
  | O => Ok s
  | S m => s' <- body lo s ;; for_res m (S lo) body s'
  end.

(** A boolean strict weak order: irreflexive, transitive, with transitive
    incomparability (this is what [<] is on [size_t] and on non-NaN doubles). *)
Record strict_weak {K} (ltb : K -> K -> bool) : Prop := {
  sw_irrefl : forall x, ltb x x = false;
  sw_trans : forall x y z, ltb x y = true -> ltb y z = true -> ltb x z = true;
  sw_ntrans : forall x y z, ltb y x = false -> ltb z y = false -> ltb z x = false
}.

(* ------------------------------------------------------------------ *)
(** Lemmas about the vocabulary. *)

Lemma bind_Ok_inv {A B} (x : res A) (f : A -> res B) b :
  bind x f = Ok b -> exists a, x = Ok a /\ f a = Ok b.
Proof. destruct x; simpl; intros H; try discriminate; eauto. Qed.

Lemma get_Ok {A} (l : list A) i a : get l i = Ok a <-> nth_error l i = Some a.
Proof. unfold get. destruct (nth_error l i); split; intros H; congruence. Qed.

Lemma get_some {A} {l : list A} {i : nat} {a : A} : nth_error l i = Some a -> get l i = Ok a.
Proof. apply get_Ok. Qed.

Lemma get_lt {A} (l : list A) i : i < length l -> exists a, get l i = Ok a.
Proof.
  intros H. unfold get. destruct (nth_error l i) eqn:E; eauto.
  apply nth_error_None in E. lia.
Qed.

Lemma nth_error_lt {A} (l : list A) i : i < length l -> exists a, nth_error l i = Some a.
Proof.
  intros H. destruct (nth_error l i) eqn:E; eauto.
  apply nth_error_None in E. lia.
Qed.

Lemma nth_error_Some_lt {A} (l : list A) i a : nth_error l i = Some a -> i < length l.
Proof. intros H. apply nth_error_Some. congruence. Qed.

Lemma upd_length {A} (l : list A) i a : length (upd l i a) = length l.
Proof. revert i; induction l as [|h t IH]; destruct i; simpl; auto. Qed.

Lemma upd_nth {A} (l : list A) i a k :
  nth_error (upd l i a) k =
  if (k =? i) && (i <? length l) then Some a else nth_error l k.
Proof.
  revert i k; induction l as [|h t IH]; intros i k.
  - destruct i, k; simpl; rewrite ?andb_false_r; reflexivity.
  - destruct i as [|i], k as [|k]; simpl; auto.
    rewrite IH. reflexivity.
Qed.

Lemma upd_nth_same {A} (l : list A) i a :
  i < length l -> nth_error (upd l i a) i = Some a.
Proof. intros H. rewrite upd_nth, Nat.eqb_refl. apply Nat.ltb_lt in H. now rewrite H. Qed.

Lemma upd_nth_other {A} (l : list A) i a k :
  k <> i -> nth_error (upd l i a) k = nth_error l k.
Proof. intros H. rewrite upd_nth. apply Nat.eqb_neq in H. now rewrite H. Qed.

Lemma set_Ok {A} (l : list A) i a : i < length l -> set l i a = Ok (upd l i a).
Proof. intros H. unfold set. apply Nat.ltb_lt in H. now rewrite H. Qed.

Lemma list_ext {A} (l l' : list A) :
  (forall k, nth_error l k = nth_error l' k) -> l = l'.
Proof.
  revert l'; induction l as [|h t IH]; destruct l' as [|h' t']; intros H; auto.
  - specialize (H 0); discriminate.
  - specialize (H 0); discriminate.
  - f_equal. { specialize (H 0); simpl in H; congruence. }
    apply IH. intros k. exact (H (S k)).
Qed.

Lemma map_upd {A B} (f : A -> B) l i a : map f (upd l i a) = upd (map f l) i (f a).
Proof. revert i; induction l; destruct i; simpl; auto. now rewrite IHl. Qed.

(** What a swap does, position by position. *)
Definition swapped {A} (l : list A) i j : list A :=
  match nth_error l i, nth_error l j with
  | Some a, Some b => upd (upd l i b) j a
  | _, _ => l
  end.

Lemma swapped_length {A} (l : list A) i j : length (swapped l i j) = length l.
Proof.
  unfold swapped. destruct (nth_error l i), (nth_error l j); auto.
  now rewrite !upd_length.
Qed.

Lemma swapped_nth {A} (l : list A) i j k :
  i < length l -> j < length l ->
  nth_error (swapped l i j) k =
  if k =? j then nth_error l i else if k =? i then nth_error l j else nth_error l k.
Proof.
  intros Hi Hj. unfold swapped.
  destruct (nth_error_lt l Hi) as [a Ha], (nth_error_lt l Hj) as [b Hb].
  rewrite Ha, Hb. rewrite !upd_nth, upd_length.
  assert (E1 : (j <? length l) = true) by (apply Nat.ltb_lt; lia).
  assert (E2 : (i <? length l) = true) by (apply Nat.ltb_lt; lia).
  rewrite E1, E2, !andb_true_r. reflexivity.
Qed.

Lemma aswap_Ok {A} (l : list A) i j :
  i < length l -> j < length l -> aswap l i j = Ok (swapped l i j).
Proof.
  intros Hi Hj. unfold aswap, swapped.
  destruct (nth_error_lt l Hi) as [a Ha], (nth_error_lt l Hj) as [b Hb].
  unfold get. rewrite Ha, Hb. simpl.
  rewrite set_Ok by assumption. simpl.
  rewrite set_Ok by (rewrite upd_length; assumption). reflexivity.
Qed.

Lemma map_nth_error' {A B} (f : A -> B) l k :
  nth_error (map f l) k = option_map f (nth_error l k).
Proof. revert k; induction l; destruct k; simpl; auto. Qed.

Lemma swapped_map {A B} (f : A -> B) l i j :
  map f (swapped l i j) = swapped (map f l) i j.
Proof.
  unfold swapped. rewrite !map_nth_error'.
  destruct (nth_error l i), (nth_error l j); simpl; auto.
  now rewrite !map_upd.
Qed.

Lemma upd_split {A} (l : list A) i a x :
  nth_error l i = Some x -> exists l1 l2, l = l1 ++ x :: l2 /\ upd l i a = l1 ++ a :: l2 /\ length l1 = i.
Proof.
  revert i; induction l as [|h t IH]; destruct i; simpl; intros H; try discriminate.
  - inversion H; subst. exists [], t. auto.
  - destruct (IH _ H) as (l1 & l2 & -> & Hu & Hl). exists (h :: l1), l2.
    simpl. rewrite Hu. auto.
Qed.

Lemma swapped_perm {A} (l : list A) i j : Permutation l (swapped l i j).
Proof.
  unfold swapped.
  destruct (nth_error l i) as [a|] eqn:Ha; [|reflexivity].
  destruct (nth_error l j) as [b|] eqn:Hb; [|reflexivity].
  destruct (upd_split l i b Ha) as (l1 & l2 & -> & Hu & Hl).
  rewrite Hu.
  destruct (Nat.eq_dec i j) as [<-|Hij].
  - rewrite Ha in Hb. inversion Hb; subst b. rewrite Hu. reflexivity.
  - assert (Hj' : nth_error (l1 ++ b :: l2) j = Some b).
    { rewrite <- Hu, upd_nth_other by lia. exact Hb. }
    destruct (upd_split (l1 ++ b :: l2) j a Hj') as (m1 & m2 & E & Hu2 & Hm).
    rewrite Hu2.
    (* b occurs at position i and at position j *)
    destruct (lt_dec i j) as [Hlt|Hge].
    + (* l2 = n1 ++ b :: n2 *)
      assert (exists n1 n2, l2 = n1 ++ b :: n2 /\ m1 = l1 ++ b :: n1 /\ m2 = n2) as (n1 & n2 & -> & -> & ->).
      { rewrite nth_error_app2 in Hj' by lia.
        destruct (j - length l1) as [|d] eqn:Ed; [lia|]. simpl in Hj'.
        destruct (upd_split l2 d b Hj') as (n1 & n2 & -> & _ & Hn).
        exists n1, n2. split; auto.
        replace (l1 ++ b :: n1 ++ b :: n2) with ((l1 ++ b :: n1) ++ b :: n2) in E
          by (rewrite <- app_assoc; reflexivity).
        assert (length (l1 ++ b :: n1) = length m1) by (rewrite app_length; simpl; lia).
        clear - E H. revert m1 H E. generalize (l1 ++ b :: n1) as q.
        induction q as [|h q IH]; destruct m1; simpl; intros; try lia.
        - inversion E; auto.
        - inversion E; subst. destruct (IH m1) as [-> ->]; auto. }
      rewrite <- app_assoc. simpl.
      apply Permutation_app_head.
      transitivity (a :: b :: n1 ++ n2).
      { constructor. symmetry. apply Permutation_middle. }
      rewrite perm_swap. constructor. apply Permutation_middle.
    + assert (exists n1 n2, l1 = n1 ++ b :: n2 /\ m1 = n1 /\ m2 = n2 ++ b :: l2) as (n1 & n2 & -> & -> & ->).
      { rewrite nth_error_app1 in Hj' by lia.
        destruct (upd_split l1 j b Hj') as (n1 & n2 & -> & _ & Hn).
        exists n1, n2. split; auto.
        rewrite <- app_assoc in E. simpl in E.
        assert (length n1 = length m1) by lia.
        clear - E H. revert m1 H E. induction n1 as [|h q IH]; destruct m1; simpl; intros; try lia.
        - inversion E; auto.
        - inversion E; subst. destruct (IH m1) as [-> ->]; auto. }
      rewrite <- !app_assoc. simpl. apply Permutation_app_head.
      transitivity (b :: a :: n2 ++ l2).
      { constructor. symmetry. apply Permutation_middle. }
      rewrite perm_swap. constructor. apply Permutation_middle.
Qed.

Lemma for_res_inv {St} (P : nat -> St -> Prop) n lo body s :
  P lo s ->
  (forall k st, lo <= k < lo + n -> P k st -> exists st', body k st = Ok st' /\ P (S k) st') ->
  exists s', for_res n lo body s = Ok s' /\ P (lo + n) s'.
Proof.
  revert lo s; induction n as [|n IH]; intros lo s H0 Hstep; simpl.
  - exists s. rewrite Nat.add_0_r. auto.
  - destruct (Hstep lo s) as (s1 & E1 & H1); [lia|assumption|].
    rewrite E1. simpl. destruct (IH (S lo) s1) as (s' & E & H).
    + assumption.
    + intros k st Hk HP. apply Hstep; [lia|assumption].
    + exists s'. split; auto. now replace (lo + S n) with (S lo + n) by lia.
Qed.
