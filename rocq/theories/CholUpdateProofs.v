(** Adding a row to a Cholesky factorization, in exact arithmetic. *)
From Coq Require Import Reals Lra.
From Verif Require Import Base Num Vec Sparse SparseSpec SparseProofs SparseDotProofs SparseCholProofs CholUpdate.
Local Open Scope R_scope.

Section Fold.
  Context {F : Type} `{NF : Num F}.
  Fixpoint fold_entries {St} (l : list (nat * F)) (f : nat -> F -> St -> res St) (s : St) : res St :=
    match l with [] => Ok s | (k, x) :: t => s' <- f k x s ;; fold_entries t f s' end.
  Lemma each_fold {St} (f : nat -> F -> St -> res St) cap m ji jv lb : forall la s,
    each_entry (length lb) (length la) (cap :: m :: map fst (la ++ lb) ++ ji) (map snd (la ++ lb) ++ jv) f s = fold_entries lb f s.
  Proof.
    induction lb as [|[k x] t IH]; intros la s; cbn [length each_entry fold_entries]; auto.
    assert (G1 : get (cap :: m :: map fst (la ++ (k, x) :: t) ++ ji) (2 + length la) = Ok k).
    { rewrite arr_key. rewrite Nat.add_comm, <- (len_key cap m la). apply get_app. }
    assert (G2 : get (map snd (la ++ (k, x) :: t) ++ jv) (length la) = Ok x).
    { rewrite arr_val. rewrite <- (map_length snd la). apply get_app. }
    rewrite G1. cbn [bind]. rewrite G2. cbn [bind]. destruct (f k x s) as [s'| |]; auto. cbn [bind].
    specialize (IH (la ++ [(k, x)]) s'). rewrite <- app_assoc, app_length in IH. cbn [length app] in IH. rewrite Nat.add_1_r in IH. exact IH.
  Qed.
  Lemma over_fold {St} (f : nat -> F -> St -> res St) P v l s : repP P v l -> v <> None -> over v f s = fold_entries l f s.
  Proof.
    intros (_ & _ & R) N. destruct v as [[ix vx]|]; [|congruence]. destruct R as (cap & ji & jv & -> & -> & _).
    unfold over. cbn [get nth_error bind]. exact (each_fold f cap (length l) ji jv l [] s).
  Qed.
  Lemma over_if_fold {St} (f : nat -> F -> St -> res St) P v l s : repP P v l -> over_if v f s = fold_entries l f s.
  Proof.
    intros R. destruct v as [p|]; [apply (over_fold f s R); discriminate|]. destruct R as (_ & _ & ->). reflexivity.
  Qed.
  Lemma fold_inv {St} (f : nat -> F -> St -> res St) (Q : list (nat * F) -> St -> Prop) l s : Q [] s ->
    (forall la k x lb st, l = la ++ (k, x) :: lb -> Q la st -> exists st', f k x st = Ok st' /\ Q (la ++ [(k, x)]) st') ->
    exists st, fold_entries l f s = Ok st /\ Q l st.
  Proof.
    intros Q0 Hs.
    assert (G : forall lb la st, l = la ++ lb -> Q la st -> exists st', fold_entries lb f st = Ok st' /\ Q l st').
    { induction lb as [|[k x] t IH]; intros la st El Hq.
      - rewrite app_nil_r in El. subst la. exists st. auto.
      - destruct (Hs la k x t st El Hq) as (st1 & E1 & Hq1). cbn [fold_entries]. rewrite E1. cbn [bind].
        apply (IH (la ++ [(k, x)]) st1); auto. rewrite <- app_assoc. exact El. }
    apply (G l [] s); auto.
  Qed.
End Fold.

Lemma lval_sum (l : list (nat * R)) n (g : nat -> R -> R) : StronglySorted lt (map fst l) -> (forall k, In k (map fst l) -> (k < n)%nat) ->
  (forall k, g k 0 = 0) -> fold_right (fun e acc => g (fst e) (snd e) + acc) 0 l = sumn n (fun k => g k (lval l k)).
Proof.
  intros S0 B Z. induction l as [|[r x] t IH].
  - cbn. rewrite (@sumn_ext n _ (fun _ => 0)), sumn_zero by (intros; apply Z). reflexivity.
  - cbn [fold_right fst snd]. cbn [map fst] in S0. inversion S0 as [|? ? S1 F1]; subst. rewrite IH; auto; [|intros k Hk; apply B; right; auto].
    assert (E : g r x = sumn n (fun k => if Nat.eqb r (0 + k) then g r x else 0)).
    { rewrite sumn_single. pose proof (B r ltac:(left; reflexivity)). destruct (Nat.leb 0 r && Nat.ltb r (0 + n)) eqn:E; [auto|lia]. }
    rewrite E, <- sumn_plus. apply sumn_ext. intros k Hk. rewrite lval_cons. cbn [Nat.add]. destruct (Nat.eqb r k) eqn:Ek; [|lra].
    apply Nat.eqb_eq in Ek. subst k. assert (lval t r = 0). { unfold lval. rewrite lookup_none; auto. intros K. rewrite Forall_forall in F1. specialize (F1 _ K). lia. }
    rewrite H, Z. lra.
Qed.
Lemma fold_left_add (f : nat -> R -> R -> res R) (h : nat * R -> R) l : forall d,
  (forall k x d, In (k, x) l -> f k x d = Ok (d + h (k, x))) ->
  fold_entries l f d = Ok (d + fold_right (fun e acc => h e + acc) 0 l).
Proof.
  induction l as [|[k x] t IH]; intros d Hf; cbn [fold_entries fold_right].
  - f_equal. lra.
  - rewrite Hf by (left; auto). cbn [bind]. rewrite IH by (intros; apply Hf; right; auto). f_equal. lra.
Qed.

Lemma keys_lt (v : @svec R) l n : rep v l -> (forall j, (n <= j)%nat -> lval l j = 0) -> forall k, In k (map fst l) -> (k < n)%nat.
Proof.
  intros (_ & NZ & _) Z k Hk. destruct (le_lt_dec n k) as [Hn|]; auto. exfalso. apply lookup_in in Hk as (x & Hx). specialize (Z k Hn). unfold lval in Z. rewrite Hx in Z. subst x.
  apply lookup_some_in in Hx. rewrite Forall_forall in NZ. specialize (NZ _ Hx). cbn [snd] in NZ.
  assert (D : dropped (0 : R) = true) by (apply dropped_iff; rewrite Rabs_R0; lra). rewrite D in NZ. discriminate.
Qed.
(** A vector that may be null. *)
Lemma set_entry_any (v : @svec R) row val : well_formed v ->
  exists v', set_entry row val v = Ok v' /\ well_formed v' /\ (v <> None \/ dropped val = false -> v' <> None) /\
    forall r, entry v' r = if Nat.eqb row r then drop val else entry v r.
Proof.
  intros W. destruct (wf_rep _ W) as [l Rl].
  destruct (set_entry_ok row val Rl) as (v' & l' & E & R' & U & Z).
  exists v'. split; auto. split; [eapply rep_wf; eauto|]. split.
  - intros [N|N] K; apply Z in K; destruct K as (K & T); [congruence|]. change (tiny val) with (dropped val) in T. congruence.
  - intros r. rewrite (entry_lval _ R'), (entry_lval _ Rl). unfold lval. rewrite U.
    destruct (Nat.eqb row r); auto. unfold drop. change (tiny val) with (dropped val). destruct (dropped val); reflexivity.
Qed.
Lemma drop0 : drop 0 = 0.
Proof. unfold drop. destruct (dropped 0); auto. Qed.
Lemma drop_entry (v : @svec R) r : well_formed v -> drop (entry v r) = entry v r.
Proof. intros W. destruct (@wf_entry v r W) as [->|D]; [apply drop0|]. unfold drop. now rewrite D. Qed.

(** Rows that may be null. *)
Definition rows_wf (n : nat) (A : @smat R) : Prop := length A = n /\ forall i v, nth_error A i = Some v -> well_formed v.
Definition full (A : @smat R) (i : nat) : Prop := exists v, nth_error A i = Some v /\ v <> None.
Lemma mset_ok n A i c val : rows_wf n A -> (i < n)%nat ->
  exists A', mset A i c val = Ok A' /\ rows_wf n A' /\
    (forall r d, mentry A' r d = if Nat.eqb r i && Nat.eqb d c then drop val else mentry A r d) /\
    (forall j, full A j -> full A' j) /\ (dropped val = false -> full A' i).
Proof.
  intros [L W] Hi. destruct (@nth_error_lt _ A i) as [v Hv]; [lia|]. unfold mset. rewrite (get_some Hv). cbn [bind].
  destruct (@set_entry_any v c val (W _ _ Hv)) as (v' & E & W' & N' & U). rewrite E. cbn [bind]. rewrite set_Ok by lia.
  exists (upd A i v'). split; auto. split; [|split; [|split]].
  - split; [now rewrite upd_length|]. intros r w. rewrite upd_nth. destruct ((r =? i) && (i <? length A)); [intros K; inversion K; subst; auto|apply W].
  - intros r d. unfold mentry. rewrite upd_nth. destruct (Nat.eqb r i) eqn:E1; cbn [andb]; auto.
    assert (E2 : (i <? length A)%nat = true) by (apply Nat.ltb_lt; lia). rewrite E2. apply Nat.eqb_eq in E1. subst r. rewrite Hv, U, (Nat.eqb_sym c d). auto.
  - intros j (w & Hw & Nw). unfold full. rewrite upd_nth. destruct ((j =? i) && (i <? length A)) eqn:E1; [|exists w; auto].
    assert (j = i) by lia. subst j. exists v'. split; auto. apply N'. left. congruence.
  - intros Dv. unfold full. rewrite upd_nth. assert (E1 : ((i =? i) && (i <? length A))%nat = true) by (rewrite Nat.eqb_refl; apply Nat.ltb_lt; lia).
    rewrite E1. exists v'. auto.
Qed.
Lemma rows_ok n A : rows_wf n A -> (forall i, (i < n)%nat -> full A i) -> matrix_ok n A.
Proof.
  intros [L W] Fu. split; auto. intros i v Hv. split; [|eauto]. assert (Hi : (i < n)%nat) by (rewrite <- L; apply nth_error_Some; congruence).
  destruct (Fu i Hi) as (w & Hw & Nw). congruence.
Qed.
Lemma ok_rows n A : matrix_ok n A -> rows_wf n A /\ forall i, (i < n)%nat -> full A i.
Proof.
  intros [L W]. split; [split; auto; intros i v Hv; apply (W i v Hv)|]. intros i Hi. destruct (@nth_error_lt _ A i) as [v Hv]; [lia|]. exists v. split; auto. apply (W i v Hv).
Qed.

(** Solving for the new row. *)
Section AddRow.
  Variables (n : nat) (C : @smat R) (a : @svec R).
  Hypothesis M : matrix_ok n C.
  Hypothesis Wa : well_formed a.
  Hypothesis Na : a <> None.

  Definition solved (i : nat) (s : nat -> R) : Prop :=
    (forall j, (i <= j)%nat -> s j = 0) /\
    forall j, (j < i)%nat -> s j = drop ((entry a j - sumn j (fun k => mentry C j k * s k)) / mentry C j j).

  Lemma add_steps : exists s l, for_res n 0 (add_step C a) None = Ok s /\ rep s l /\ solved n (lval l).
  Proof.
    destruct (@for_res_inv _ (fun i s => exists l, rep s l /\ solved i (lval l)) n 0 (add_step C a) None) as (s & E & l & Rl & Sl).
    - exists []. split; [repeat split; constructor|]. split; [reflexivity|]. intros; lia.
    - intros i s Hi (l & Rl & Z & Sv). unfold add_step. assert (Hin : (i < n)%nat) by lia.
      destruct (row_get M Hin) as (v & Ev & Wv & Nv & Mv). rewrite Ev. cbn [bind].
      pose proof (keys_lt Rl Z) as Keys.
      rewrite (over_if_fold _ _ Rl).
      rewrite (@fold_left_add _ (fun e => mentry C i (fst e) * snd e)).
      2:{ intros k x d Hin'. assert (Hk : (k < i)%nat) by (apply Keys; apply in_map_iff; exists (k, x); auto). destruct (Nat.ltb k i) eqn:E; [|lia].
          rewrite get_entry_R by auto. cbn [bind]. rewrite <- Mv. reflexivity. }
      cbn [bind]. rewrite get_entry_R by auto. cbn [bind]. rewrite get_entry_R by auto. cbn [bind].
      destruct Rl as (S0 & Rl') eqn:ER. rewrite (@lval_sum l i (fun k x => mentry C i k * x)); auto; [|intros; lra]. clear ER.
      match goal with |- context [set_entry i ?val s] => set (q := val) end.
      destruct (@set_entry_ok _ _ s l i q) as (s' & l' & E & R' & U & _); [split; auto|]. exists s'. split; auto. exists l'. split; auto.
      assert (UV : forall r, lval l' r = if Nat.eqb i r then drop q else lval l r).
      { intros r. unfold lval. rewrite U. destruct (Nat.eqb i r); auto. unfold drop. change (tiny q) with (dropped q). destruct (dropped q); auto. }
      assert (ext : forall j, (j <= i)%nat -> sumn j (fun k => mentry C j k * lval l' k) = sumn j (fun k => mentry C j k * lval l k)).
      { intros j Hj. apply sumn_ext. intros k Hk. rewrite UV. destruct (Nat.eqb i k) eqn:Ek; [lia|auto]. }
      split.
      + intros j Hj. rewrite UV. destruct (Nat.eqb i j) eqn:Ej; [lia|]. apply Z. lia.
      + intros j Hj. rewrite ext by lia. rewrite UV. destruct (Nat.eqb i j) eqn:Ej.
        * apply Nat.eqb_eq in Ej. subst j. f_equal. unfold q. rewrite <- Mv. change (nsub ?u ?v) with (u - v). change (ndiv ?u ?v) with (u / v).
          change (@n0 R _) with 0. rewrite Rplus_0_l. reflexivity.
        * apply Nat.eqb_neq in Ej. apply Sv. lia.
    - exists s, l. auto.
  Qed.
  (** The new matrix: the old one, bordered. *)
  Lemma add_row_ok : (forall i j, (n <= j)%nat -> mentry C i j = 0) -> exists s, solved n s /\
    ((add_row n C a = Ok None /\ entry a n - sumn n (fun k => s k * s k) < 1 / 10 ^ 10) \/
     (1 / 10 ^ 10 <= entry a n - sumn n (fun k => s k * s k) /\
      exists C', add_row n C a = Ok (Some C') /\ matrix_ok (S n) C' /\
       forall r c, (r <= n)%nat -> mentry C' r c =
         if Nat.eqb r n then (if Nat.eqb c n then sqrt (entry a n - sumn n (fun k => s k * s k)) else s c)
         else if Nat.eqb c n then s r else mentry C r c)).
  Proof.
    intros Hnar. destruct add_steps as (sv & l & Es & Rl & Sl). exists (lval l). split; auto. unfold add_row. rewrite Es. cbn [bind].
    pose proof Rl as (S0 & NZ & _). destruct Sl as (Z & Sv).
    pose proof (keys_lt Rl Z) as Keys.
    rewrite (over_if_fold _ _ Rl). rewrite (@fold_left_add _ (fun e => snd e * snd e)) by reflexivity. cbn [bind].
    rewrite (@lval_sum l n (fun k x => x * x)); auto; [|intros; lra].
    rewrite get_entry_R by auto. cbn [bind]. rewrite nlit10.
    change (@n0 R _) with 0. rewrite Rplus_0_l. change (nsub ?u ?v) with (u - v). change (nsqrt ?u) with (sqrt u).
    set (p := entry a n - sumn n (fun k => lval l k * lval l k)).
    change (nltb p (1 / 10 ^ 10)) with (Rltb p (1 / 10 ^ 10)). unfold Rltb. destruct (Rlt_dec p (1 / 10 ^ 10)) as [Hp|Hp]; [left; auto|]. right. split; [lra|].
    destruct (ok_rows M) as ((Lc & Wc) & Fc).
    assert (E0 : firstn n C = C) by (rewrite <- Lc; apply firstn_all). rewrite E0.
    assert (W0 : rows_wf (S n) (C ++ [None])).
    { split; [rewrite app_length, Lc; cbn; lia|]. intros i v. destruct (lt_dec i n).
      - rewrite nth_error_app1 by lia. apply Wc.
      - rewrite nth_error_app2 by lia. destruct (i - length C)%nat as [|k]; cbn; [intros K; inversion K; exact Logic.I|destruct k; discriminate]. }
    assert (V0 : forall r c, (r <= n)%nat -> mentry (C ++ [None]) r c = if Nat.eqb r n then 0 else mentry C r c).
    { intros r c Hr. unfold mentry. destruct (Nat.eqb r n) eqn:E.
      - apply Nat.eqb_eq in E. subst r. rewrite nth_error_app2 by lia. rewrite Lc, Nat.sub_diag. reflexivity.
      - apply Nat.eqb_neq in E. rewrite nth_error_app1 by lia. reflexivity. }
    rewrite (over_if_fold _ _ Rl).
    match goal with |- context [fold_entries l ?f _] => set (step := f) end.
    destruct (@fold_inv _ _ step (fun la T => rows_wf (S n) T /\ (forall i, (i < n)%nat -> full T i) /\
        forall r c, (r <= n)%nat -> mentry T r c = if Nat.eqb r n then (if Nat.eqb c n then 0 else lval la c) else if Nat.eqb c n then lval la r else mentry C r c)
        l (C ++ [None])) as (T & ET & WT & FT & VT).
    { split; auto. split.
      - intros i Hi. destruct (Fc i Hi) as (v & Hv & Nv). exists v. split; auto. rewrite nth_error_app1 by lia. auto.
      - intros r c Hr. rewrite V0 by auto. destruct (Nat.eqb r n) eqn:E; [destruct (Nat.eqb c n); reflexivity|].
        destruct (Nat.eqb c n) eqn:E2; [|auto]. apply Nat.eqb_eq in E2. subst c. rewrite Hnar by lia. reflexivity. }
    { intros la k x lb T El (WT & FT & VT).
      assert (Dx : dropped x = false). { rewrite El in NZ. apply Forall_app in NZ as [_ N2]. inversion N2; subst; auto. }
      assert (Hk : (k < n)%nat). { apply Keys. rewrite El, map_app. apply in_or_app. right. left. reflexivity. }
      assert (Kl : lookup la k = None). { rewrite El in S0. apply lookup_key in S0. tauto. }
      unfold step. destruct (@mset_ok (S n) T k n x WT ltac:(lia)) as (T1 & E1 & W1 & V1 & F1 & _). rewrite E1. cbn [bind].
      destruct (@mset_ok (S n) T1 n k x W1 ltac:(lia)) as (T2 & E2 & W2 & V2 & F2 & _). exists T2. split; auto. split; auto. split; [intros; auto|].
      intros r c Hr. rewrite V2, V1, VT by auto. unfold drop. rewrite Dx.
      assert (LV : forall j, lval (la ++ [(k, x)]) j = if Nat.eqb k j then x else lval la j).
      { intros j. unfold lval. rewrite lookup_app. cbn. destruct (Nat.eqb k j) eqn:E; [apply Nat.eqb_eq in E; subst j; now rewrite Kl|]. destruct (lookup la j); auto. }
      rewrite !LV, (Nat.eqb_sym k r), (Nat.eqb_sym k c).
      destruct (Nat.eqb r n) eqn:A1, (Nat.eqb c n) eqn:A2, (Nat.eqb r k) eqn:A3, (Nat.eqb c k) eqn:A4; cbn [andb]; auto; lia. }
    rewrite ET. cbn [bind].
    assert (P5 : 1 / 10 ^ 5 <= sqrt p) by (apply pivot_sqrt; lra).
    assert (Dq : dropped (sqrt p) = false). { destruct (dropped (sqrt p)) eqn:E; auto. apply dropped_iff in E. rewrite Rabs_pos_eq in E; lra. }
    destruct (@mset_ok (S n) T n n (sqrt p) WT ltac:(lia)) as (T2 & E2 & W2 & V2 & F2 & F3). rewrite E2. cbn [bind]. exists T2. split; auto. split.
    - apply rows_ok; auto. intros i Hi. destruct (Nat.eq_dec i n) as [->|]; auto. apply F2, FT. lia.
    - intros r c Hr. rewrite V2, VT by auto. unfold drop. rewrite Dq. destruct (Nat.eqb r n) eqn:A1, (Nat.eqb c n) eqn:A2; cbn [andb]; auto.
  Qed.
End AddRow.
