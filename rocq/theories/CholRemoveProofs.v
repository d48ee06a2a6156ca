(** Removing a row from a Cholesky factorization, in exact arithmetic. *)
From Coq Require Import Reals Lra Psatz.
From Verif Require Import Base Num Vec Sparse SparseSpec SparseProofs SparseDotProofs SparseCholProofs CholUpdate CholUpdateSpec CholUpdateProofs CholRankProofs.
Local Open Scope R_scope.

(** The loop over the entries of a row. *)
Lemma fold_row {St} (f : nat -> R -> St -> res St) (Q : (nat -> R) -> St -> Prop) l s :
  StronglySorted lt (map fst l) -> Forall (fun e => dropped (snd e) = false) l ->
  (forall g g' st, (forall j, g j = g' j) -> Q g st -> Q g' st) -> Q (fun _ => 0) s ->
  (forall g k x st, dropped x = false -> x = lval l k -> In k (map fst l) -> g k = 0 -> (forall j, g j = 0 \/ g j = lval l j) -> Q g st ->
     exists st', f k x st = Ok st' /\ Q (fun j => if Nat.eqb k j then x else g j) st') ->
  exists st, fold_entries l f s = Ok st /\ Q (lval l) st.
Proof.
  intros S0 NZ Ext Q0 Hs.
  destruct (@fold_inv R _ f (fun la st => Q (lval la) st /\ forall j, lval la j = 0 \/ lval la j = lval l j) l s) as (st & E & Hq & _).
  - split; [exact Q0|]. intros j. left. reflexivity.
  - intros la k x lb st El (Hq & Hg). pose proof S0 as S1. rewrite El in S1. apply lookup_key in S1 as (Ka & Kl).
    assert (Xk : x = lval l k) by (unfold lval; rewrite El, lookup_app, Ka; now rewrite lookup_head).
    assert (Dx : dropped x = false). { rewrite El in NZ. apply Forall_app in NZ as [_ N2]. inversion N2; subst; auto. }
    assert (Ik : In k (map fst l)) by (rewrite El, map_app, in_app_iff; right; left; auto).
    assert (G0 : lval la k = 0) by (unfold lval; now rewrite Ka).
    destruct (Hs (lval la) k x st Dx Xk Ik G0 Hg Hq) as (st' & E' & Hq'). exists st'. split; auto.
    assert (LV : forall j, (if Nat.eqb k j then x else lval la j) = lval (la ++ [(k, x)]) j).
    { intros j. unfold lval. rewrite lookup_app. cbn. destruct (Nat.eqb k j) eqn:Ej; [apply Nat.eqb_eq in Ej; subst j; now rewrite Ka|]. destruct (lookup la j); auto. }
    split; [apply (Ext _ _ _ LV Hq')|]. intros j. rewrite <- LV. destruct (Nat.eqb k j) eqn:Ej; auto. apply Nat.eqb_eq in Ej. subst j. auto.
  - exists st. auto.
Qed.
Lemma over_row {St} (f : nat -> R -> St -> res St) (Q : (nat -> R) -> St -> Prop) v s : well_formed v -> v <> None ->
  (forall g g' st, (forall j, g j = g' j) -> Q g st -> Q g' st) -> Q (fun _ => 0) s ->
  (forall g k x st, dropped x = false -> x = entry v k -> x <> 0 -> g k = 0 -> (forall j, g j = 0 \/ g j = entry v j) -> Q g st ->
     exists st', f k x st = Ok st' /\ Q (fun j => if Nat.eqb k j then x else g j) st') ->
  exists st, over v f s = Ok st /\ Q (entry v) st.
Proof.
  intros W N Ext Q0 Hs. destruct (wf_rep _ W) as [l Rl]. rewrite (over_fold f s Rl N).
  assert (EV : forall j, entry v j = lval l j) by (intros j; apply (entry_lval j Rl)).
  destruct (@fold_row St f Q l s) as (st & E & Hq); [apply Rl|apply Rl|auto|auto| |exists st; split; auto; apply (Ext _ _ _ (fun j => eq_sym (EV j)) Hq)].
  intros g k x st Dx Xk _ Gk Gj Hq. apply Hs; auto; [rewrite EV; auto| |intros j; rewrite EV; auto].
  intros ->. assert (D0 : dropped (0 : R) = true) by (apply dropped_iff; rewrite Rabs_R0; lra). rewrite D0 in Dx. discriminate.
Qed.
Lemma over_if_row {St} (f : nat -> R -> St -> res St) (Q : (nat -> R) -> St -> Prop) v s : well_formed v ->
  (forall g g' st, (forall j, g j = g' j) -> Q g st -> Q g' st) -> Q (fun _ => 0) s ->
  (forall g k x st, dropped x = false -> x = entry v k -> x <> 0 -> g k = 0 -> (forall j, g j = 0 \/ g j = entry v j) -> Q g st ->
     exists st', f k x st = Ok st' /\ Q (fun j => if Nat.eqb k j then x else g j) st') ->
  exists st, over_if v f s = Ok st /\ Q (entry v) st.
Proof.
  intros W Ext Q0 Hs. destruct v as [p|]; [apply over_row; auto; discriminate|]. exists s. split; auto.
Qed.
Lemma drop_keep x : dropped x = false -> drop x = x.
Proof. intros H. unfold drop. now rewrite H. Qed.

(** Rows that may be null, with the capacity new rows get. *)
Definition caps (A : @smat R) : Prop := forall i v, nth_error A i = Some v -> (10 <= capof v)%nat.
Lemma mset_caps n A i c val A' : rows_wf n A -> caps A -> mset A i c val = Ok A' -> caps A'.
Proof.
  intros [L W] K E. unfold mset in E. apply bind_Ok_inv in E as (v & Ev & E). apply bind_Ok_inv in E as (v' & Es & E).
  assert (Hv : nth_error A i = Some v) by (unfold get in Ev; destruct (nth_error A i); inversion Ev; auto).
  destruct (wf_rep _ (W _ _ Hv)) as [l Rl]. destruct (@set_entry_okP R _ (fun x => dropped x = false) v l c val) as (v2 & l2 & E2 & _ & _ & _ & Cp); auto.
  rewrite Es in E2. inversion E2; subst v2. assert (Hi : (i < length A)%nat) by (apply nth_error_Some; congruence). rewrite set_Ok in E by auto. inversion E; subst A'.
  intros r w. rewrite upd_nth. destruct ((r =? i) && (i <? length A)); [|apply K]. intros X. inversion X; subst w. specialize (K _ _ Hv). lia.
Qed.
Lemma nulls_wf n : rows_wf n (repeat None n) /\ caps (repeat (@None (list nat * list R)) n) /\ forall r c, mentry (repeat None n) r c = 0.
Proof.
  assert (H : forall i v, nth_error (repeat (@None (list nat * list R)) n) i = Some v -> v = None) by (intros i v Hv; apply nth_error_In in Hv; apply repeat_spec in Hv; auto).
  split; [split; [apply repeat_length|]; intros i v Hv; rewrite (H i v Hv); exact Logic.I|]. split; [intros i v Hv; rewrite (H i v Hv); cbn; lia|].
  intros r c. unfold mentry. pose proof (H r) as Hr. unfold svec in *. destruct (nth_error _ r) as [v|]; auto. now rewrite (Hr v eq_refl).
Qed.
Lemma wf_full n A : rows_wf n A -> (forall r, (r < n)%nat -> exists c, mentry A r c <> 0) -> matrix_ok n A.
Proof.
  intros [L W] H. split; auto. intros i v Hv. split; [|eauto]. intros ->. assert (Hi : (i < n)%nat) by (rewrite <- L; apply nth_error_Some; congruence).
  destruct (H i Hi) as (c & Hc). unfold mentry in Hc. rewrite Hv in Hc. apply Hc. reflexivity.
Qed.

Section Remove.
  Variables (n d : nat) (C : @smat R).
  Hypothesis SF : stored_factor n C.
  Hypothesis Hd : (d < n)%nat.

  Lemma row_of r : (r < n)%nat -> exists v, get C r = Ok v /\ well_formed v /\ v <> None /\ forall c, mentry C r c = entry v c.
  Proof. intros Hr. exact (row_get (sf_ok SF) Hr). Qed.
  Lemma nz_col r c : (r < n)%nat -> mentry C r c <> 0 -> (c < n)%nat.
  Proof. intros Hr N. destruct (lt_dec c n); auto. exfalso. apply N. apply SF; lia. Qed.

  (** Building the list of rows one after the other. *)
  Lemma app_nth {A} (out : list A) x r : nth_error (out ++ [x]) r = if Nat.ltb r (length out) then nth_error out r else if Nat.eqb r (length out) then Some x else None.
  Proof.
    destruct (Nat.ltb r (length out)) eqn:E1; [apply nth_error_app1; lia|]. rewrite nth_error_app2 by lia.
    destruct (Nat.eqb r (length out)) eqn:E2; [apply Nat.eqb_eq in E2; subst r; now rewrite Nat.sub_diag|]. destruct (r - length out)%nat as [|[|q]] eqn:E3; auto; lia.
  Qed.
  Definition rows_are (m : nat) (out : @smat R) (g : nat -> nat -> R) : Prop := rows_wf m out /\ forall r c, (r < m)%nat -> mentry out r c = g r c.
  Lemma rows_snoc m out g v : rows_are m out g -> well_formed v -> (forall c, entry v c = g m c) -> rows_are (S m) (out ++ [v]) g.
  Proof.
    intros ((L & W) & E) Wv Ev. split.
    - split; [rewrite app_length; cbn; lia|]. intros i w. rewrite app_nth. destruct (Nat.ltb i (length out)); [apply W|]. destruct (Nat.eqb i (length out)); intros K; inversion K; subst; auto.
    - intros r c Hr. unfold mentry. rewrite app_nth. destruct (Nat.ltb r (length out)) eqn:E1; [apply E; lia|]. destruct (Nat.eqb r (length out)) eqn:E2; [|lia]. apply Nat.eqb_eq in E2. rewrite Ev. now rewrite E2, L.
  Qed.

  Lemma remove_last_ok : exists out, remove_last d C = Ok out /\ rows_are d out (fun r c => if Nat.ltb c d then mentry C r c else 0).
  Proof.
    unfold remove_last. apply for_res_inv with (P := fun m out => rows_are m out (fun r c => if Nat.ltb c d then mentry C r c else 0)).
    - split; [split; auto; intros [|i] v K; discriminate|intros; lia].
    - intros m out Hm Ho. destruct (@row_of m ltac:(lia)) as (v & Ev & Wv & Nv & Mv). rewrite Ev. cbn [bind].
      destruct (@over_row _ (fun col val w => if Nat.ltb col d then set_entry col val w else Ok w) (fun g w => well_formed w /\ forall c, entry w c = if Nat.ltb c d then g c else 0) v None Wv Nv) as (w & E & Ww & Ew).
      + intros g g' w H (Ww & Ew). split; auto. intros c. now rewrite Ew, H.
      + split; [exact Logic.I|]. intros c. cbn [entry]. now destruct (Nat.ltb c d).
      + intros g k x w Dx _ _ Gk _ (Ww & Ew). destruct (Nat.ltb k d) eqn:Ek.
        * destruct (@set_entry_any w k x Ww) as (w' & E & W' & _ & U). exists w'. split; auto. split; auto. intros c. rewrite U, (@drop_keep x Dx), Ew. destruct (Nat.eqb k c) eqn:E1; auto. apply Nat.eqb_eq in E1. subst c. now rewrite Ek.
        * exists w. split; auto. split; auto. intros c. rewrite Ew. destruct (Nat.eqb k c) eqn:E1; auto. apply Nat.eqb_eq in E1. subst c. now rewrite Ek.
      + rewrite E. cbn [bind]. eexists. split; auto. apply rows_snoc; auto. intros c. rewrite Ew. now rewrite Mv.
  Qed.

  Lemma split_rows_ok : exists S11 S13, split_rows d C = Ok (S11, S13) /\
    rows_are d S11 (fun r c => if Nat.ltb c d then mentry C r c else 0) /\ rows_are d S13 (fun r c => if Nat.ltb d c then mentry C r c else 0).
  Proof.
    unfold split_rows.
    destruct (@for_res_inv _ (fun m (o : @smat R * @smat R) => rows_are m (fst o) (fun r c => if Nat.ltb c d then mentry C r c else 0) /\ rows_are m (snd o) (fun r c => if Nat.ltb d c then mentry C r c else 0)) d 0
      (fun irow (out : @smat R * @smat R) =>
      'r <- get C irow ;;
      '(a, b) <- over r (fun col val (w : @svec R * @svec R) =>
          if Nat.ltb col d then 'a <- set_entry col val (fst w) ;; Ok (a, snd w)
          else if Nat.ltb d col then 'b <- set_entry col val (snd w) ;; Ok (fst w, b)
          else Ok w) (None, None) ;;
      Ok (fst out ++ [a], snd out ++ [b])) ([], [])) as ([a b] & E & Ha & Hb).
    - split; (split; [split; auto; intros [|i] v K; discriminate|intros; lia]).
    - intros m out Hm (Ha & Hb). destruct (@row_of m ltac:(lia)) as (v & Ev & Wv & Nv & Mv). rewrite Ev. cbn [bind].
      match goal with |- context [over v ?f _] => destruct (@over_row _ f (fun g w => (well_formed (fst w) /\ forall c, entry (fst w) c = if Nat.ltb c d then g c else 0) /\
          (well_formed (snd w) /\ forall c, entry (snd w) c = if Nat.ltb d c then g c else 0)) v (None, None) Wv Nv) as ([w1 w2] & E & (W1 & E1) & (W2 & E2)) end.
      + intros g g' w H ((W1 & E1) & (W2 & E2)). split; (split; auto; intros c; now rewrite ?E1, ?E2, H).
      + split; (split; [exact Logic.I|intros c; cbn [fst snd entry]; match goal with |- context [Nat.ltb ?a ?b] => now destruct (Nat.ltb a b) end]).
      + intros g k x [w1 w2] Dx _ _ Gk _ ((W1 & E1) & (W2 & E2)). cbn [fst snd] in *. destruct (Nat.ltb k d) eqn:Ek; [|destruct (Nat.ltb d k) eqn:Ek2].
        * destruct (@set_entry_any w1 k x W1) as (w' & E & W' & _ & U). rewrite E. cbn [bind]. eexists. split; auto. cbn [fst snd]. split; (split; auto); intros c.
          -- rewrite U, (@drop_keep x Dx), E1. destruct (Nat.eqb k c) eqn:E0; auto. apply Nat.eqb_eq in E0. subst c. now rewrite Ek.
          -- rewrite E2. destruct (Nat.eqb k c) eqn:E0; auto. apply Nat.eqb_eq in E0. subst c. destruct (Nat.ltb d k) eqn:X; [lia|auto].
        * destruct (@set_entry_any w2 k x W2) as (w' & E & W' & _ & U). rewrite E. cbn [bind]. eexists. split; auto. cbn [fst snd]. split; (split; auto); intros c.
          -- rewrite E1. destruct (Nat.eqb k c) eqn:E0; auto. apply Nat.eqb_eq in E0. subst c. now rewrite Ek.
          -- rewrite U, (@drop_keep x Dx), E2. destruct (Nat.eqb k c) eqn:E0; auto. apply Nat.eqb_eq in E0. subst c. now rewrite Ek2.
        * eexists. split; auto. cbn [fst snd]. split; (split; auto); intros c; [rewrite E1|rewrite E2]; destruct (Nat.eqb k c) eqn:E0; auto; apply Nat.eqb_eq in E0; subst c; now rewrite ?Ek, ?Ek2.
      + rewrite E. cbn [bind]. eexists. split; auto. cbn [fst snd] in *. split; apply rows_snoc; auto; intros c; now rewrite ?E1, ?E2, Mv.
    - exists a, b. auto.
  Qed.

  Lemma shifted_ok : exists s23, ('rd <- get C d ;; over rd (fun col val w => if Nat.ltb d col then set_entry (col - d - 1)%nat val w else Ok w) None) = Ok s23 /\
    well_formed s23 /\ forall j, entry s23 j = mentry C d (j + d + 1).
  Proof.
    destruct (@row_of d Hd) as (v & Ev & Wv & Nv & Mv). rewrite Ev. cbn [bind].
    match goal with |- context [over v ?f _] => destruct (@over_row _ f (fun g w => well_formed w /\ forall j, entry w j = g (j + d + 1)%nat) v None Wv Nv) as (w & E & Ww & Ew) end.
    - intros g g' w H (Ww & Ew). split; auto. intros c. now rewrite Ew, H.
    - split; [exact Logic.I|]. reflexivity.
    - intros g k x w Dx _ _ Gk _ (Ww & Ew). destruct (Nat.ltb d k) eqn:Ek.
      + destruct (@set_entry_any w (k - d - 1)%nat x Ww) as (w' & E & W' & _ & U). exists w'. split; auto. split; auto. intros c. rewrite U, (@drop_keep x Dx), Ew.
        destruct (Nat.eqb (k - d - 1) c) eqn:E1, (Nat.eqb k (c + d + 1)) eqn:E2; auto; lia.
      + exists w. split; auto. split; auto. intros c. rewrite Ew. destruct (Nat.eqb k (c + d + 1)) eqn:E2; [lia|auto].
    - exists w. split; auto. split; auto. intros j. now rewrite Ew, Mv.
  Qed.

  Definition N := (n - d - 1)%nat.
  Lemma trailing_ok : exists S33,
    for_res N (d + 1)%nat (fun irow T =>
               'r <- get C irow ;;
               over r (fun col val T =>
                 if Nat.ltb d col then 'T1 <- mset T (irow - d - 1)%nat (col - d - 1)%nat val ;; mset T1 (col - d - 1)%nat (irow - d - 1)%nat val
                 else Ok T) T) (repeat None N) = Ok S33 /\
    rows_wf N S33 /\ caps S33 /\ forall p q, (p < N)%nat -> mentry S33 p q = mentry C (p + d + 1) (q + d + 1).
  Proof.
    destruct (nulls_wf N) as (W0 & K0 & Z0).
    match goal with |- context [for_res N _ ?f _] => destruct (@for_res_inv _ (fun m T => (d + 1 <= m)%nat -> rows_wf N T /\ caps T /\
        forall p q, (p < N)%nat -> mentry T p q = if Nat.ltb p (m - d - 1) || Nat.ltb q (m - d - 1) then mentry C (p + d + 1) (q + d + 1) else 0) N (d + 1)%nat f (repeat None N)) as (T & E & H) end.
    - intros _. split; auto. split; auto. intros p q Hp. rewrite Z0. destruct (Nat.ltb p (d + 1 - d - 1) || Nat.ltb q (d + 1 - d - 1)) eqn:X; [lia|auto].
    - intros m T Hm I. destruct (I ltac:(lia)) as (WT & KT & VT). clear I. unfold N in Hm. destruct (@row_of m ltac:(lia)) as (v & Ev & Wv & Nv & Mv). rewrite Ev. cbn [bind].
      set (mm := (m - d - 1)%nat) in *. assert (Em : m = (mm + d + 1)%nat) by lia. assert (Hmm : (mm < N)%nat) by (unfold N; lia).
      match goal with |- context [over v ?f _] => destruct (@over_row _ f (fun g T => rows_wf N T /\ caps T /\
         forall p q, (p < N)%nat -> mentry T p q = if Nat.ltb p mm || Nat.ltb q mm then mentry C (p + d + 1) (q + d + 1) else if Nat.eqb p mm then g (q + d + 1)%nat else if Nat.eqb q mm then g (p + d + 1)%nat else 0) v T Wv Nv) as (T' & E & W' & K' & V') end.
      + intros g g' w H (W1 & K1 & V1). split; auto. split; auto. intros p q Hp. now rewrite V1, !H.
      + split; auto. split; auto. intros p q Hp. rewrite VT by auto. destruct (Nat.ltb p mm || Nat.ltb q mm); auto. destruct (Nat.eqb p mm); auto. destruct (Nat.eqb q mm); auto.
      + intros g k x T1 Dx Xk Nx Gk Gj (W1 & K1 & V1). rewrite <- Mv in Xk. destruct (Nat.ltb d k) eqn:Ek.
        * assert (Hk : (k < n)%nat) by (apply (@nz_col m); [lia|now rewrite <- Xk]).
          set (kk := (k - d - 1)%nat). assert (Ekk : k = (kk + d + 1)%nat) by lia. assert (Hkk : (kk < N)%nat) by (unfold N; lia).
          destruct (@mset_ok N T1 mm kk x W1 Hmm) as (T2 & E2 & W2 & V2 & _). rewrite E2. cbn [bind].
          destruct (@mset_ok N T2 kk mm x W2 Hkk) as (T3 & E3 & W3 & V3 & _). exists T3. split; auto. split; auto. split; [refine (@mset_caps N T2 _ _ _ _ W2 _ E3); exact (@mset_caps N T1 _ _ _ _ W1 K1 E2)|].
          assert (Xs : x = mentry C k m) by (rewrite Xk; apply SF; lia).
          intros p q Hp. rewrite V3, V2, V1, (@drop_keep x Dx) by auto.
          destruct (Nat.eqb p kk && Nat.eqb q mm) eqn:A1.
          { apply andb_true_iff in A1 as [A1 A2]. apply Nat.eqb_eq in A1, A2. rewrite A1, A2. rewrite <- Ekk, <- Em. rewrite Xs. destruct (Nat.ltb kk mm || Nat.ltb mm mm) eqn:A3; auto.
            rewrite !Nat.eqb_refl. destruct (Nat.eqb kk mm) eqn:A4; [|reflexivity]. apply Nat.eqb_eq in A4. assert (Emk : m = k) by lia. rewrite Emk, Nat.eqb_refl. reflexivity. }
          destruct (Nat.eqb p mm && Nat.eqb q kk) eqn:A2.
          { apply andb_true_iff in A2 as [A2 A3]. apply Nat.eqb_eq in A2, A3. rewrite A2, A3. rewrite <- Ekk, <- Em. destruct (Nat.ltb mm mm || Nat.ltb kk mm) eqn:A4; auto. rewrite !Nat.eqb_refl. reflexivity. }
          destruct (Nat.ltb p mm || Nat.ltb q mm) eqn:A3; auto.
          destruct (Nat.eqb k (q + d + 1)) eqn:A4, (Nat.eqb k (p + d + 1)) eqn:A5, (Nat.eqb p mm) eqn:A6, (Nat.eqb q mm) eqn:A7; auto; lia.
        * exists T1. split; auto. split; auto. split; auto. intros p q Hp. rewrite V1 by auto. destruct (Nat.eqb k (q + d + 1)) eqn:A1; [lia|]. destruct (Nat.eqb k (p + d + 1)) eqn:A2; [lia|]. auto.
      + exists T'. split; auto. intros _. split; auto. split; auto. intros p q Hp. rewrite V' by auto. replace (S m - d - 1)%nat with (S mm) by lia. rewrite <- !Mv.
        destruct (Nat.ltb p mm || Nat.ltb q mm) eqn:A1; [destruct (Nat.ltb p (S mm) || Nat.ltb q (S mm)) eqn:A2; auto; lia|].
        destruct (Nat.eqb p mm) eqn:A3.
        * apply Nat.eqb_eq in A3. rewrite A3. rewrite <- Em. destruct (Nat.ltb mm (S mm) || Nat.ltb q (S mm)) eqn:A2; auto; lia.
        * destruct (Nat.eqb q mm) eqn:A4; [|destruct (Nat.ltb p (S mm) || Nat.ltb q (S mm)) eqn:A2; auto; lia].
          apply Nat.eqb_eq in A4. rewrite A4, <- Em. destruct (Nat.ltb p (S mm) || Nat.ltb mm (S mm)) eqn:A2; [|lia]. apply SF; unfold N in Hp; lia.
    - destruct (H ltac:(lia)) as (WT & KT & VT). exists T. split; auto. split; auto. split; auto. intros p q Hp. rewrite VT by auto. unfold N in Hp. destruct (Nat.ltb p (d + 1 + N - d - 1) || Nat.ltb q (d + 1 + N - d - 1)) eqn:X; auto. unfold N in X. lia.
  Qed.

  (** The rows above the removed one, put back together. *)
  Definition topv m r c := if Nat.ltb r d then (if Nat.ltb r m then (if Nat.ltb c d then mentry C r c else mentry C r (c + 1)) else 0)
    else if Nat.ltb c m then mentry C c (r + 1) else 0.
  Lemma top_ok S11 S13 : rows_are d S11 (fun r c => if Nat.ltb c d then mentry C r c else 0) -> rows_are d S13 (fun r c => if Nat.ltb d c then mentry C r c else 0) ->
    exists T, for_res d 0 (fun irow T =>
              'a <- get S11 irow ;; 'T1 <- over a (fun col val T => mset T irow col val) T ;;
              'b <- get S13 irow ;;
              over_if b (fun col val T => 'T1 <- mset T irow (col - 1)%nat val ;; mset T1 (col - 1)%nat irow val) T1)
              (repeat None n) = Ok T /\ rows_wf n T /\ forall r c, (r < n)%nat -> mentry T r c = topv d r c.
  Proof.
    intros ((L11 & W11) & V11) ((L13 & W13) & V13). destruct (nulls_wf n) as (W0 & _ & Z0).
    match goal with |- context [for_res d 0 ?f _] => destruct (@for_res_inv _ (fun m T => (m <= d)%nat -> rows_wf n T /\ forall r c, (r < n)%nat -> mentry T r c = topv m r c) d 0 f (repeat None n)) as (T & E & H) end.
    - intros _. split; auto. intros r c Hr. rewrite Z0. unfold topv. destruct (Nat.ltb r 0) eqn:E1; [lia|]. destruct (Nat.ltb c 0) eqn:E2; [lia|]. now destruct (Nat.ltb r d).
    - intros m T Hm I. destruct (I ltac:(lia)) as (WT & VT). clear I.
      destruct (@nth_error_lt _ S11 m) as [a Ha]; [lia|]. destruct (@nth_error_lt _ S13 m) as [b Hb]; [lia|].
      rewrite (get_some Ha). cbn [bind].
      assert (Ea : forall c, entry a c = if Nat.ltb c d then mentry C m c else 0). { intros c. rewrite <- V11 by lia. unfold mentry. now rewrite Ha. }
      assert (Eb : forall c, entry b c = if Nat.ltb d c then mentry C m c else 0). { intros c. rewrite <- V13 by lia. unfold mentry. now rewrite Hb. }
      assert (Na : a <> None). { intros ->. specialize (Ea m). cbn [entry] in Ea. destruct (Nat.ltb m d) eqn:X; [|lia]. pose proof (@sf_diag _ _ SF m ltac:(lia)). lra. }
      match goal with |- context [over a ?f _] => destruct (@over_row _ f (fun g T => rows_wf n T /\ forall r c, (r < n)%nat -> mentry T r c = if Nat.eqb r m then g c else topv m r c) a T (W11 _ _ Ha) Na) as (T1 & E1 & W1 & V1) end.
      + intros g g' w H (W1 & V1). split; auto. intros r c Hr. now rewrite V1, H.
      + split; auto. intros r c Hr. rewrite VT by auto. destruct (Nat.eqb r m) eqn:X; auto. apply Nat.eqb_eq in X. subst r. unfold topv. destruct (Nat.ltb m d) eqn:X1; [|lia]. destruct (Nat.ltb m m) eqn:X2; [lia|auto].
      + intros g k x T1 Dx _ _ _ _ (W1 & V1). destruct (@mset_ok n T1 m k x W1 ltac:(lia)) as (T2 & E2 & W2 & V2 & _). exists T2. split; auto. split; auto.
        intros r c Hr. rewrite V2, V1, (@drop_keep x Dx) by auto. rewrite (Nat.eqb_sym k c). destruct (Nat.eqb r m), (Nat.eqb c k); auto.
      + rewrite E1. cbn [bind]. rewrite (get_some Hb). cbn [bind].
        match goal with |- context [over_if b ?f _] => destruct (@over_if_row _ f (fun g T => rows_wf n T /\ forall r c, (r < n)%nat -> mentry T r c =
           if Nat.eqb r m then (if Nat.ltb c d then mentry C m c else g (c + 1)%nat) else if Nat.leb d r && Nat.eqb c m then g (r + 1)%nat else topv m r c) b T1 (W13 _ _ Hb)) as (T3 & E3 & W3 & V3) end.
        * intros g g' w H (W3 & V3). split; auto. intros r c Hr. now rewrite V3, !H.
        * split; auto. intros r c Hr. rewrite V1, Ea by auto. destruct (Nat.eqb r m) eqn:X; auto. destruct (Nat.leb d r && Nat.eqb c m) eqn:X1; auto. unfold topv. destruct (Nat.ltb r d) eqn:X2; [lia|]. destruct (Nat.ltb c m) eqn:X3; [lia|auto].
        * intros g k x T3 Dx Xk Nx _ _ (W3 & V3). rewrite Eb in Xk. destruct (Nat.ltb d k) eqn:Ek; [|congruence].
          assert (Hk : (k < n)%nat) by (apply (@nz_col m); [lia|now rewrite <- Xk]).
          destruct (@mset_ok n T3 m (k - 1) x W3 ltac:(lia)) as (T4 & E4 & W4 & V4 & _). rewrite E4. cbn [bind].
          destruct (@mset_ok n T4 (k - 1) m x W4 ltac:(lia)) as (T5 & E5 & W5 & V5 & _). exists T5. split; auto. split; auto.
          intros r c Hr. rewrite V5, V4, V3, (@drop_keep x Dx) by auto.
          destruct (Nat.eqb r (k - 1)) eqn:A1, (Nat.eqb c m) eqn:A2, (Nat.eqb r m) eqn:A3, (Nat.eqb c (k - 1)) eqn:A4, (Nat.ltb c d) eqn:A5, (Nat.leb d r) eqn:A6, (Nat.eqb k (c + 1)) eqn:A7, (Nat.eqb k (r + 1)) eqn:A8; cbn [andb]; auto; lia.
        * exists T3. split; auto. intros _. split; auto. intros r c Hr. rewrite V3, !Eb by auto. unfold topv.
          destruct (Nat.eqb r m) eqn:A1.
          { apply Nat.eqb_eq in A1. subst r. destruct (Nat.ltb m d) eqn:A2; [|lia]. destruct (Nat.ltb m (S m)) eqn:A3; [|lia]. destruct (Nat.ltb c d) eqn:A4; auto. destruct (Nat.ltb d (c + 1)) eqn:A5; [auto|lia]. }
          destruct (Nat.ltb r d) eqn:A2.
          { destruct (Nat.leb d r && Nat.eqb c m) eqn:A3; [lia|]. destruct (Nat.ltb r m) eqn:A4, (Nat.ltb r (S m)) eqn:A5; auto; lia. }
          destruct (Nat.leb d r && Nat.eqb c m) eqn:A3.
          { assert (c = m) by lia. subst c. destruct (Nat.ltb d (r + 1)) eqn:A4; [|lia]. destruct (Nat.ltb m (S m)) eqn:A5; [auto|lia]. }
          destruct (Nat.ltb c m) eqn:A4, (Nat.ltb c (S m)) eqn:A5; auto; lia.
    - exists T. split; auto.
  Qed.

  (** The rows below, shifted up by one. *)
  Lemma bottom_ok S33 T0 : matrix_ok N S33 -> rows_wf n T0 -> (forall p q, (p < N)%nat -> (N <= q)%nat -> mentry S33 p q = 0) ->
    (forall r c, (d <= r)%nat -> (d <= c)%nat -> (r < n)%nat -> mentry T0 r c = 0) ->
    exists T, for_res N (d + 1)%nat (fun irow T =>
              'r <- get S33 (irow - d - 1)%nat ;;
              over r (fun col val T => mset T (irow - 1)%nat (col + d)%nat val) T) T0 = Ok T /\ rows_wf n T /\
      forall r c, (r < n)%nat -> mentry T r c = if Nat.leb d r && Nat.ltb r (d + N) && Nat.leb d c then mentry S33 (r - d) (c - d) else mentry T0 r c.
  Proof.
    intros M W0 Nar Z0.
    match goal with |- context [for_res N _ ?f _] => destruct (@for_res_inv _ (fun m T => (d + 1 <= m)%nat -> rows_wf n T /\
        forall r c, (r < n)%nat -> mentry T r c = if Nat.leb d r && Nat.ltb r (m - 1) && Nat.leb d c then mentry S33 (r - d) (c - d) else mentry T0 r c) N (d + 1)%nat f T0) as (T & E & H) end.
    - intros _. split; auto. intros r c Hr. destruct (Nat.leb d r && Nat.ltb r (d + 1 - 1) && Nat.leb d c) eqn:X; [lia|auto].
    - intros m T Hm I. destruct (I ltac:(lia)) as (WT & VT). clear I. unfold N in Hm.
      destruct (@row_get N S33 (m - d - 1) M ltac:(unfold N; lia)) as (v & Ev & Wv & Nv & Mv). rewrite Ev. cbn [bind].
      match goal with |- context [over v ?f _] => destruct (@over_row _ f (fun g T => rows_wf n T /\
         forall r c, (r < n)%nat -> mentry T r c = if Nat.eqb r (m - 1) && Nat.leb d c then g (c - d)%nat else if Nat.leb d r && Nat.ltb r (m - 1) && Nat.leb d c then mentry S33 (r - d) (c - d) else mentry T0 r c) v T Wv Nv) as (T' & E & W' & V') end.
      + intros g g' w H (W1 & V1). split; auto. intros p q Hp. now rewrite V1, !H.
      + split; auto. intros r c Hr. rewrite VT by auto. destruct (Nat.eqb r (m - 1) && Nat.leb d c) eqn:A; auto. destruct (Nat.leb d r && Nat.ltb r (m - 1) && Nat.leb d c) eqn:A1; [lia|]. apply Z0; lia.
      + intros g k x T1 Dx Xk Nx Gk Gj (W1 & V1).
        destruct (@mset_ok n T1 (m - 1) (k + d) x W1 ltac:(lia)) as (T2 & E2 & W2 & V2 & _). exists T2. split; auto. split; auto.
        intros r c Hr. rewrite V2, V1, (@drop_keep x Dx) by auto.
        destruct (Nat.eqb r (m - 1)) eqn:A1, (Nat.eqb c (k + d)) eqn:A2, (Nat.leb d c) eqn:A3, (Nat.eqb k (c - d)) eqn:A4; cbn [andb]; auto; lia.
      + exists T'. split; auto. intros _. split; auto. intros r c Hr. rewrite V' by auto. rewrite <- Mv.
        destruct (Nat.eqb r (m - 1) && Nat.leb d c) eqn:A1.
        * assert (r = m - 1)%nat by lia. subst r. destruct (Nat.leb d (m - 1) && Nat.ltb (m - 1) (S m - 1) && Nat.leb d c) eqn:A2; [|lia]. f_equal. lia.
        * destruct (Nat.leb d r && Nat.ltb r (m - 1) && Nat.leb d c) eqn:A2, (Nat.leb d r && Nat.ltb r (S m - 1) && Nat.leb d c) eqn:A3; auto; lia.
    - destruct (H ltac:(lia)) as (WT & VT). exists T. split; auto. split; auto. intros r c Hr. rewrite VT by auto. now replace (d + 1 + N - 1)%nat with (d + N)%nat by lia.
  Qed.
End Remove.

Lemma firstn_wf n m A : rows_wf n A -> (m <= n)%nat -> rows_wf m (firstn m A) /\ forall r c, (r < m)%nat -> mentry (firstn m A) r c = mentry A r c.
Proof.
  intros [L W] Hm. assert (Nt : forall r, nth_error (firstn m A) r = if Nat.ltb r m then nth_error A r else None).
  { intros r. destruct (Nat.ltb r m) eqn:E; [apply nth_error_firstn_lt; lia|]. apply nth_error_None. rewrite firstn_length. lia. }
  split.
  - split; [rewrite firstn_length; lia|]. intros i v. rewrite Nt. destruct (Nat.ltb i m); [apply W|discriminate].
  - intros r c Hr. unfold mentry. rewrite Nt. destruct (Nat.ltb r m) eqn:E; [auto|lia].
Qed.
Lemma sumn_cut a b f : sumn (a + b) f = sumn a f + sumn b (fun k => f (a + k)%nat).
Proof. induction b as [|b IH]; [rewrite Nat.add_0_r, sumn_0; lra|]. rewrite Nat.add_succ_r, !sumn_S, IH. lra. Qed.
Lemma sumn_sq_pos m (f : nat -> R) : 0 <= sumn m (fun k => f k * f k).
Proof. induction m as [|m IH]; [rewrite sumn_0; lra|]. rewrite sumn_S. nra. Qed.

(** Row and column d are taken out of L L^T. *)
Theorem remove_row_ok n C d B : stored_factor n C -> (d < n)%nat -> (n - d - 1 < 10)%nat -> 0 <= B ->
  (forall r, (r < n)%nat -> llt n (lower (mentry C)) r r <= B * B) ->
  exists C', remove_row n C d = Ok C' /\ stored_factor (n - 1) C' /\
    (forall r j, (r < n - 1)%nat -> (j < n - 1)%nat ->
       Rabs (llt (n - 1) (lower (mentry C')) r j - llt n (lower (mentry C)) (before_removal d r) (before_removal d j)) <=
         if Nat.ltb r d || Nat.ltb j d then 0 else INR (n - d - 1) * Ebound (n - d - 1) B).
Proof.
  intros SF Hd H10 HB HQ. unfold remove_row. destruct (Nat.eqb d (n - 1)) eqn:Ed.
  - apply Nat.eqb_eq in Ed. destruct (@remove_last_ok n d C SF Hd) as (out & E & (W & V)). exists out. split; auto.
    rewrite <- Ed. assert (Vl : forall r c, (r < d)%nat -> (c < d)%nat -> mentry out r c = mentry C r c). { intros r c Hr Hc. rewrite V by auto. destruct (Nat.ltb c d) eqn:X; [auto|lia]. }
    split; [split|].
    + apply wf_full; auto. intros r Hr. exists r. rewrite Vl by auto. pose proof (@sf_diag _ _ SF r ltac:(lia)). lra.
    + intros r c Hr Hc. rewrite !Vl by auto. apply SF; lia.
    + intros r c Hr Hc. rewrite V by auto. destruct (Nat.ltb c d) eqn:X; [lia|auto].
    + intros j Hj. rewrite Vl by auto. apply SF. lia.
    + intros r j Hr Hj. unfold before_removal. destruct (Nat.ltb r d) eqn:X1; [|lia]. destruct (Nat.ltb j d) eqn:X2; [|lia]. cbn [orb].
      assert (El : llt d (lower (mentry out)) r j = llt n (lower (mentry C)) r j).
      { unfold llt. replace n with (d + (n - d))%nat by lia. rewrite sumn_cut. rewrite (@sumn_ext (n - d) _ (fun _ => 0)), sumn_zero.
        - rewrite Rplus_0_r. apply sumn_ext. intros k Hk. unfold lower. now rewrite !Vl by auto.
        - intros k Hk. unfold lower. destruct (Nat.leb (d + k) r) eqn:X; [lia|]. lra. }
      rewrite El, Rminus_diag_eq, Rabs_R0; auto. lra.
  - apply Nat.eqb_neq in Ed. destruct (@split_rows_ok n d C SF Hd) as (S11 & S13 & E1 & H11 & H13). rewrite E1. cbn [bind].
    destruct (@shifted_ok n d C SF Hd) as (s23 & E2 & Ws & Vs). apply bind_Ok_inv in E2 as (rd & Erd & E2). rewrite Erd. cbn [bind]. rewrite E2. cbn [bind].
    destruct (@trailing_ok n d C SF Hd) as (S33 & E3 & W3 & K3 & V3). unfold N in E3, W3, V3. rewrite E3. cbn [bind]. set (m := (n - d - 1)%nat) in *.
    assert (SF3 : stored_factor m S33).
    { split.
      - apply wf_full; auto. intros r Hr. exists r. rewrite V3 by auto. pose proof (@sf_diag _ _ SF (r + d + 1)%nat ltac:(lia)). lra.
      - intros r c Hr Hc. rewrite !V3 by auto. apply SF; lia.
      - intros r c Hr Hc. rewrite V3 by auto. apply SF; lia.
      - intros j Hj. rewrite V3 by auto. apply SF. lia. }
    assert (G3 : good m S33).
    { destruct (sf_ok SF3) as [L3 W3']. split; auto. intros i v Hv. destruct (W3' i v Hv). specialize (K3 i v Hv). repeat split; auto. lia. }
    assert (Low : forall p q, (p < m)%nat -> lower (mentry S33) p q = lower (mentry C) (p + d + 1) (d + 1 + q)).
    { intros p q Hp. unfold lower. destruct (Nat.leb q p) eqn:X1, (Nat.leb (d + 1 + q) (p + d + 1)) eqn:X2; try lia; auto. rewrite V3 by auto. f_equal; lia. }
    assert (Cut : forall r j, llt n (lower (mentry C)) r j = sumn d (fun k => lower (mentry C) r k * lower (mentry C) j k) +
       lower (mentry C) r d * lower (mentry C) j d + sumn m (fun k => lower (mentry C) r (d + 1 + k) * lower (mentry C) j (d + 1 + k))).
    { intros r j. unfold llt. replace n with (d + 1 + m)%nat by lia. rewrite sumn_cut. replace (d + 1)%nat with (S d) at 1 by lia. rewrite sumn_S. reflexivity. }
    assert (Sd : forall p, (p < m)%nat -> entry s23 p = lower (mentry C) (p + d + 1) d).
    { intros p Hp. rewrite Vs. unfold lower. destruct (Nat.leb d (p + d + 1)) eqn:X; [|lia]. apply SF; lia. }
    destruct (@rank_one_ok m S33 s23 B G3 (sf_sym SF3) (sf_narrow SF3) (sf_diag SF3) Ws) as (S' & x' & Er & G' & Sy' & Na' & Di' & Q'); auto.
    { intros j Hj. rewrite Vs. apply SF; lia. }
    { intros r Hr. eapply Rle_trans; [|apply (HQ (r + d + 1)%nat); lia]. rewrite Cut, !Sd by auto. unfold llt.
      rewrite (@sumn_ext m _ (fun k => lower (mentry C) (r + d + 1) (d + 1 + k) * lower (mentry C) (r + d + 1) (d + 1 + k))) by (intros k Hk; now rewrite !Low).
      pose proof (sumn_sq_pos d (fun k => lower (mentry C) (r + d + 1) k)). lra. }
    rewrite Er. cbn [bind].
    destruct (@top_ok n d C SF Hd S11 S13 H11 H13) as (T1 & E4 & W4 & V4). rewrite E4. cbn [bind].
    destruct (@bottom_ok n d Hd S' T1) as (T2 & E5 & W5 & V5); auto.
    { apply good_ok. exact G'. }
    { intros r c H1 H2 H3. rewrite V4 by auto. unfold topv. destruct (Nat.ltb r d) eqn:X; [lia|]. destruct (Nat.ltb c d) eqn:X2; [lia|auto]. }
    unfold N in E5, V5. fold m in E5, V5. rewrite E5. cbn [bind]. eexists. split; [reflexivity|].
    destruct (@firstn_wf n (n - 1) T2 W5 ltac:(lia)) as (W6 & V6). set (C' := firstn (n - 1) T2) in *.
    assert (V : forall r c, (r < n - 1)%nat -> mentry C' r c = if Nat.leb d r && Nat.leb d c then mentry S' (r - d) (c - d) else topv d C d r c).
    { intros r c Hr. rewrite V6, V5, V4 by lia. destruct (Nat.leb d r && Nat.ltb r (d + m) && Nat.leb d c) eqn:X1, (Nat.leb d r && Nat.leb d c) eqn:X2; auto; lia. }
    assert (Dg : forall j, (j < n - 1)%nat -> 1 / 10 ^ 5 <= mentry C' j j).
    { intros j Hj. rewrite V by auto. destruct (Nat.leb d j && Nat.leb d j) eqn:X.
      - specialize (Di' (j - d)%nat ltac:(lia)). pose proof (@sf_diag _ _ SF3 (j - d)%nat ltac:(lia)). lra.
      - unfold topv. destruct (Nat.ltb j d) eqn:X1; [|lia]. apply SF. lia. }
    split; [split; auto|].
    + apply wf_full; auto. intros r Hr. exists r. specialize (Dg r Hr). lra.
    + intros r c Hr Hc. rewrite !V by auto. unfold topv. destruct (Nat.leb d r) eqn:X1, (Nat.leb d c) eqn:X2; cbn [andb].
      * apply Sy'; lia.
      * destruct (Nat.ltb r d) eqn:X3; [lia|]. destruct (Nat.ltb c d) eqn:X4; [|lia]. auto.
      * destruct (Nat.ltb r d) eqn:X3; [|lia]. destruct (Nat.ltb c d) eqn:X4; [lia|]. auto.
      * destruct (Nat.ltb r d) eqn:X3; [|lia]. destruct (Nat.ltb c d) eqn:X4; [|lia]. apply SF; lia.
    + intros r c Hr Hc. rewrite V by auto. unfold topv. destruct (Nat.leb d r && Nat.leb d c) eqn:X1; [apply Na'; lia|]. destruct (Nat.ltb r d) eqn:X3; [|destruct (Nat.ltb c d) eqn:X4; [lia|auto]]. destruct (Nat.ltb c d) eqn:X4; [lia|]. apply SF; lia.
    + assert (LL : forall r c, (r < n - 1)%nat -> (c < d)%nat -> lower (mentry C') r c = lower (mentry C) (before_removal d r) c).
      { intros r c Hr Hc. unfold lower, before_removal. destruct (Nat.ltb r d) eqn:X3.
        - destruct (Nat.leb c r) eqn:X; auto. rewrite V by auto. destruct (Nat.leb d r && Nat.leb d c) eqn:X1; [lia|]. unfold topv. rewrite X3. destruct (Nat.ltb c d) eqn:X4; [auto|lia].
        - destruct (Nat.leb c r) eqn:X; [|lia]. destruct (Nat.leb c (S r)) eqn:X0; [|lia]. rewrite V by auto. destruct (Nat.leb d r && Nat.leb d c) eqn:X1; [lia|]. unfold topv. rewrite X3. destruct (Nat.ltb c d) eqn:X4; [|lia].
          rewrite Nat.add_1_r. apply SF; lia. }
      assert (LT : forall r q, (r < n - 1)%nat -> lower (mentry C') r (d + q) = if Nat.ltb r d then 0 else lower (mentry S') (r - d) q).
      { intros r q Hr. unfold lower. destruct (Nat.ltb r d) eqn:X3; [destruct (Nat.leb (d + q) r) eqn:X; [lia|auto]|].
        destruct (Nat.leb (d + q) r) eqn:X1, (Nat.leb q (r - d)) eqn:X2; try lia; auto. rewrite V by auto. destruct (Nat.leb d r && Nat.leb d (d + q)) eqn:X4; [|lia]. f_equal. lia. }
      assert (Z : forall r c, (r < d)%nat -> (d <= c)%nat -> lower (mentry C) r c = 0). { intros r c Hr Hc. unfold lower. destruct (Nat.leb c r) eqn:X; [lia|auto]. }
      intros r j Hr Hj.
      assert (E : llt (n - 1) (lower (mentry C')) r j - llt n (lower (mentry C)) (before_removal d r) (before_removal d j) =
        if Nat.ltb r d || Nat.ltb j d then 0 else llt m (lower (mentry S')) (r - d) (j - d) - (llt m (lower (mentry S33)) (r - d) (j - d) + entry s23 (r - d) * entry s23 (j - d))).
      { rewrite Cut. unfold llt at 1. replace (n - 1)%nat with (d + m)%nat by lia. rewrite sumn_cut.
        rewrite (@sumn_ext d _ (fun k => lower (mentry C) (before_removal d r) k * lower (mentry C) (before_removal d j) k)) by (intros k Hk; now rewrite !LL).
        rewrite (@sumn_ext m (fun k => lower (mentry C') r (d + k) * lower (mentry C') j (d + k)) (fun k => (if Nat.ltb r d then 0 else lower (mentry S') (r - d) k) * (if Nat.ltb j d then 0 else lower (mentry S') (j - d) k))) by (intros k Hk; now rewrite !LT).
        unfold before_removal. destruct (Nat.ltb r d) eqn:X1; [|destruct (Nat.ltb j d) eqn:X2]; cbn [orb].
        - rewrite (Z r d) by lia. rewrite (@sumn_ext m (fun k => 0 * _) (fun _ => 0)) by (intros; lra).
          rewrite (@sumn_ext m (fun k => lower (mentry C) r (d + 1 + k) * _) (fun _ => 0)) by (intros; rewrite Z by lia; lra). rewrite !sumn_zero. ring.
        - rewrite (Z j d) by lia. rewrite (@sumn_ext m (fun k => _ * 0) (fun _ => 0)) by (intros; lra).
          rewrite (@sumn_ext m (fun k => _ * lower (mentry C) j (d + 1 + k)) (fun _ => 0)) by (intros; rewrite (Z j) by lia; lra). rewrite !sumn_zero. ring.
        - rewrite !Sd by lia. unfold llt. rewrite (@sumn_ext m (fun k => lower (mentry S33) (r - d) k * lower (mentry S33) (j - d) k) (fun k => lower (mentry C) (S r) (d + 1 + k) * lower (mentry C) (S j) (d + 1 + k))).
          + replace (r - d + d + 1)%nat with (S r) by lia. replace (j - d + d + 1)%nat with (S j) by lia. ring.
          + intros k Hk. rewrite !Low by lia. replace (r - d + d + 1)%nat with (S r) by lia. replace (j - d + d + 1)%nat with (S j) by lia. reflexivity. }
      rewrite E. destruct (Nat.ltb r d || Nat.ltb j d) eqn:X; [rewrite Rabs_R0; lra|]. apply Q'; lia.
Qed.
