(** The rank-one update of a Cholesky factorization, in exact arithmetic. *)
From Coq Require Import Reals Lra Psatz.
From Verif Require Import Base Num Vec Sparse SparseSpec SparseProofs SparseDotProofs SparseCholProofs CholUpdate CholUpdateProofs.
Local Open Scope R_scope.

(** One column of the update on dense data. *)
Definition eps : R := 1 / 10 ^ 12.
Definition near (a b : R) : Prop := a = b \/ a = drop b.
Lemma near_err a b : near a b -> Rabs (a - b) <= eps.
Proof.
  intros [->| ->].
  - replace (b - b) with 0 by lra. rewrite Rabs_R0. unfold eps. lra.
  - rewrite Rabs_minus_sym. apply drop_err.
Qed.
Lemma sq_le x p : 0 <= p -> x * x <= p * p -> Rabs x <= p.
Proof. intros Hp H. apply Rabs_le. split; nra. Qed.
Lemma perturb a b a' b' p q : 0 <= p -> 0 <= q -> Rabs a <= p -> Rabs b <= q -> Rabs (a' - a) <= eps -> Rabs (b' - b) <= eps ->
  Rabs (a' * b' - a * b) <= eps * (p + q) + eps * eps.
Proof.
  intros Hp Hq Ha Hb Ea Eb.
  replace (a' * b' - a * b) with ((a' - a) * b + (a * (b' - b) + (a' - a) * (b' - b))) by ring.
  eapply Rle_trans; [apply Rabs_triang|]. pose proof (Rabs_triang (a * (b' - b)) ((a' - a) * (b' - b))) as T.
  rewrite !Rabs_mult in *. pose proof (Rabs_pos a). pose proof (Rabs_pos b). pose proof (Rabs_pos (a' - a)). pose proof (Rabs_pos (b' - b)).
  assert (0 < eps) by (unfold eps; lra).
  assert (Rabs (a' - a) * Rabs b <= eps * q) by (apply Rmult_le_compat; auto).
  assert (Rabs a * Rabs (b' - b) <= p * eps) by (apply Rmult_le_compat; auto).
  assert (Rabs (a' - a) * Rabs (b' - b) <= eps * eps) by (apply Rmult_le_compat; auto).
  lra.
Qed.

Definition from (t : nat) (x : nat -> R) (r : nat) : R := if Nat.leb t r then x r else 0.
Definition gram (n t : nat) (L : nat -> nat -> R) (x : nat -> R) (r j : nat) : R := llt n L r j + from t x r * from t x j.

Section Rotate.
  Variables (n k : nat) (L L' : nat -> nat -> R) (x x' : nat -> R).
  Hypothesis Hk : (k < n)%nat.
  Hypothesis Hd : 0 < L k k.
  Let rr := sqrt (L k k * L k k + x k * x k).
  Let cc := rr / L k k.
  Let ss := x k / L k k.
  Let raw j := (L j k + ss * x j) / cc.
  Let raw' j := cc * x j - ss * raw j.
  Hypothesis Hoff : forall r q, (r < n)%nat -> q <> k -> L' r q = L r q.
  Hypothesis Htop : forall r, (r < k)%nat -> L' r k = 0 /\ L r k = 0.
  Hypothesis Hdiag : L' k k = rr.
  Hypothesis Hcol : forall j, (k < j < n)%nat -> L' j k = drop (raw j).
  Hypothesis Hx : forall j, (k < j < n)%nat -> near (x' j) (raw' j).

  Lemma rr_sq : rr * rr = L k k * L k k + x k * x k.
  Proof. apply sqrt_sqrt. nra. Qed.
  Lemma rr_pos : L k k <= rr.
  Proof. pose proof rr_sq. pose proof (sqrt_pos (L k k * L k k + x k * x k)). fold rr in H0. nra. Qed.
  Lemma cc_pos : 0 < cc.
  Proof. pose proof rr_pos. apply Rdiv_lt_0_compat; lra. Qed.
  Lemma cc_sq : cc * cc = 1 + ss * ss.
  Proof.
    unfold cc, ss. pose proof rr_sq as E. replace (rr / L k k * (rr / L k k)) with ((rr * rr) / (L k k * L k k)) by (field; lra). rewrite E. field. lra.
  Qed.
  (** The exact column and the exact vector. *)
  Definition ea j := if Nat.ltb j k then 0 else if Nat.eqb j k then rr else raw j.
  Definition eb j := if Nat.ltb j k then 0 else if Nat.eqb j k then 0 else raw' j.
  Lemma rot_same r j : ea r * ea j + eb r * eb j = L r k * L j k + from k x r * from k x j.
  Proof.
    assert (Cr : forall j, cc * raw j = L j k + ss * x j) by (intros q; unfold raw; field; pose proof cc_pos; lra).
    assert (Rk : forall j, rr * raw j = L k k * L j k + x k * x j).
    { intros q. replace rr with (cc * L k k) by (unfold cc; field; lra). rewrite Rmult_assoc, (Rmult_comm (L k k)), <- Rmult_assoc, Cr. unfold ss. field. lra. }
    unfold ea, eb, from.
    destruct (Nat.ltb r k) eqn:R1, (Nat.ltb j k) eqn:J1.
    1,2: assert (r < k)%nat by lia; destruct (@Htop r) as [_ ->]; auto; destruct (Nat.leb k r) eqn:E; [lia|lra].
    1: assert (j < k)%nat by lia; destruct (@Htop j) as [_ ->]; auto; destruct (Nat.leb k j) eqn:E; [lia|lra].
    assert (E1 : Nat.leb k r = true) by lia. assert (E2 : Nat.leb k j = true) by lia. rewrite E1, E2.
    destruct (Nat.eqb r k) eqn:R2, (Nat.eqb j k) eqn:J2; rewrite ?Nat.eqb_eq in *; subst.
    - rewrite rr_sq. lra.
    - rewrite Rk. lra.
    - rewrite (Rmult_comm (raw r)), Rk. lra.
    - unfold raw'. pose proof (Cr r) as C1. pose proof (Cr j) as C2. pose proof cc_sq as C0.
      replace (raw r * raw j + (cc * x r - ss * raw r) * (cc * x j - ss * raw j))
        with ((1 + ss * ss) * (raw r * raw j) + (cc * cc) * (x r * x j) - ss * x j * (cc * raw r) - ss * x r * (cc * raw j)) by ring.
      rewrite C1, C2. replace ((1 + ss * ss) * (raw r * raw j)) with ((cc * raw r) * (cc * raw j)) by (rewrite <- C0; ring). rewrite C1, C2, C0. ring.
  Qed.
  Lemma col_err j : (j < n)%nat -> Rabs (L' j k - ea j) <= eps.
  Proof.
    intros Hj. unfold ea. assert (Z : Rabs 0 <= eps) by (rewrite Rabs_R0; unfold eps; lra).
    destruct (Nat.ltb j k) eqn:E1; [destruct (@Htop j) as [-> _]; [lia|now rewrite Rminus_0_r]|].
    destruct (Nat.eqb j k) eqn:E2.
    - apply Nat.eqb_eq in E2. subst j. rewrite Hdiag. now replace (rr - rr) with 0 by lra.
    - apply Nat.eqb_neq in E2. rewrite Hcol by lia. rewrite Rabs_minus_sym. apply drop_err.
  Qed.
  Lemma vec_err j : (j < n)%nat -> Rabs (from (S k) x' j - eb j) <= eps.
  Proof.
    intros Hj. unfold eb, from. assert (Z : Rabs 0 <= eps) by (rewrite Rabs_R0; unfold eps; lra).
    destruct (Nat.ltb j k) eqn:E1; [destruct (Nat.leb (S k) j) eqn:E; [lia|now rewrite Rminus_0_r]|].
    destruct (Nat.eqb j k) eqn:E2; [destruct (Nat.leb (S k) j) eqn:E; [lia|now rewrite Rminus_0_r]|].
    assert (E : Nat.leb (S k) j = true) by lia. rewrite E. apply near_err, Hx. lia.
  Qed.
  Lemma gram_diff r j : (r < n)%nat -> (j < n)%nat ->
    gram n (S k) L' x' r j - gram n k L x r j = (L' r k * L' j k - ea r * ea j) + (from (S k) x' r * from (S k) x' j - eb r * eb j).
  Proof.
    intros Hr Hj. unfold gram, llt.
    rewrite (@sumn_ext n (fun q => L' r q * L' j q) (fun q => (if Nat.eqb k (0 + q) then L' r k * L' j k - L r k * L j k else 0) + L r q * L j q)).
    - rewrite sumn_plus, sumn_single. destruct (Nat.leb 0 k && Nat.ltb k (0 + n)) eqn:E; [|lia]. pose proof (rot_same r j). lra.
    - intros q Hq. cbn [Nat.add]. destruct (Nat.eqb k q) eqn:E; [apply Nat.eqb_eq in E; subst q; lra|]. apply Nat.eqb_neq in E. rewrite !Hoff by auto. lra.
  Qed.
  Lemma exact_le r : (r < n)%nat -> ea r * ea r <= gram n k L x r r /\ eb r * eb r <= gram n k L x r r.
  Proof.
    intros Hr. pose proof (rot_same r r) as E.
    assert (P : L r k * L r k <= llt n L r r).
    { unfold llt. assert (G : forall m, 0 <= sumn m (fun q => L r q * L r q) /\ ((k < m)%nat -> L r k * L r k <= sumn m (fun q => L r q * L r q))).
      { clear. induction m as [|m [I1 I2]]; [rewrite sumn_0; split; [lra|lia]|]. rewrite sumn_S. split; [nra|]. intros H. destruct (Nat.eq_dec k m) as [->|]; [nra|]. specialize (I2 ltac:(lia)). nra. }
      apply G. auto. }
    unfold gram. split; nra.
  Qed.
  Lemma rotate_gram r j p q : (r < n)%nat -> (j < n)%nat -> 0 <= p -> 0 <= q ->
    gram n k L x r r <= p * p -> gram n k L x j j <= q * q ->
    Rabs (gram n (S k) L' x' r j - gram n k L x r j) <= 2 * eps * (p + q) + 2 * (eps * eps).
  Proof.
    intros Hr Hj Hp Hq Gr Gj. rewrite gram_diff by auto. eapply Rle_trans; [apply Rabs_triang|].
    destruct (exact_le Hr) as [A1 A2]. destruct (exact_le Hj) as [B1 B2].
    assert (P1 : Rabs (L' r k * L' j k - ea r * ea j) <= eps * (p + q) + eps * eps).
    { apply perturb; auto; [apply sq_le; lra|apply sq_le; lra|apply col_err; auto|apply col_err; auto]. }
    assert (P2 : Rabs (from (S k) x' r * from (S k) x' j - eb r * eb j) <= eps * (p + q) + eps * eps).
    { apply perturb; auto; [apply sq_le; lra|apply sq_le; lra|apply vec_err; auto|apply vec_err; auto]. }
    lra.
  Qed.
End Rotate.

(** Sorted lists with the same entries are equal. *)
Lemma lookup_head (k : nat) (x : R) t : lookup ((k, x) :: t) k = Some x.
Proof. cbn. now rewrite Nat.eqb_refl. Qed.
Lemma lookup_below (l : list (nat * R)) r : (forall a, In a (map fst l) -> (r < a)%nat) -> lookup l r = None.
Proof. intros H. apply lookup_none. intros K. specialize (H _ K). lia. Qed.
Lemma lookup_above (l : list (nat * R)) r : (forall a, In a (map fst l) -> (a < r)%nat) -> lookup l r = None.
Proof. intros H. apply lookup_none. intros K. specialize (H _ K). lia. Qed.
Lemma sorted_ext (l : list (nat * R)) : forall l', StronglySorted lt (map fst l) -> StronglySorted lt (map fst l') ->
  (forall r, lookup l r = lookup l' r) -> l = l'.
Proof.
  induction l as [|[k x] t IH]; intros l' S1 S2 H.
  - destruct l' as [|[k' x'] t']; auto. specialize (H k'). rewrite lookup_head in H. discriminate.
  - destruct l' as [|[k' x'] t']; [specialize (H k); rewrite lookup_head in H; discriminate|].
    cbn [map fst] in S1, S2. inversion S1 as [|? ? S1' F1]; subst. inversion S2 as [|? ? S2' F2]; subst. rewrite Forall_forall in F1, F2.
    assert (E : k = k').
    { destruct (lt_eq_lt_dec k k') as [[C|C]|C]; auto; exfalso.
      - pose proof (H k) as K. rewrite lookup_head in K. cbn in K. destruct (Nat.eqb k' k) eqn:E; [lia|]. rewrite lookup_below in K; [discriminate|]. intros a Ha. specialize (F2 _ Ha). lia.
      - pose proof (H k') as K. rewrite lookup_head in K. cbn in K. destruct (Nat.eqb k k') eqn:E; [lia|]. rewrite lookup_below in K; [discriminate|]. intros a Ha. specialize (F1 _ Ha). lia. }
    subst k'. pose proof (H k) as K. rewrite !lookup_head in K. inversion K; subst x'. f_equal. apply IH; auto.
    intros r. specialize (H r). cbn in H. destruct (Nat.eqb k r) eqn:E; auto. apply Nat.eqb_eq in E. subst r.
    rewrite !lookup_below; auto; intros a Ha; auto.
Qed.

(** Setting the entry at the place where a list is split. *)
Lemma set_split (P : R -> Prop) v l1 o l2 k val : (tiny val = false -> P val) -> repP P v (l1 ++ o ++ l2) -> v <> None ->
  (forall a, In a (map fst l1) -> (a < k)%nat) -> (forall a, In a (map fst l2) -> (k < a)%nat) -> (o = [] \/ exists y, o = [(k, y)]) ->
  exists v', set_entry k val v = Ok v' /\ repP P v' (l1 ++ (if tiny val then [] else [(k, val)]) ++ l2) /\ v' <> None /\ (capof v <= capof v')%nat.
Proof.
  intros HP Rl N B1 B2 Ho. destruct (@set_entry_okP R _ P v _ k val HP Rl) as (v' & l' & E & R' & U & Z & Cp).
  exists v'. split; auto. split; [|split; [tauto|auto]].
  replace (l1 ++ (if tiny val then [] else [(k, val)]) ++ l2) with l'; auto.
  assert (S1 : StronglySorted lt (map fst l1) /\ StronglySorted lt (map fst l2)).
  { destruct Rl as (S0 & _). rewrite !map_app in S0. apply sorted_app in S0 as (A & B & _). apply sorted_app in B as (_ & B & _). auto. }
  apply sorted_ext; [apply R'| |].
  - rewrite !map_app. apply sorted_app. split; [apply S1|]. split.
    + apply sorted_app. split; [destruct (tiny val); cbn; repeat constructor|]. split; [apply S1|]. intros a b Ha Hb. destruct (tiny val); cbn in Ha; [tauto|]. destruct Ha as [<-|[]]. auto.
    + intros a b Ha Hb. apply in_app_or in Hb as [Hb|Hb]; [|specialize (B1 _ Ha); specialize (B2 _ Hb); lia]. destruct (tiny val); cbn in Hb; [tauto|]. destruct Hb as [<-|[]]. auto.
  - intros r. rewrite U. rewrite !lookup_app. destruct (Nat.eqb k r) eqn:Er.
    + apply Nat.eqb_eq in Er. subst r. rewrite (lookup_above l1) by auto. destruct (tiny val); [cbn; now rewrite (lookup_below l2)|rewrite lookup_head; auto].
    + destruct (lookup l1 r); auto. assert (Eo : lookup o r = None). { destruct Ho as [->|[y ->]]; auto. cbn. now rewrite Er. } rewrite Eo.
      destruct (tiny val); auto. cbn. now rewrite Er.
Qed.
Lemma row_at_ok P ix vx (l1 l2 : list (nat * R)) n : repP P (Some (ix, vx)) (l1 ++ l2) ->
  row_at ix (2 + length l1) n = Ok (match l2 with [] => n | (k, _) :: _ => k end).
Proof.
  intros (_ & _ & cap & ji & jv & -> & -> & _). unfold row_at. cbn [get nth_error bind]. rewrite app_length. destruct l2 as [|[k x] t].
  - cbn [length]. destruct (Nat.ltb _ _) eqn:E; [lia|auto].
  - cbn [length]. destruct (Nat.ltb _ _) eqn:E; [|lia]. apply arr_keys_at.
Qed.
Lemma val_at P ix vx (l1 l2 : list (nat * R)) k x : repP P (Some (ix, vx)) (l1 ++ (k, x) :: l2) -> get vx (length l1) = Ok x.
Proof. intros (_ & _ & cap & ji & jv & -> & -> & _). apply arr_vals_at. Qed.
Lemma put_at ix vx (l1 l2 : list (nat * R)) k x y : repP (fun _ => True) (Some (ix, vx)) (l1 ++ (k, x) :: l2) ->
  exists vx', set vx (length l1) y = Ok vx' /\ repP (fun _ => True) (Some (ix, vx')) (l1 ++ (k, y) :: l2).
Proof.
  intros (S0 & _ & cap & ji & jv & -> & -> & H1 & H2 & H3). exists (map snd (l1 ++ (k, y) :: l2) ++ jv). split.
  - rewrite !arr_val. rewrite <- (map_length snd l1). apply set_app.
  - assert (E1 : map fst (l1 ++ (k, y) :: l2) = map fst (l1 ++ (k, x) :: l2)) by (rewrite !map_app; reflexivity).
    assert (E2 : length (l1 ++ (k, y) :: l2) = length (l1 ++ (k, x) :: l2)) by (rewrite !app_length; reflexivity).
    split; [now rewrite E1|]. split; [apply Forall_forall; auto|]. exists cap, ji, jv. rewrite E1, E2. auto.
Qed.

(** Allocated rows with more room than rows. *)
Definition good (n : nat) (A : @smat R) : Prop :=
  length A = n /\ forall i v, nth_error A i = Some v -> v <> None /\ well_formed v /\ (n < capof v)%nat.
Lemma good_ok n A : good n A -> matrix_ok n A.
Proof. intros [G1 G2]. split; auto. intros i v Hv. destruct (G2 i v Hv) as (X & Y & _). auto. Qed.
Lemma mset_good n A i c val : good n A -> (i < n)%nat -> exists v v', nth_error A i = Some v /\ set_entry c val v = Ok v' /\
  mset A i c val = Ok (upd A i v') /\ good n (upd A i v') /\
  forall r d, mentry (upd A i v') r d = if Nat.eqb r i && Nat.eqb d c then drop val else mentry A r d.
Proof.
  intros [G1 G2] Hi. destruct (@nth_error_lt _ A i) as [v Hv]; [lia|]. destruct (G2 _ _ Hv) as (N & W & Cp). destruct (wf_rep _ W) as [l Rl].
  destruct (@set_entry_okP R _ (fun x => dropped x = false) v l c val) as (v' & l' & E & R' & U & Z & Cp'); auto.
  exists v, v'. split; auto. split; auto. split; [|split].
  - unfold mset. rewrite (get_some Hv). cbn [bind]. rewrite E. cbn [bind]. rewrite set_Ok by lia. auto.
  - split; [now rewrite upd_length|]. intros r w. rewrite upd_nth. destruct ((r =? i) && (i <? length A)); [|apply G2]. intros K. inversion K; subst w.
    split; [tauto|]. split; [exact (rep_wf R')|]. lia.
  - intros r d. unfold mentry. rewrite upd_nth. destruct (Nat.eqb r i) eqn:E1; cbn [andb]; auto.
    assert (E2 : (i <? length A)%nat = true) by (apply Nat.ltb_lt; lia). rewrite E2. apply Nat.eqb_eq in E1. subst r. rewrite Hv.
    rewrite (entry_lval d R'), (entry_lval d Rl). unfold lval. rewrite U, (Nat.eqb_sym c d). destruct (Nat.eqb d c); auto.
    unfold drop. change (tiny val) with (dropped val). destruct (dropped val); reflexivity.
Qed.

Section Column.
  Variables (n k i : nat) (c s : R) (C1 : @smat R) (X0 : nat -> R) (lp : list (nat * R)).
  Hypothesis Hk : (k < n)%nat.
  Hypothesis Hik : (i <= k)%nat.
  Hypothesis Hsym : forall r q, (r < n)%nat -> (q < n)%nat -> mentry C1 r q = mentry C1 q r.
  Hypothesis Hlp : forall a, In a (map fst lp) -> (a <= k)%nat.
  Definition craw j := (mentry C1 k j + s * X0 j) / c.
  Definition cvec j := c * X0 j - s * craw j.
  Definition colval t j := if Nat.ltb k j && Nat.ltb j t then drop (craw j) else mentry C1 k j.

  Definition cinv (t : nat) (C : @smat R) (xi : list nat) (xv : list R) (lc1 lc2 lq lx2 : list (nat * R)) : Prop :=
    good n C /\
    (forall r q, (r < n)%nat -> mentry C r q = if Nat.eqb r k then colval t q else if Nat.eqb q k then colval t r else mentry C1 r q) /\
    (exists v, nth_error C k = Some v /\ rep v (lc1 ++ lc2)) /\
    (forall a, In a (map fst lc1) -> (a < t)%nat) /\ (forall a, In a (map fst lc2) -> (t <= a < n)%nat) /\
    repP (fun _ => True) (Some (xi, xv)) (lp ++ lq ++ lx2) /\
    (forall a, In a (map fst lq) -> (k < a < t)%nat) /\ (forall a, In a (map fst lx2) -> (t <= a < n)%nat) /\
    (forall j, (j <= k)%nat \/ (t <= j)%nat -> lval (lp ++ lq ++ lx2) j = X0 j) /\
    (forall j, (k < j < t)%nat -> near (lval (lp ++ lq ++ lx2) j) (cvec j)).

  Lemma cinv_col t C xi xv lc1 lc2 lq lx2 j : cinv t C xi xv lc1 lc2 lq lx2 -> (k < t)%nat -> (t <= j < n)%nat -> mentry C1 k j = lval lc2 j.
  Proof.
    intros (G & M & (v & Hv & Rv) & B1 & B2 & _) Ht Hj. pose proof (M k j Hk) as E. rewrite Nat.eqb_refl in E. unfold colval in E.
    destruct (Nat.ltb k j && Nat.ltb j t) eqn:E1; [lia|]. rewrite <- E. unfold mentry. rewrite Hv, (entry_lval j Rv). unfold lval. rewrite lookup_app, (lookup_above lc1); auto.
    intros a Ha. specialize (B1 _ Ha). lia.
  Qed.
  Lemma cinv_vec t C xi xv lc1 lc2 lq lx2 j : cinv t C xi xv lc1 lc2 lq lx2 -> (k < t)%nat -> (t <= j < n)%nat -> X0 j = lval lx2 j.
  Proof.
    intros (_ & _ & _ & _ & _ & Rx & B1 & B2 & V1 & _) Ht Hj. rewrite <- V1 by lia. unfold lval. rewrite !lookup_app, (lookup_above lp), (lookup_above lq); auto.
    - intros a Ha. specialize (B1 _ Ha). lia.
    - intros a Ha. specialize (Hlp _ Ha). lia.
  Qed.
  Lemma zero_near : near 0 0. Proof. left. reflexivity. Qed.
  (** Rows without entries need no work. *)
  Lemma cinv_skip t t' C xi xv lc1 lc2 lq lx2 : (k < t <= t')%nat -> (t' <= n)%nat -> cinv t C xi xv lc1 lc2 lq lx2 ->
    (forall a, In a (map fst lc2) -> (t' <= a)%nat) -> (forall a, In a (map fst lx2) -> (t' <= a)%nat) -> cinv t' C xi xv lc1 lc2 lq lx2.
  Proof.
    intros Ht Hn I N1 N2.
    assert (Z : forall j, (t <= j < t')%nat -> mentry C1 k j = 0 /\ X0 j = 0).
    { intros j Hj. rewrite (cinv_col I), (cinv_vec I) by lia. unfold lval. rewrite !lookup_below; auto.
      - intros a Ha. specialize (N2 _ Ha). lia.
      - intros a Ha. specialize (N1 _ Ha). lia. }
    assert (Z2 : forall j, (t <= j < t')%nat -> craw j = 0 /\ cvec j = 0).
    { intros j Hj. destruct (Z j Hj) as (E1 & E2). unfold cvec, craw. rewrite E1, E2. unfold Rdiv. split; ring. }
    assert (Cv : forall j, colval t' j = colval t j).
    { intros j. unfold colval. destruct (Nat.ltb k j && Nat.ltb j t) eqn:E1, (Nat.ltb k j && Nat.ltb j t') eqn:E2; auto; try lia.
      destruct (Z2 j) as (-> & _); [lia|]. destruct (Z j) as (-> & _); [lia|]. apply drop0. }
    destruct I as (G & M & Rv & B1 & B2 & Rx & D1 & D2 & V1 & V2).
    split; auto. split; [intros r q Hr; rewrite M, !Cv by auto; auto|]. split; auto. split; [intros a Ha; specialize (B1 _ Ha); lia|].
    split; [intros a Ha; specialize (B2 _ Ha); specialize (N1 _ Ha); lia|]. split; auto. split; [intros a Ha; specialize (D1 _ Ha); lia|].
    split; [intros a Ha; specialize (D2 _ Ha); specialize (N2 _ Ha); lia|]. split; [intros j Hj; apply V1; lia|].
    intros j Hj. destruct (lt_dec j t); [apply V2; lia|]. rewrite V1 by lia. destruct (Z j) as (_ & ->); [lia|]. destruct (Z2 j) as (_ & ->); [lia|]. apply zero_near.
  Qed.

  (** Writing row K of the column. *)
  Lemma cinv_write C xi xv lc1 o lc2 lq lx2 K l : (k < K < n)%nat -> cinv K C xi xv lc1 (o ++ lc2) lq lx2 -> l = craw K ->
    (o = [] \/ exists y, o = [(K, y)]) -> (forall a, In a (map fst lc2) -> (K < a)%nat) ->
    exists Ca Cb, mset C K k l = Ok Ca /\ mset Ca k K l = Ok Cb /\ good n Cb /\
      (forall r q, (r < n)%nat -> mentry Cb r q = if Nat.eqb r k then colval (S K) q else if Nat.eqb q k then colval (S K) r else mentry C1 r q) /\
      (exists v, nth_error Cb k = Some v /\ rep v ((lc1 ++ (if tiny l then [] else [(K, l)])) ++ lc2)).
  Proof.
    intros HK (G & M & (v & Hv & Rv) & B1 & B2 & _) El Ho N2.
    destruct (@mset_good n C K k l G ltac:(lia)) as (v1 & v1' & Hv1 & _ & E1 & G1 & M1).
    destruct (@mset_good n (upd C K v1') k K l G1 Hk) as (v2 & v2' & Hv2 & S2 & E2 & G2 & M2).
    assert (E : v2 = v). { rewrite upd_nth in Hv2. destruct ((k =? K) && (K <? length C)) eqn:E; [lia|]. congruence. } subst v2.
    exists (upd C K v1'), (upd (upd C K v1') k v2'). split; auto. split; auto. split; auto. split.
    - intros r q Hr. rewrite M2, M1, M by auto. unfold colval. rewrite El.
      destruct (Nat.eqb r k) eqn:A1, (Nat.eqb q K) eqn:A2, (Nat.eqb r K) eqn:A3, (Nat.eqb q k) eqn:A4; cbn [andb];
        rewrite ?Nat.eqb_eq in *; subst; try lia; auto;
        repeat match goal with |- context [Nat.ltb ?a ?b && Nat.ltb ?u ?w] => destruct (Nat.ltb a b && Nat.ltb u w) eqn:?; try lia end; auto; try lia.
    - exists v2'. split; [rewrite upd_nth; assert (X : ((k =? k) && (k <? length (upd C K v1')))%nat = true) by (rewrite Nat.eqb_refl, upd_length; destruct G as (-> & _); apply Nat.ltb_lt; auto); now rewrite X|].
      assert (N : v <> None) by (destruct G as [_ G']; apply (G' _ _ Hv)).
      destruct (@set_split (fun x => dropped x = false) v lc1 o lc2 K l) as (v3 & E3 & R3 & _); auto.
      rewrite E3 in S2. inversion S2; subst v3. rewrite <- app_assoc. exact R3.
  Qed.

  Lemma mid_vec K lq lx2 y : (k < K)%nat -> (forall a, In a (map fst lq) -> (k < a < K)%nat) -> (forall a, In a (map fst lx2) -> (K < a)%nat) ->
    forall j, lval (lp ++ (lq ++ [(K, y)]) ++ lx2) j = if Nat.eqb K j then y else lval (lp ++ lq ++ lx2) j.
  Proof.
    intros HK B1 B2 j. unfold lval. rewrite !lookup_app. cbn. destruct (Nat.eqb K j) eqn:E.
    - apply Nat.eqb_eq in E. subst j. rewrite (lookup_above lp), (lookup_above lq); auto.
      + intros a Ha. specialize (B1 _ Ha). lia.
      + intros a Ha. specialize (Hlp _ Ha). lia.
    - destruct (lookup lp j); auto. destruct (lookup lq j); auto.
  Qed.

  Lemma rotate_ok fuel : forall t C xi xv lc1 lc2 lq lx2, (length lc2 + length lx2 < fuel)%nat -> (k < t <= n)%nat -> cinv t C xi xv lc1 lc2 lq lx2 ->
    exists C' xi' xv' lc1' lq', rotate_rows fuel n k i c s (2 + length lc1) (2 + length (lp ++ lq)) C xi xv true = Ok (C', (xi', xv'), true) /\
      cinv n C' xi' xv' lc1' [] lq' [].
  Proof.
    induction fuel as [|f IH]; intros t C xi xv lc1 lc2 lq lx2 Hf Ht I; [lia|].
    pose proof I as (G & M & (v & Hv & Rv) & B1 & B2 & Rx & D1 & D2 & V1 & V2).
    assert (N : v <> None) by (destruct G as [_ G']; apply (G' _ _ Hv)). destruct v as [[ix vx]|]; [clear N|congruence].
    cbn [rotate_rows]. rewrite (get_some Hv). cbn [bind]. rewrite (@row_at_ok _ _ _ lc1 lc2 n Rv). cbn [bind].
    assert (Rx' : repP (fun _ => True) (Some (xi, xv)) ((lp ++ lq) ++ lx2)) by (rewrite <- app_assoc; exact Rx).
    rewrite (@row_at_ok _ _ _ (lp ++ lq) lx2 n Rx'). cbn [bind].
    set (nc := match lc2 with [] => n | (q, _) :: _ => q end). set (nx := match lx2 with [] => n | (q, _) :: _ => q end).
    assert (Sc : StronglySorted lt (map fst lc2)). { destruct Rv as (S0 & _). rewrite map_app in S0. apply sorted_app in S0. tauto. }
    assert (Sx : StronglySorted lt (map fst lx2)). { destruct Rx' as (S0 & _). rewrite map_app in S0. apply sorted_app in S0. tauto. }
    assert (Mc : forall a, In a (map fst lc2) -> (nc <= a)%nat).
    { unfold nc. destruct lc2 as [|[q y] lt]; cbn; [tauto|]. intros a [<-|Ha]; auto. cbn [map fst] in Sc. inversion Sc as [|? ? _ F1]; subst. rewrite Forall_forall in F1. specialize (F1 _ Ha). lia. }
    assert (Mx : forall a, In a (map fst lx2) -> (nx <= a)%nat).
    { unfold nx. destruct lx2 as [|[q y] lt]; cbn; [tauto|]. intros a [<-|Ha]; auto. cbn [map fst] in Sx. inversion Sx as [|? ? _ F1]; subst. rewrite Forall_forall in F1. specialize (F1 _ Ha). lia. }
    assert (Rc : (t <= nc <= n)%nat). { unfold nc. destruct lc2 as [|[q y] lt]; [lia|]. specialize (B2 q ltac:(left; auto)). lia. }
    assert (Rxn : (t <= nx <= n)%nat). { unfold nx. destruct lx2 as [|[q y] lt]; [lia|]. specialize (D2 q ltac:(left; auto)). lia. }
    destruct (Nat.ltb nc n || Nat.ltb nx n) eqn:Ec.
    2:{ assert (lc2 = []). { destruct lc2 as [|[q y] lt]; auto. specialize (B2 q ltac:(left; auto)). unfold nc in Ec. lia. }
        assert (lx2 = []). { destruct lx2 as [|[q y] lt]; auto. specialize (D2 q ltac:(left; auto)). unfold nx in Ec. lia. } subst lc2 lx2.
        exists C, xi, xv, lc1, lq. split; auto. apply (@cinv_skip t); auto; try lia; cbn; tauto. }
    destruct (Nat.leb nx nc) eqn:El.
    - (* the next row has an entry of x *)
      assert (Hx : exists y lx3, lx2 = (nx, y) :: lx3). { unfold nx in *. destruct lx2 as [|[q y] lt]; [lia|eauto]. } destruct Hx as (y & lx3 & Elx).
      assert (HK : (t <= nx < n)%nat) by (specialize (D2 nx ltac:(rewrite Elx; left; auto)); lia). clearbody nx. subst lx2.
      assert (I2 : cinv nx C xi xv lc1 lc2 lq ((nx, y) :: lx3)) by (apply (@cinv_skip t); auto; try lia; intros a Ha; specialize (Mc _ Ha); lia).
      replace (2 + length (lp ++ lq) - 2)%nat with (length (lp ++ lq)) by lia. rewrite (@val_at _ _ _ (lp ++ lq) lx3 nx y Rx'). cbn [bind].
      assert (N3 : forall a, In a (map fst lx3) -> (nx < a)%nat). { cbn [map fst] in Sx. inversion Sx as [|? ? _ F1]; subst. rewrite Forall_forall in F1. auto. }
      assert (Xy : X0 nx = y). { rewrite (cinv_vec I2) by lia. unfold lval. now rewrite lookup_head. }
      assert (Hc : exists o lc3, lc2 = o ++ lc3 /\ (o = [] \/ exists z, o = [(nx, z)]) /\ (forall a, In a (map fst lc3) -> (nx < a)%nat) /\
                    (if Nat.eqb nc nx then get vx (2 + length lc1 - 2) else Ok n0) = Ok (mentry C1 k nx)).
      { rewrite (cinv_col I2) by lia. destruct (Nat.eqb nc nx) eqn:E.
        - apply Nat.eqb_eq in E. destruct lc2 as [|[q z] lc3]; [unfold nc in E; lia|]. unfold nc in E. subst q. exists [(nx, z)], lc3. split; auto. split; [eauto|]. split.
          + cbn [map fst] in Sc. inversion Sc as [|? ? _ F1]; subst. rewrite Forall_forall in F1. auto.
          + replace (2 + length lc1 - 2)%nat with (length lc1) by lia. rewrite (@val_at _ _ _ lc1 lc3 nx z Rv). unfold lval. now rewrite lookup_head.
        - apply Nat.eqb_neq in E. exists [], lc2. split; auto. split; auto. assert (NN : forall a, In a (map fst lc2) -> (nx < a)%nat) by (intros a Ha; specialize (Mc _ Ha); lia). split; auto.
          unfold lval. rewrite lookup_below; auto. }
      destruct Hc as (o & lc3 & El2 & Ho & N2 & Eg). rewrite Eg. cbn [bind]. subst lc2.
      match goal with |- context [mset C nx k ?u] => set (l := u) end.
      match goal with |- context [set xv (length (lp ++ lq)) ?u] => set (w := u) end.
      assert (Ecr : l = craw nx) by (unfold l, craw; rewrite Xy; reflexivity).
      assert (Ecv : w = cvec nx) by (unfold w, cvec; rewrite <- Ecr, Xy; reflexivity).
      clearbody l w.
      destruct (@cinv_write C xi xv lc1 o lc3 lq ((nx, y) :: lx3) nx l ltac:(lia) I2 Ecr Ho N2) as (Ca & Cb & Ea & Eb & Gb & Mb & Rb).
      rewrite Ea. cbn [bind]. rewrite Eb. cbn [bind].
      destruct (@put_at xi xv (lp ++ lq) lx3 nx y w Rx') as (xv' & Es & Rx2). rewrite Es. cbn [bind].
      replace (if tiny l then (2 + length lc1)%nat else (2 + length lc1 + 1)%nat) with (2 + length (lc1 ++ (if tiny l then [] else [(nx, l)])))%nat
        by (rewrite app_length; destruct (tiny l); cbn [length]; lia).
      replace (2 + length (lp ++ lq) + 1)%nat with (2 + length (lp ++ (lq ++ [(nx, w)])))%nat by (rewrite !app_length; cbn [length]; lia).
      apply (IH (S nx)) with (lc2 := lc3) (lx2 := lx3); [rewrite app_length in Hf; cbn [length] in Hf; lia|lia|].
      destruct I2 as (_ & _ & _ & B1' & B2' & _ & D1' & D2' & V1' & V2').
      pose proof (@mid_vec nx lq lx3 w ltac:(lia) D1' N3) as MV. pose proof (@mid_vec nx lq lx3 y ltac:(lia) D1' N3) as MV0.
      assert (EE : lp ++ lq ++ (nx, y) :: lx3 = lp ++ (lq ++ [(nx, y)]) ++ lx3) by (rewrite <- !app_assoc; reflexivity).
      assert (UV : forall j, j <> nx -> lval (lp ++ (lq ++ [(nx, w)]) ++ lx3) j = lval (lp ++ lq ++ (nx, y) :: lx3) j).
      { intros j Hj. rewrite EE, MV, MV0. destruct (Nat.eqb nx j) eqn:E; [lia|auto]. }
      split; auto. split; auto. split; auto. split; [|split; [|split; [|split; [|split; [|split]]]]].
      + intros a. rewrite map_app, in_app_iff. intros [Ha|Ha]; [specialize (B1' _ Ha); lia|]. destruct (tiny l); cbn in Ha; [tauto|]. lia.
      + intros a Ha. split; [apply N2; auto|]. apply B2'. rewrite map_app, in_app_iff. auto.
      + replace (lp ++ (lq ++ [(nx, w)]) ++ lx3) with ((lp ++ lq) ++ (nx, w) :: lx3) by (rewrite <- !app_assoc; reflexivity). exact Rx2.
      + intros a. rewrite map_app, in_app_iff. intros [Ha|[<-|[]]]; [specialize (D1' _ Ha); lia|cbn; lia].
      + intros a Ha. split; [apply N3; auto|]. apply D2'. right. auto.
      + intros j Hj. rewrite UV by lia. apply V1'. lia.
      + intros j Hj. destruct (Nat.eq_dec j nx) as [->|Hne]; [|rewrite UV by auto; apply V2'; lia].
        rewrite MV, Nat.eqb_refl. left. exact Ecv.
    - (* only the column has an entry *)
      assert (Hc : exists z lc3, lc2 = (nc, z) :: lc3). { unfold nc in *. destruct lc2 as [|[q z] lt]; [lia|eauto]. } destruct Hc as (z & lc3 & Elc).
      assert (HK : (t <= nc < n)%nat) by (specialize (B2 nc ltac:(rewrite Elc; left; auto)); lia). clearbody nc. subst lc2.
      assert (I2 : cinv nc C xi xv lc1 ((nc, z) :: lc3) lq lx2) by (apply (@cinv_skip t); auto; try lia; intros a Ha; specialize (Mx _ Ha); lia).
      replace (2 + length lc1 - 2)%nat with (length lc1) by lia. rewrite (@val_at _ _ _ lc1 lc3 nc z Rv). cbn [bind].
      assert (N2 : forall a, In a (map fst lc3) -> (nc < a)%nat). { cbn [map fst] in Sc. inversion Sc as [|? ? _ F1]; subst. rewrite Forall_forall in F1. auto. }
      assert (N3 : forall a, In a (map fst lx2) -> (nc < a)%nat) by (intros a Ha; specialize (Mx _ Ha); lia).
      assert (Xy : X0 nc = 0). { rewrite (cinv_vec I2) by lia. unfold lval. rewrite lookup_below; auto. }
      assert (Cz : mentry C1 k nc = z). { rewrite (cinv_col I2) by lia. unfold lval. now rewrite lookup_head. }
      match goal with |- context [mset C nc k ?u] => set (l := u) end.
      match goal with |- context [set_entry nc ?u (Some (xi, xv))] => set (w := u) end.
      assert (Ecr : l = craw nc) by (unfold l, craw; rewrite Xy, Cz; change (z / c = (z + s * 0) / c); unfold Rdiv; ring).
      assert (Ecv : w = cvec nc) by (unfold w, cvec; rewrite <- Ecr, Xy; change (- s * l = c * 0 - s * l); ring).
      clearbody l w.
      destruct (@cinv_write C xi xv lc1 [(nc, z)] lc3 lq lx2 nc l ltac:(lia) I2 Ecr ltac:(eauto) N2) as (Ca & Cb & Ea & Eb & Gb & Mb & Rb).
      rewrite Ea. cbn [bind]. rewrite Eb. cbn [bind].
      destruct I2 as (_ & _ & _ & B1' & B2' & _ & D1' & D2' & V1' & V2').
      destruct (@set_split (fun _ => True) (Some (xi, xv)) (lp ++ lq) [] lx2 nc w) as (x' & Es & Rx2 & Nx & _); auto; [discriminate| |].
      { intros a. rewrite map_app, in_app_iff. intros [Ha|Ha]; [specialize (Hlp _ Ha); lia|specialize (D1' _ Ha); lia]. }
      rewrite Es. cbn [bind]. destruct x' as [[xi' xv']|]; [clear Nx|congruence].
      assert (Ead : (true && negb (tiny w && Nat.leb nc i))%bool = true). { destruct (Nat.leb nc i) eqn:E; [lia|]. rewrite Bool.andb_false_r. reflexivity. }
      rewrite Ead.
      replace (if tiny l then (2 + length lc1)%nat else (2 + length lc1 + 1)%nat) with (2 + length (lc1 ++ (if tiny l then [] else [(nc, l)])))%nat
        by (rewrite app_length; destruct (tiny l); cbn [length]; lia).
      set (ins := if tiny w then [] else [(nc, w)]) in *.
      replace (if tiny w then (2 + length (lp ++ lq))%nat else (2 + length (lp ++ lq) + 1)%nat) with (2 + length (lp ++ (lq ++ ins)))%nat
        by (unfold ins; rewrite !app_length; destruct (tiny w); cbn [length]; lia).
      apply (IH (S nc)) with (lc2 := lc3) (lx2 := lx2); [cbn [length] in Hf; lia|lia|].
      assert (UV : forall j, lval (lp ++ (lq ++ ins) ++ lx2) j = if Nat.eqb nc j then drop w else lval (lp ++ lq ++ lx2) j).
      { intros j. unfold ins, drop. change (dropped w) with (tiny w). destruct (tiny w).
        - rewrite app_nil_r. destruct (Nat.eqb nc j) eqn:E; auto. apply Nat.eqb_eq in E. subst j. rewrite V1' by lia. exact Xy.
        - apply mid_vec; auto. lia. }
      split; auto. split; auto. split; auto. split; [|split; [|split; [|split; [|split; [|split]]]]].
      + intros a. rewrite map_app, in_app_iff. intros [Ha|Ha]; [specialize (B1' _ Ha); lia|]. destruct (tiny l); cbn in Ha; [tauto|]. lia.
      + intros a Ha. split; [apply N2; auto|]. apply B2'. right. auto.
      + replace (lp ++ (lq ++ ins) ++ lx2) with ((lp ++ lq) ++ ins ++ lx2) by (rewrite <- !app_assoc; reflexivity). exact Rx2.
      + intros a. rewrite map_app, in_app_iff. intros [Ha|Ha]; [specialize (D1' _ Ha); lia|]. unfold ins in Ha. destruct (tiny w); cbn in Ha; [tauto|]. lia.
      + intros a Ha. split; [apply N3; auto|]. apply D2'. auto.
      + intros j Hj. rewrite UV. destruct (Nat.eqb nc j) eqn:E; [lia|]. apply V1'. lia.
      + intros j Hj. rewrite UV. destruct (Nat.eqb nc j) eqn:E; [|apply V2'; lia]. apply Nat.eqb_eq in E. subst j. right. now rewrite Ecv.
  Qed.
End Column.

Lemma sorted_short (l : list nat) n : StronglySorted lt l -> (forall a, In a l -> (a < n)%nat) -> (length l <= n)%nat.
Proof.
  intros S0 B. rewrite <- (seq_length n 0). apply NoDup_incl_length.
  - induction S0 as [|a t S1 IH F1]; constructor; [|apply IH; intros; apply B; right; auto]. rewrite Forall_forall in F1. intros K. specialize (F1 _ K). lia.
  - intros a Ha. apply in_seq. specialize (B _ Ha). lia.
Qed.
Lemma skip_S f ix k nnz pos : skip_le (S f) ix k nnz pos = bind (get ix pos) (fun p => if Nat.leb p k && Nat.ltb pos (2 + nnz) then skip_le f ix k nnz (pos + 1)%nat else Ok pos).
Proof. reflexivity. Qed.
(** The position behind the diagonal entry. *)
Lemma skip_ok P ix vx (l : list (nat * R)) k n : repP P (Some (ix, vx)) l -> In k (map fst l) -> (length l <= n)%nat -> (n < capof (Some (ix, vx)))%nat ->
  exists la y lb, l = la ++ (k, y) :: lb /\
    bind (find_pos (S (length l)) k ix 2 (1 + length l)%nat) (fun p => skip_le (S (2 + length l)) ix k (length l) p) = Ok (2 + length (la ++ [(k, y)]))%nat.
Proof.
  intros (S0 & _ & cap & ji & jv & -> & -> & H1 & H2 & H3) Hin Hl Hc. cbn [capof nth] in Hc.
  destruct (@search_ok R cap ji l k S0) as (la & q & y & lb & -> & E & D); [intros ->; destruct Hin|].
  assert (q = k).
  { destruct D as [D|(D1 & D2 & D3)]; auto. exfalso. rewrite map_app, in_app_iff in Hin. destruct Hin as [K|[K|K]]; [specialize (D2 _ K)|cbn in K|specialize (D3 _ K)]; lia. }
  subst q. exists la, y, lb. split; auto. rewrite E. cbn [bind].
  assert (L2 : length (la ++ (k, y) :: lb) = (length la + S (length lb))%nat) by (rewrite app_length; reflexivity).
  change (S (2 + length (la ++ (k, y) :: lb)))%nat with (S (S (S (length (la ++ (k, y) :: lb))))). rewrite skip_S.
  replace (length la + 2)%nat with (2 + length la)%nat by lia. rewrite arr_keys_at. cbn [bind]. rewrite Nat.leb_refl. cbn [andb].
  destruct (Nat.ltb (2 + length la) (2 + length (la ++ (k, y) :: lb))) eqn:E1; [|lia]. rewrite skip_S.
  rewrite (app_length la [(k, y)]). cbn [length].
  destruct lb as [|[q z] lb].
  - destruct ji as [|g ji]; [cbn [length] in *; lia|].
    assert (G : get (cap :: length (la ++ [(k, y)]) :: map fst (la ++ [(k, y)]) ++ g :: ji) (2 + length la + 1) = Ok g).
    { change (cap :: length (la ++ [(k, y)]) :: map fst (la ++ [(k, y)]) ++ g :: ji) with ((cap :: length (la ++ [(k, y)]) :: map fst (la ++ [(k, y)])) ++ g :: ji).
      replace (2 + length la + 1)%nat with (length (cap :: length (la ++ [(k, y)]) :: map fst (la ++ [(k, y)]))) by (cbn [length]; rewrite map_length, app_length; cbn [length]; lia). apply get_app. }
    rewrite G. cbn [bind]. destruct (Nat.ltb (2 + length la + 1) (2 + length (la ++ [(k, y)]))) eqn:E2; [cbn [length] in *; lia|]. rewrite Bool.andb_false_r. f_equal; lia.
  - assert (G : get (cap :: length (la ++ (k, y) :: (q, z) :: lb) :: map fst (la ++ (k, y) :: (q, z) :: lb) ++ ji) (2 + length la + 1) = Ok q).
    { replace (la ++ (k, y) :: (q, z) :: lb) with ((la ++ [(k, y)]) ++ (q, z) :: lb) by (rewrite <- app_assoc; reflexivity).
      replace (2 + length la + 1)%nat with (2 + length (la ++ [(k, y)]))%nat by (rewrite app_length; cbn [length]; lia). apply arr_keys_at. }
    rewrite G. cbn [bind]. assert (k < q)%nat.
    { rewrite map_app in S0. apply sorted_app in S0 as (_ & S0 & _). cbn [map fst] in S0. inversion S0 as [|? ? _ F1]; subst. inversion F1; subst. auto. }
    destruct (Nat.leb q k) eqn:E2; [lia|]. cbn [andb]. f_equal; lia.
Qed.

Section Rank.
  Variables (n : nat) (C0 : @smat R) (X : nat -> R) (B : R).
  Hypothesis HB : 0 <= B.
  Hypothesis HD : forall j, (j < n)%nat -> 1 / 10 ^ 5 <= mentry C0 j j.
  Definition Ebound : R := 2 * eps * (2 * (B + 2 * INR n * eps)) + 2 * (eps * eps).
  Definition G0 := gram n 0 (lower (mentry C0)) X.

  Definition rinv (t : nat) (C : @smat R) (xi : list nat) (xv : list R) (la lb : list (nat * R)) : Prop :=
    good n C /\
    (forall r q, (r < n)%nat -> (q < n)%nat -> mentry C r q = mentry C q r) /\
    (forall r q, (r < n)%nat -> (n <= q)%nat -> mentry C r q = 0) /\
    (forall j, (j < n)%nat -> mentry C0 j j <= mentry C j j) /\
    repP (fun _ => True) (Some (xi, xv)) (la ++ lb) /\
    (forall a, In a (map fst la) -> (a < t)%nat) /\ (forall a, In a (map fst lb) -> (t <= a < n)%nat) /\
    (forall r j, (r < n)%nat -> (j < n)%nat -> Rabs (gram n t (lower (mentry C)) (lval (la ++ lb)) r j - G0 r j) <= INR t * Ebound) /\
    (forall r, (r < n)%nat -> gram n t (lower (mentry C)) (lval (la ++ lb)) r r <= (B + 2 * INR t * eps) * (B + 2 * INR t * eps)).

  Lemma eps_pos : 0 < eps. Proof. unfold eps. lra. Qed.
  Lemma Ebound_pos : 0 <= Ebound.
  Proof. unfold Ebound. pose proof eps_pos. pose proof (pos_INR n). assert (0 <= INR n * eps) by nra. nra. Qed.
  Lemma rinv_skip t t' C xi xv la lb : (t <= t' <= n)%nat -> rinv t C xi xv la lb -> (forall a, In a (map fst lb) -> (t' <= a)%nat) -> rinv t' C xi xv la lb.
  Proof.
    intros Ht (G & Sy & Na & Di & Rx & B1 & B2 & Q1 & Q2) N.
    assert (E : forall r j, gram n t' (lower (mentry C)) (lval (la ++ lb)) r j = gram n t (lower (mentry C)) (lval (la ++ lb)) r j).
    { assert (F1 : forall r, from t' (lval (la ++ lb)) r = from t (lval (la ++ lb)) r).
      { intros r. unfold from. destruct (Nat.leb t' r) eqn:E1, (Nat.leb t r) eqn:E2; auto; [lia|]. unfold lval. rewrite lookup_app, (lookup_above la), (lookup_below lb); auto.
        - intros a Ha. specialize (N _ Ha). lia.
        - intros a Ha. specialize (B1 _ Ha). lia. }
      intros r j. unfold gram. now rewrite !F1. }
    pose proof (le_INR t t' ltac:(lia)) as IT. pose proof Ebound_pos. pose proof eps_pos. pose proof (pos_INR t).
    split; auto. split; auto. split; auto. split; auto. split; auto. split; [intros a Ha; specialize (B1 _ Ha); lia|]. split; [intros a Ha; specialize (N _ Ha); specialize (B2 _ Ha); lia|]. split.
    - intros r j Hr Hj. rewrite E. eapply Rle_trans; [apply Q1; auto|]. apply Rmult_le_compat_r; auto.
    - intros r Hr. rewrite E. eapply Rle_trans; [apply Q2; auto|]. assert (2 * INR t * eps <= 2 * INR t' * eps) by nra. assert (0 <= 2 * INR t * eps) by nra. apply Rmult_le_compat; lra.
  Qed.

  Lemma rank_loop_ok fuel : forall t C xi xv la lb, (n - t < fuel)%nat -> (t <= n)%nat -> rinv t C xi xv la lb ->
    exists C' xi' xv' la', rank_loop fuel n (length la) C xi xv = Ok (C', (xi', xv')) /\ rinv n C' xi' xv' la' [].
  Proof.
    induction fuel as [|f IH]; intros t C xi xv la lb Hf Ht I; [lia|].
    pose proof I as (G & Sy & Na & Di & Rx & B1 & B2 & _). cbn [rank_loop].
    assert (E1 : get xi 1 = Ok (length (la ++ lb))). { destruct Rx as (_ & _ & cap & ji & jv & -> & _). reflexivity. }
    rewrite E1. cbn [bind]. rewrite app_length. destruct lb as [|[k y] lb].
    { destruct (Nat.ltb _ _) eqn:E; [cbn [length] in E; lia|]. exists C, xi, xv, la. split; auto. apply (@rinv_skip t); auto. cbn; tauto. }
    destruct (Nat.ltb _ _) eqn:E; [clear E|cbn [length] in E; lia].
    assert (Hk : (t <= k < n)%nat) by (apply B2; left; auto).
    assert (Sb : forall a, In a (map fst lb) -> (k < a)%nat).
    { destruct Rx as (S0 & _). rewrite map_app in S0. apply sorted_app in S0 as (_ & S0 & _). cbn [map fst] in S0. inversion S0 as [|? ? _ F1]; subst. rewrite Forall_forall in F1. auto. }
    assert (I2 : rinv k C xi xv la ((k, y) :: lb)).
    { apply (@rinv_skip t); auto; [lia|]. cbn. intros a [<-|Ha]; auto. specialize (Sb _ Ha). lia. }
    assert (E2 : get xi (2 + length la) = Ok k). { destruct Rx as (_ & _ & cap & ji & jv & -> & _). apply arr_keys_at. }
    assert (Lk : (length la <= k)%nat).
    { rewrite <- (map_length fst la). apply sorted_short; [|destruct I2 as (_ & _ & _ & _ & _ & B1' & _); exact B1'].
      destruct Rx as (S0 & _). rewrite map_app in S0. apply sorted_app in S0. tauto. }
    rewrite E2. cbn [bind]. rewrite (@val_at _ _ _ la lb k y Rx). cbn [bind].
    destruct (@row_get n C k (good_ok G) ltac:(lia)) as (v & Ev & Wv & Nv & Mv). rewrite Ev. cbn [bind]. rewrite get_entry_R by auto. cbn [bind]. rewrite <- Mv.
    set (d := mentry C k k). assert (Hd : 1 / 10 ^ 5 <= d) by (unfold d; specialize (Di k ltac:(lia)); specialize (HD (j := k) ltac:(lia)); lra).
    match goal with |- context [mset C k k ?u] => set (rr := u) end.
    assert (Err : rr = sqrt (d * d + y * y)) by reflexivity.
    match goal with |- context [rotate_rows _ n k _ ?u ?w] => set (c := u); set (s := w) end.
    assert (Ecc : c = rr / d) by reflexivity. assert (Ess : s = y / d) by reflexivity. clearbody rr c s.
    assert (Hrr : d <= rr). { rewrite Err. rewrite <- (sqrt_square d) at 1 by lra. apply sqrt_le_1_alt. nra. }
    assert (Drr : drop rr = rr). { unfold drop. destruct (dropped rr) eqn:E; auto. apply dropped_iff in E. rewrite Rabs_pos_eq in E; lra. }
    destruct (@mset_good n C k k rr G ltac:(lia)) as (v0 & v1 & Hv0 & _ & Em & G1 & M1). rewrite Em. cbn [bind]. rewrite Drr in M1.
    set (C1 := upd C k v1) in *.
    destruct (@row_get n C1 k (good_ok G1) ltac:(lia)) as (v2 & Ev2 & Wv2 & Nv2 & Mv2). rewrite Ev2. cbn [bind].
    destruct v2 as [[ix vx]|]; [|congruence]. destruct (wf_rep _ Wv2) as [l Rl].
    assert (E3 : get ix 1 = Ok (length l)). { destruct Rl as (_ & _ & cap & ji & jv & -> & _). reflexivity. }
    rewrite E3. cbn [bind].
    assert (Lv : forall q, lval l q = mentry C1 k q) by (intros q; rewrite Mv2; symmetry; apply (entry_lval q Rl)).
    assert (Kl : forall a, In a (map fst l) -> (a < n)%nat).
    { apply (keys_lt Rl). intros j Hj. rewrite Lv, M1. destruct (Nat.eqb k k && Nat.eqb j k) eqn:E; [lia|]. apply Na; lia. }
    assert (Ink : In k (map fst l)).
    { destruct (in_dec Nat.eq_dec k (map fst l)) as [|N]; auto. exfalso. pose proof (Lv k) as K. unfold lval in K. rewrite lookup_none in K by auto. rewrite M1, !Nat.eqb_refl in K. cbn [andb] in K.
      change (@n0 R _) with 0 in K. lra. }
    assert (Ll : (length l <= n)%nat). { rewrite <- (map_length fst l). apply sorted_short; auto. apply Rl. }
    assert (Nth1 : nth_error C1 k = Some (Some (ix, vx))) by (unfold get in Ev2; destruct (nth_error C1 k); inversion Ev2; auto).
    assert (Cp : (n < capof (Some (ix, vx)))%nat) by (destruct G1 as [_ G1']; apply (G1' _ _ Nth1)).
    destruct (@skip_ok _ ix vx l k n Rl Ink Ll Cp) as (l1 & z & l2 & El & Epos).
    destruct (find_pos (S (length l)) k ix 2 (1 + length l)) as [pp| |]; cbn [bind] in Epos |- *; try discriminate. rewrite Epos. cbn [bind].
    set (X0 := lval (la ++ (k, y) :: lb)).
    assert (Xk : X0 k = y).
    { unfold X0, lval. rewrite lookup_app, (lookup_above la), lookup_head; auto. intros a Ha. specialize (B1 _ Ha). lia. }
    assert (Ecx : la ++ (k, y) :: lb = (la ++ [(k, y)]) ++ [] ++ lb) by (rewrite <- app_assoc; reflexivity).
    assert (CI : cinv n k c s C1 X0 (la ++ [(k, y)]) (S k) C1 xi xv (l1 ++ [(k, z)]) l2 [] lb).
    { assert (Cv : forall j, colval k c s C1 X0 (S k) j = mentry C1 k j). { intros j. unfold colval. destruct (Nat.ltb k j && Nat.ltb j (S k)) eqn:E; [lia|auto]. }
      assert (Sl : forall a, (In a (map fst l1) -> (a < k)%nat) /\ (In a (map fst l2) -> (k < a)%nat)).
      { destruct Rl as (S0 & _). rewrite El, map_app in S0. apply sorted_app in S0 as (_ & S0' & S1). cbn [map fst] in S0', S1. apply StronglySorted_inv in S0' as (_ & F1). rewrite Forall_forall in F1.
        intros a. split; auto. intros Ha. apply S1; auto. left. auto. }
      split; auto. split; [|split; [|split; [|split; [|split; [|split; [|split; [|split]]]]]]].
      - intros r q Hr. rewrite !Cv. destruct (Nat.eqb r k) eqn:A1; [apply Nat.eqb_eq in A1; now rewrite A1|]. destruct (Nat.eqb q k) eqn:A2; auto. apply Nat.eqb_eq in A2. rewrite A2.
        rewrite !M1, A1, Nat.eqb_refl. cbn [andb]. apply Sy; lia.
      - exists (Some (ix, vx)). split; auto. rewrite <- app_assoc. cbn [app]. rewrite <- El. exact Rl.
      - intros a. rewrite map_app, in_app_iff. intros [Ha|[<-|[]]]; [specialize (proj1 (Sl a) Ha); lia|cbn; lia].
      - intros a Ha. split; [apply Sl; auto|]. apply Kl. rewrite El, map_app, in_app_iff. right. right. auto.
      - rewrite <- Ecx. exact Rx.
      - cbn; tauto.
      - intros a Ha. split; [apply Sb; auto|]. apply B2. right. auto.
      - intros j _. rewrite <- Ecx. reflexivity.
      - intros j Hj. lia. }
    assert (RO : exists C' xi' xv' lc1' lq', rotate_rows (S (length l + (length la + length ((k, y) :: lb)))) n k (length la) c s (2 + length (l1 ++ [(k, z)])) (2 + length ((la ++ [(k, y)]) ++ [])) C1 xi xv true = Ok (C', (xi', xv'), true) /\
      cinv n k c s C1 X0 (la ++ [(k, y)]) n C' xi' xv' lc1' [] lq' []).
    { apply rotate_ok with (t := S k) (lc2 := l2) (lx2 := lb); auto; try lia.
      - intros r q Hr Hq. rewrite !M1. rewrite (Bool.andb_comm (Nat.eqb q k)). destruct (Nat.eqb r k && Nat.eqb q k); auto.
      - intros a. rewrite map_app, in_app_iff. intros [Ha|[<-|[]]]; [specialize (B1 _ Ha); lia|cbn; lia].
      - rewrite El, app_length. cbn [length]. lia. }
    destruct RO as (C2 & xi2 & xv2 & lc & lq & Er & CI2).
    replace (3 + length la)%nat with (2 + length ((la ++ [(k, y)]) ++ []))%nat by (rewrite app_nil_r, app_length; cbn [length]; lia).
    rewrite Er. cbn [bind].
    replace (S (length la)) with (length (la ++ [(k, y)])) by (rewrite app_length; cbn [length]; lia).
    apply (IH (S k)) with (lb := lq); [lia|lia|].
    destruct CI2 as (G2 & M2 & _ & _ & _ & Rx2 & D1 & _ & V1 & V2). rewrite app_nil_r in *.
    assert (Mof : forall r q, (r < n)%nat -> q <> k -> r <> k -> mentry C2 r q = mentry C r q).
    { intros r q Hr Hq Hr2. rewrite M2 by auto. destruct (Nat.eqb r k) eqn:A1; [lia|]. destruct (Nat.eqb q k) eqn:A2; [lia|]. rewrite M1, A1. reflexivity. }
    assert (Mrow : forall q, mentry C2 k q = colval k c s C1 X0 n q). { intros q. rewrite M2 by lia. now rewrite Nat.eqb_refl. }
    assert (Mcol : forall r, (r < n)%nat -> mentry C2 r k = colval k c s C1 X0 n r). { intros r Hr. rewrite M2 by lia. rewrite Nat.eqb_refl. destruct (Nat.eqb r k) eqn:A; auto. apply Nat.eqb_eq in A. now rewrite A. }
    assert (Mkk : mentry C2 k k = rr). { rewrite Mrow. unfold colval. destruct (Nat.ltb k k && Nat.ltb k n) eqn:A; [lia|]. now rewrite M1, !Nat.eqb_refl. }
    assert (Mlow : forall q, (q < k)%nat -> mentry C2 k q = mentry C k q). { intros q Hq. rewrite Mrow. unfold colval. destruct (Nat.ltb k q && Nat.ltb q n) eqn:A; [lia|]. rewrite M1, Nat.eqb_refl. cbn [andb]. destruct (Nat.eqb q k) eqn:A2; [lia|auto]. }
    destruct I2 as (_ & _ & _ & _ & _ & B1' & _ & Q1 & Q2). fold X0 in Q1, Q2.
    assert (Step : forall r j p, (r < n)%nat -> (j < n)%nat -> 0 <= p -> gram n k (lower (mentry C)) X0 r r <= p * p -> gram n k (lower (mentry C)) X0 j j <= p * p ->
       Rabs (gram n (S k) (lower (mentry C2)) (lval ((la ++ [(k, y)]) ++ lq)) r j - gram n k (lower (mentry C)) X0 r j) <= 2 * eps * (p + p) + 2 * (eps * eps)).
    { assert (Lkk : lower (mentry C) k k = d) by (unfold lower; now rewrite Nat.leb_refl).
      intros r j p Hr Hj Hp Gr Gj. apply rotate_gram; auto; try lia.
      - rewrite Lkk. lra.
      - intros r' q Hr' Hq. unfold lower. destruct (Nat.leb q r') eqn:A; auto. destruct (Nat.eq_dec r' k) as [->|]; [apply Mlow; lia|apply Mof; auto].
      - intros r' Hr'. unfold lower. destruct (Nat.leb k r') eqn:A; [lia|auto].
      - rewrite Lkk, Xk. unfold lower. rewrite Nat.leb_refl, Mkk. exact Err.
      - intros j' Hj'. rewrite Lkk, Xk, <- Err, <- Ecc, <- Ess. unfold lower. destruct (Nat.leb k j') eqn:A; [|lia]. rewrite Mcol by lia. unfold colval. destruct (Nat.ltb k j' && Nat.ltb j' n) eqn:A2; [|lia].
        unfold craw. rewrite M1, Nat.eqb_refl. cbn [andb]. destruct (Nat.eqb j' k) eqn:A3; [lia|]. rewrite (Sy k j') by lia. reflexivity.
      - intros j' Hj'. rewrite Lkk, Xk, <- Err, <- Ecc, <- Ess. specialize (V2 j' Hj'). unfold cvec, craw in V2. rewrite M1, Nat.eqb_refl in V2. cbn [andb] in V2. destruct (Nat.eqb j' k) eqn:A3; [lia|]. rewrite (Sy k j') in V2 by lia.
        unfold lower. destruct (Nat.leb k j') eqn:A; [|lia]. exact V2. }
    set (p := B + 2 * INR k * eps). pose proof eps_pos as Pe. pose proof (pos_INR k) as Pk. assert (Hp : 0 <= p) by (unfold p; nra).
    assert (HpE : 2 * eps * (p + p) + 2 * (eps * eps) <= Ebound).
    { unfold Ebound, p. pose proof (le_INR k n ltac:(lia)) as IT. assert (INR k * eps <= INR n * eps) by nra. nra. }
    split; auto. split; [|split; [|split; [|split; [|split; [|split; [|split]]]]]].
    - intros r q Hr Hq. destruct (Nat.eq_dec r k) as [->|Nr]; [rewrite Mrow, Mcol; auto|]. destruct (Nat.eq_dec q k) as [->|Nq]; [rewrite Mrow, Mcol; auto|]. rewrite !Mof by auto. auto.
    - intros r q Hr Hq. destruct (Nat.eq_dec r k) as [->|Nr]; [|rewrite Mof by lia; auto]. rewrite Mrow. unfold colval. destruct (Nat.ltb k q && Nat.ltb q n) eqn:A; [lia|]. rewrite M1. destruct (Nat.eqb k k && Nat.eqb q k) eqn:A2; [lia|]. auto.
    - intros j Hj. destruct (Nat.eq_dec j k) as [->|Nj]; [rewrite Mkk; specialize (Di k Hj); unfold d in Hrr; lra|]. rewrite Mof by auto. auto.
    - rewrite <- app_assoc in Rx2. rewrite <- app_assoc. exact Rx2.
    - intros a. rewrite map_app, in_app_iff. intros [Ha|[<-|[]]]; [specialize (B1' _ Ha); lia|cbn; lia].
    - intros a Ha. specialize (D1 _ Ha). lia.
    - intros r j Hr Hj. specialize (Step r j p Hr Hj Hp (Q2 r Hr) (Q2 j Hj)). specialize (Q1 r j Hr Hj). rewrite S_INR.
      match goal with |- Rabs (?u - ?w) <= _ => replace (u - w) with ((u - gram n k (lower (mentry C)) X0 r j) + (gram n k (lower (mentry C)) X0 r j - w)) by ring end.
      eapply Rle_trans; [apply Rabs_triang|]. lra.
    - intros r Hr. specialize (Step r r p Hr Hr Hp (Q2 r Hr) (Q2 r Hr)). specialize (Q2 r Hr). fold p in Q2. rewrite S_INR.
      pose proof (Rle_trans _ _ _ (Rle_abs _) Step) as Step1. clear Step. replace (B + 2 * (INR k + 1) * eps) with (p + 2 * eps) by (unfold p; ring). nra.
  Qed.
End Rank.

(** The update of a whole factorization. *)
Theorem rank_one_ok n C x B : good n C ->
  (forall r q, (r < n)%nat -> (q < n)%nat -> mentry C r q = mentry C q r) ->
  (forall r q, (r < n)%nat -> (n <= q)%nat -> mentry C r q = 0) ->
  (forall j, (j < n)%nat -> 1 / 10 ^ 5 <= mentry C j j) ->
  well_formed x -> (forall j, (n <= j)%nat -> entry x j = 0) -> 0 <= B ->
  (forall r, (r < n)%nat -> llt n (lower (mentry C)) r r + entry x r * entry x r <= B * B) ->
  exists C' x', rank_one n C x = Ok (C', x') /\ good n C' /\
    (forall r q, (r < n)%nat -> (q < n)%nat -> mentry C' r q = mentry C' q r) /\
    (forall r q, (r < n)%nat -> (n <= q)%nat -> mentry C' r q = 0) /\
    (forall j, (j < n)%nat -> mentry C j j <= mentry C' j j) /\
    (forall r j, (r < n)%nat -> (j < n)%nat ->
      Rabs (llt n (lower (mentry C')) r j - (llt n (lower (mentry C)) r j + entry x r * entry x j)) <= INR n * Ebound n B).
Proof.
  intros G Sy Na Di Wx Nx HB HQ. destruct (wf_rep _ Wx) as [l Rl]. destruct x as [[xi xv]|].
  - assert (Rx : repP (fun _ => True) (Some (xi, xv)) ([] ++ l)). { destruct Rl as (S0 & _ & R0). split; auto. split; auto. apply Forall_forall. auto. }
    assert (Ex : forall r, lval l r = entry (Some (xi, xv)) r) by (intros r; symmetry; apply (entry_lval r Rl)).
    assert (Eg : forall r j, gram n 0 (lower (mentry C)) (lval ([] ++ l)) r j = llt n (lower (mentry C)) r j + entry (Some (xi, xv)) r * entry (Some (xi, xv)) j).
    { intros r j. unfold gram, from. cbn [Nat.leb app]. now rewrite !Ex. }
    destruct (@rank_loop_ok n C (lval l) B HB Di (S n) 0 C xi xv [] l) as (C' & xi' & xv' & la & E & I); [lia|lia| |].
    + split; auto. split; auto. split; auto. split; [intros; lra|]. split; auto. split; [cbn; tauto|]. split; [|split].
      * intros a Ha. split; [lia|]. apply (keys_lt Rl); auto. intros j Hj. rewrite Ex. auto.
      * intros r j Hr Hj. unfold G0. cbn [app INR]. rewrite Rminus_diag_eq by auto. rewrite Rabs_R0. lra.
      * intros r Hr. rewrite Eg. cbn [INR]. replace (B + 2 * 0 * eps) with B by ring. auto.
    + exists C', (Some (xi', xv')). cbn [length] in E. unfold rank_one. rewrite E. cbn [bind]. split; auto.
      destruct I as (G' & Sy' & Na' & Di' & _ & _ & _ & Q1 & _). split; auto. split; auto. split; auto. split; auto.
      intros r j Hr Hj. specialize (Q1 r j Hr Hj). unfold G0 in Q1. rewrite <- (app_nil_l l), Eg in Q1. unfold gram in Q1. unfold from in Q1 at 1. destruct (Nat.leb n r) eqn:A; [lia|]. rewrite Rmult_0_l, Rplus_0_r in Q1. exact Q1.
  - exists C, None. split; auto. split; auto. split; auto. split; auto. split; [intros; lra|]. intros r j Hr Hj. cbn [entry].
    match goal with |- Rabs ?u <= _ => replace u with 0 by ring end. rewrite Rabs_R0. pose proof (Ebound_pos n HB). pose proof (pos_INR n). nra.
Qed.
