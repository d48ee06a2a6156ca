(** Removal of the upper triangle, mirroring, and the two triangular solves. *)
From Coq Require Import Reals Lra.
From Verif Require Import Base Num Vec Sparse SparseSpec SparseProofs SparseDotProofs.

Section Trim.
  Context {F : Type} `{NF : Num F}.

  Definition same_below {A} (m : nat) (a b : list A) : Prop :=
    length b = length a /\ forall q, q < m -> nth_error b q = nth_error a q.

  Lemma trim_at_ok irow i : forall fuel nnz ix (vx : list F),
    nnz <= fuel -> i <= nnz -> nnz + 2 <= length ix -> i + 2 < length ix -> nnz <= length vx ->
    (forall q k, i <= q < nnz -> nth_error ix (2 + q) = Some k -> irow < k) ->
    exists ix' vx', trim_at (S fuel) irow i nnz ix vx = Ok (i, (ix', vx')) /\
      same_below (2 + i) ix ix' /\ same_below i vx vx'.
  Proof.
    induction fuel as [|f IH]; intros nnz ix vx Hf Hi Hx Hx2 Hv Hk.
    - assert (nnz = 0 /\ i = 0) as [-> ->] by lia. cbn [trim_at].
      destruct (@nth_error_lt _ ix (2 + 0)) as [c Hc]; [lia|]. rewrite (get_some Hc). cbn [bind].
      rewrite andb_false_r. exists ix, vx. repeat split; auto.
    - remember (S f) as sf. cbn [trim_at].
      destruct (@nth_error_lt _ ix (2 + i)) as [c Hc]; [lia|]. rewrite (get_some Hc). cbn [bind].
      destruct (Nat.ltb irow c && Nat.ltb i nnz) eqn:E.
      + destruct (@nth_error_lt _ ix (2 + (nnz - 1))) as [d Hd]; [lia|]. rewrite (get_some Hd). cbn [bind].
        rewrite set_Ok by lia. cbn [bind].
        destruct (@nth_error_lt _ vx (nnz - 1)) as [x Hxx]; [lia|]. rewrite (get_some Hxx). cbn [bind].
        rewrite set_Ok by lia. cbn [bind]. subst sf.
        destruct (IH (nnz - 1) (upd ix (2 + i) d) (upd vx i x)) as (ix' & vx' & E' & (L1 & B1) & (L2 & B2));
          rewrite ?upd_length; try lia.
        { intros q k Hq. rewrite upd_nth. destruct (Nat.eqb (2 + q) (2 + i) && Nat.ltb (2 + i) (length ix)) eqn:E2.
          - intros K; inversion K; subst. apply (Hk (nnz - 1)); auto. lia.
          - apply Hk. lia. }
        rewrite upd_length in L1. rewrite upd_length in L2. exists ix', vx'. split; [exact E'|]. split.
        * split; [exact L1|]. intros q Hq. rewrite B1 by auto. apply upd_nth_other. lia.
        * split; [exact L2|]. intros q Hq. rewrite B2 by auto. apply upd_nth_other. lia.
      + assert (i = nnz). { destruct (Nat.eq_dec i nnz); auto. assert (irow < c) by (apply (Hk i); auto; lia). lia. }
        subst i. exists ix, vx. repeat split; auto.
  Qed.

  Lemma trim_at_skip irow i fuel nnz ix (vx : list F) k :
    nth_error ix (2 + i) = Some k -> k <= irow -> trim_at (S fuel) irow i nnz ix vx = Ok (nnz, (ix, vx)).
  Proof.
    intros E L. cbn [trim_at]. rewrite (get_some E). cbn [bind].
    destruct (Nat.ltb irow k) eqn:C; [lia|]. reflexivity.
  Qed.

  Lemma trim_loop_ok irow m nnz ix (vx : list F) : nnz + 2 <= length ix -> nnz <= length vx -> m <= nnz ->
    (forall q k, q < m -> nth_error ix (2 + q) = Some k -> k <= irow) ->
    (forall q k, m <= q < nnz -> nth_error ix (2 + q) = Some k -> irow < k) ->
    forall d i fuel, d + i = m -> d + 1 < fuel ->
    exists ix' vx', trim_loop fuel irow i nnz ix vx = Ok (m, (ix', vx')) /\
      same_below (2 + m) ix ix' /\ same_below m vx vx'.
  Proof.
    intros Hx Hv Hm Lo Hi. induction d as [|d IH]; intros i fuel Hd Hf; destruct fuel as [|f]; try lia; cbn [trim_loop].
    - simpl in Hd. subst i. destruct (Nat.ltb m nnz) eqn:E.
      + destruct (@trim_at_ok irow m nnz nnz ix vx) as (ix' & vx' & E1 & B1 & B2); try lia; auto.
        rewrite E1. cbn [bind]. destruct f as [|f]; [lia|]. cbn [trim_loop].
        destruct (Nat.ltb (S m) m) eqn:E2; [lia|]. exists ix', vx'. auto.
      + assert (m = nnz) by lia. subst nnz. exists ix, vx. repeat split; auto.
    - destruct (Nat.ltb i nnz) eqn:E; [|lia].
      destruct (@nth_error_lt _ ix (2 + i)) as [k Hk]; [lia|].
      rewrite (@trim_at_skip irow i nnz nnz ix vx k Hk) by (apply (Lo i); auto; lia). cbn [bind].
      apply IH; lia.
  Qed.
End Trim.

Lemma nth_error_firstn_lt {A} (l : list A) : forall m q, q < m -> nth_error (firstn m l) q = nth_error l q.
Proof. induction l; intros [|m] [|q] H; simpl; auto; try lia. apply IHl. lia. Qed.
Lemma firstn_same {A} m (a b : list A) : same_below m a b -> firstn m b = firstn m a.
Proof.
  intros [L H]. apply list_ext. intros q. destruct (lt_dec q m).
  - rewrite !nth_error_firstn_lt by auto. auto.
  - rewrite (proj2 (nth_error_None (firstn m b) q)), (proj2 (nth_error_None (firstn m a) q)); auto; rewrite firstn_length; lia.
Qed.

Lemma same_app {A} (p r b : list A) : same_below (length p) (p ++ r) b -> exists r', b = p ++ r' /\ length r' = length r.
Proof.
  intros S0. pose proof (firstn_same S0) as E. rewrite firstn_len_app in E by auto.
  exists (skipn (length p) b). split.
  - rewrite <- E at 1. rewrite firstn_skipn. auto.
  - rewrite skipn_length. destruct S0 as [L _]. rewrite app_length in L. lia.
Qed.

Lemma split_le (l : list (nat * R)) b : StronglySorted lt (map fst l) ->
  exists l1 l2, l = l1 ++ l2 /\ (forall a, In a (map fst l1) -> a <= b) /\ (forall a, In a (map fst l2) -> b < a).
Proof.
  induction l as [|[k x] t IH]; intros S0.
  - exists [], []. repeat split; auto; simpl; tauto.
  - inversion S0 as [|? ? S1 F1]; subst. destruct (le_dec k b).
    + destruct (IH S1) as (l1 & l2 & -> & A & B). exists ((k, x) :: l1), l2. split; auto. split; auto.
      intros a [<-|Ha]; auto.
    + exists [], ((k, x) :: t). split; auto. split; [simpl; tauto|].
      intros a [<-|Ha]; simpl; [lia|]. rewrite Forall_forall in F1. specialize (F1 _ Ha). simpl in F1. lia.
Qed.

Lemma trim_vec (v : @svec R) irow : well_formed v -> v <> None ->
  exists ix vx nnz ix' vx' n ix'', v = Some (ix, vx) /\ get ix 1 = Ok nnz /\
    trim_loop (S nnz) irow 0 nnz ix vx = Ok (n, (ix', vx')) /\ set ix' 1 n = Ok ix'' /\
    well_formed (Some (ix'', vx')) /\
    forall c, entry (Some (ix'', vx')) c = if Nat.leb c irow then entry v c else 0%R.
Proof.
  intros W N. destruct (wf_rep _ W) as [l Rl]. destruct v as [[ix vx]|]; [|congruence].
  pose proof Rl as (S0 & NZ & cap & ji & jv & -> & -> & Lc & Lj & Pc).
  destruct (split_le l irow S0) as (l1 & l2 & -> & A & B).
  destruct (Nat.eq_dec (length l1 + length l2 + 2) (length l1 + 2)) as [Enil|Hn2].
  - (* nothing above the diagonal *)
    assert (l2 = []) by (destruct l2; auto; simpl in Enil; lia). subst l2. rewrite app_nil_r in *.
    exists (cap :: length l1 :: map fst l1 ++ ji), (map snd l1 ++ jv), (length l1), (cap :: length l1 :: map fst l1 ++ ji), (map snd l1 ++ jv), (length l1), (cap :: length l1 :: map fst l1 ++ ji).
    assert (E : trim_loop (S (length l1)) irow 0 (length l1) (cap :: length l1 :: map fst l1 ++ ji) (map snd l1 ++ jv) = Ok (length l1, (cap :: length l1 :: map fst l1 ++ ji, map snd l1 ++ jv))).
    { assert (G : forall d i f, (d + i = length l1)%nat -> (d < f)%nat -> trim_loop f irow i (length l1) (cap :: length l1 :: map fst l1 ++ ji) (map snd l1 ++ jv) = Ok (length l1, (cap :: length l1 :: map fst l1 ++ ji, map snd l1 ++ jv))).
      { induction d as [|d IHd]; intros i f Hd Hf; destruct f as [|f]; try lia; cbn [trim_loop].
        - simpl in Hd. subst i. rewrite Nat.ltb_irrefl. auto.
        - destruct (Nat.ltb i (length l1)) eqn:E; [|lia].
          destruct (@nth_error_lt _ (map fst l1) i) as [k Hk]; [rewrite map_length; lia|].
          rewrite (@trim_at_skip _ irow i (length l1) (length l1) _ _ k).
          + cbn [bind]. apply IHd; lia.
          + simpl. rewrite nth_error_app1; auto. rewrite map_length. lia.
          + apply A. eapply nth_error_In; eauto. }
      apply (G (length l1)); lia. }
    split; [reflexivity|]. split; [reflexivity|]. split; [exact E|]. split; [reflexivity|]. split; [exact W|].
    intros c. destruct (Nat.leb c irow) eqn:Ec; auto. rewrite (entry_lval _ Rl). unfold lval.
    rewrite lookup_none; auto. intros K. apply A in K. lia.
  - destruct (@trim_loop_ok _ irow (length l1) (length (l1 ++ l2)) (cap :: length (l1 ++ l2) :: map fst (l1 ++ l2) ++ ji) (map snd (l1 ++ l2) ++ jv))
      with (d := length l1) (i := 0) (fuel := S (length (l1 ++ l2))) as (ix' & vx' & E & B1 & B2).
    + simpl. rewrite !app_length, !map_length, app_length. lia.
    + rewrite !app_length, !map_length, app_length. lia.
    + rewrite app_length. lia.
    + intros q k Hq. simpl. rewrite map_app, <- app_assoc, nth_error_app1 by (rewrite map_length; lia).
      intros Hk. apply A. eapply nth_error_In; eauto.
    + intros q k Hq. simpl. rewrite app_length in Hq. rewrite nth_error_app1 by (rewrite map_length, app_length; lia).
      rewrite map_app, nth_error_app2 by (rewrite map_length; lia). intros Hk. apply B. eapply nth_error_In; eauto.
    + lia.
    + rewrite app_length. lia.
    + assert (G1 : exists r', ix' = cap :: length (l1 ++ l2) :: map fst l1 ++ r' /\ length r' = (length l2 + length ji)%nat).
      { destruct (@same_app _ (cap :: length (l1 ++ l2) :: map fst l1) (map fst l2 ++ ji) ix') as (r' & E' & L').
        - simpl length at 1. rewrite map_length. simpl app. rewrite app_assoc, <- map_app. exact B1.
        - exists r'. split; auto. rewrite L', app_length, map_length. auto. }
      assert (G2 : exists r', vx' = map snd l1 ++ r' /\ length r' = (length l2 + length jv)%nat).
      { destruct (@same_app _ (map snd l1) (map snd l2 ++ jv) vx') as (r' & E' & L').
        - rewrite map_length. rewrite app_assoc, <- map_app. exact B2.
        - exists r'. split; auto. rewrite L', app_length, map_length. auto. }
      destruct G1 as (ji' & -> & Lj1). destruct G2 as (jv' & -> & Lj2).
      exists (cap :: length (l1 ++ l2) :: map fst (l1 ++ l2) ++ ji), (map snd (l1 ++ l2) ++ jv), (length (l1 ++ l2)),
        (cap :: length (l1 ++ l2) :: map fst l1 ++ ji'), (map snd l1 ++ jv'), (length l1), (cap :: length l1 :: map fst l1 ++ ji').
      assert (R1 : rep (Some (cap :: length l1 :: map fst l1 ++ ji', map snd l1 ++ jv')) l1).
      { rewrite map_app in S0. apply sorted_app in S0 as (S1 & _ & _). apply Forall_app in NZ as [N1 _].
        split; auto. split; auto. exists cap, ji', jv'. rewrite app_length in Lc. repeat split; auto; lia. }
      split; [reflexivity|]. split; [reflexivity|]. split; [exact E|]. split; [reflexivity|]. split; [eapply rep_wf; eauto|].
      intros c. rewrite (entry_lval _ R1), (entry_lval _ Rl). unfold lval. rewrite lookup_app.
      destruct (Nat.leb c irow) eqn:Ec.
      * destruct (lookup l1 c); auto. rewrite lookup_none; auto. intros K. apply B in K. lia.
      * rewrite lookup_none; auto. intros K. apply A in K. lia.
Qed.

Lemma trim_row_ok n irow A : matrix_ok n A -> (irow < n)%nat ->
  exists A', trim_row irow A = Ok A' /\ matrix_ok n A' /\
    forall r c, mentry A' r c = if Nat.eqb r irow && Nat.ltb irow c then 0%R else mentry A r c.
Proof.
  intros M Hi. unfold trim_row. destruct (row_get M Hi) as (v & Ev & Wv & Nv & Mv). rewrite Ev. cbn [bind].
  destruct (trim_vec irow Wv Nv) as (ix & vx & nnz & ix' & vx' & m & ix'' & -> & E1 & E2 & E3 & W' & U).
  rewrite E1. cbn [bind]. rewrite E2. cbn [bind]. rewrite E3. cbn [bind].
  destruct (@row_set n A irow (Some (ix'', vx')) M Hi W') as (A' & E4 & M' & U'); [discriminate|].
  exists A'. split; auto. split; auto. intros r c. rewrite U'. destruct (Nat.eqb r irow) eqn:E; cbn [andb]; auto.
  apply Nat.eqb_eq in E. subst r. rewrite U, Mv. destruct (Nat.leb c irow) eqn:C1, (Nat.ltb irow c) eqn:C2; auto; lia.
Qed.

(** Mirroring one row. *)
Lemma mirror_entries_ok n irow cap k0 ji jv A0 l : (irow < n)%nat -> Forall (fun e => dropped (snd e) = false) l ->
  StronglySorted lt (map fst l) ->
  forall lb la A, l = la ++ lb -> matrix_ok n A ->
   (forall r c, mentry A r c = if Nat.eqb c irow && Nat.ltb r irow then match lookup la r with Some x => x | None => mentry A0 r c end else mentry A0 r c) ->
  exists A', mirror_entries (length lb) (length la) irow (cap :: k0 :: map fst l ++ ji) (map snd l ++ jv) A = Ok A' /\ matrix_ok n A' /\
   (forall r c, mentry A' r c = if Nat.eqb c irow && Nat.ltb r irow then match lookup l r with Some x => x | None => mentry A0 r c end else mentry A0 r c).
Proof.
  intros Hi NZ S0. induction lb as [|[k x] t IH]; intros la A El M U; cbn [length mirror_entries].
  - exists A. rewrite app_nil_r in El. subst la. auto.
  - assert (G1 : get (cap :: k0 :: map fst l ++ ji) (2 + length la) = Ok k) by (rewrite El; apply arr_keys_at).
    assert (G2 : get (map snd l ++ jv) (length la) = Ok x) by (rewrite El; apply arr_vals_at).
    rewrite G1. cbn [bind]. rewrite G2. cbn [bind].
    assert (Dx : dropped x = false).
    { rewrite El in NZ. apply Forall_app in NZ as [_ N2]. inversion N2; subst; auto. }
    assert (Nk : lookup la k = None). { rewrite El in S0. apply lookup_key in S0. tauto. }
    assert (IH' : forall A1, matrix_ok n A1 ->
      (forall r c, mentry A1 r c = if Nat.eqb c irow && Nat.ltb r irow then match lookup (la ++ [(k, x)]) r with Some x => x | None => mentry A0 r c end else mentry A0 r c) ->
      exists A', mirror_entries (length t) (S (length la)) irow (cap :: k0 :: map fst l ++ ji) (map snd l ++ jv) A1 = Ok A' /\ matrix_ok n A' /\
       (forall r c, mentry A' r c = if Nat.eqb c irow && Nat.ltb r irow then match lookup l r with Some x => x | None => mentry A0 r c end else mentry A0 r c)).
    { intros A1 M1 U1. specialize (IH (la ++ [(k, x)]) A1). rewrite app_length in IH. simpl in IH. rewrite Nat.add_1_r in IH.
      apply IH; auto. rewrite <- app_assoc. exact El. }
    destruct (Nat.ltb k irow) eqn:Ek.
    + assert (Hk : (k < n)%nat) by lia.
      destruct (row_get M Hk) as (v & Ev & Wv & Nv & Mv).
      destruct (@mat_set n A k irow x v M Hk Ev) as (v' & A1 & E1 & E2 & M1 & U1).
      rewrite Ev. cbn [bind]. rewrite E1. cbn [bind]. rewrite E2. cbn [bind].
      apply IH'; auto. intros r c. rewrite U1. unfold drop. rewrite Dx, lookup_app. simpl lookup. rewrite U.
      destruct (Nat.eqb r k && Nat.eqb c irow) eqn:E.
      * assert (r = k /\ c = irow) as [-> ->] by lia. rewrite Nat.eqb_refl, Ek, Nk, Nat.eqb_refl. reflexivity.
      * destruct (Nat.eqb c irow && Nat.ltb r irow) eqn:E'; auto. destruct (lookup la r); auto.
        destruct (Nat.eqb k r) eqn:E''; auto. lia.
    + cbn [bind]. apply IH'; auto. intros r c. rewrite U, lookup_app. simpl lookup.
      destruct (Nat.eqb c irow && Nat.ltb r irow) eqn:E'; auto. destruct (lookup la r); auto.
      destruct (Nat.eqb k r) eqn:E''; auto. lia.
Qed.

Lemma mirror_row_ok n irow A : matrix_ok n A -> (irow < n)%nat -> (forall r, (r < irow)%nat -> mentry A r irow = 0%R) ->
  exists A', mirror_row irow A = Ok A' /\ matrix_ok n A' /\
   (forall r c, mentry A' r c = if Nat.eqb c irow && Nat.ltb r irow then mentry A irow r else mentry A r c).
Proof.
  intros M Hi Z. unfold mirror_row. destruct (row_get M Hi) as (v & Ev & Wv & Nv & Mv). rewrite Ev. cbn [bind].
  destruct (wf_rep _ Wv) as [l Rl]. destruct v as [[ix vx]|]; [|congruence].
  pose proof Rl as (S0 & NZ & cap & ji & jv & -> & -> & Lc & Lj & Pc). cbn [get nth_error bind].
  destruct (@mirror_entries_ok n irow cap (length l) ji jv A l Hi NZ S0 l [] A) as (A' & E & M' & U); auto.
  { intros r c. simpl. destruct (Nat.eqb c irow && Nat.ltb r irow); auto. }
  exists A'. split; auto. split; auto. intros r c. rewrite U. destruct (Nat.eqb c irow && Nat.ltb r irow) eqn:E1; auto.
  rewrite Mv, (entry_lval _ Rl). unfold lval. destruct (lookup l r); auto.
  assert (c = irow) by lia. subst c. rewrite Z by lia. reflexivity.
Qed.

Local Open Scope R_scope.

Lemma sumn_trunc n m f : (m <= n)%nat -> (forall k, (m <= k < n)%nat -> f k = 0) -> sumn n f = sumn m f.
Proof.
  intros Hm. induction n as [|n IH]; intros Z.
  - replace m with 0%nat by lia. auto.
  - destruct (Nat.eq_dec m (S n)) as [->|]; auto. rewrite sumn_S, Z by lia. rewrite IH; [lra|lia|]. intros; apply Z; lia.
Qed.

Lemma inv_factors n A0 i A : (i <= n)%nat -> chol_inv n A0 i A ->
  factors n i A0 (fun r c => if Nat.leb c r && Nat.ltb c i then mentry A r c else 0).
Proof.
  intros Hin [M1 OLD PIV LOW]. set (L := fun r c => if Nat.leb c r && Nat.ltb c i then mentry A r c else 0).
  assert (UL : forall r c, (c <= r)%nat -> (c < i)%nat -> L r c = mentry A r c).
  { intros r c H1 H2. unfold L. destruct (Nat.leb c r && Nat.ltb c i) eqn:E; [auto|lia]. }
  split; [|split].
  - intros r c H1. unfold L. destruct (Nat.leb c r && Nat.ltb c i) eqn:E; [lia|auto].
  - intros c Hc. rewrite UL by lia. destruct (PIV c Hc) as [P ->]. apply pivot_sqrt. auto.
  - intros r j Hj Hr.
    assert (SS : llt n L r j = sumn j (fun k => mentry A j k * mentry A r k) + mentry A r j * mentry A j j).
    { unfold llt. rewrite (@sumn_trunc n (S j)).
      - rewrite sumn_S, !UL by lia. f_equal. apply sumn_ext. intros k Hk. rewrite !UL by lia. lra.
      - lia.
      - intros k Hk. unfold L at 2. destruct (Nat.leb k j && Nat.ltb k i) eqn:E1; [lia|lra]. }
    rewrite SS, !UL by lia. destruct (PIV j) as [P Q]; [lia|]. pose proof (pivot_sqrt P) as P5. rewrite <- Q in P5.
    destruct (Nat.eq_dec r j) as [->|Hne].
    + assert (mentry A j j * mentry A j j = A0 j j - sumn j (fun k => mentry A j k * mentry A j k)).
      { rewrite Q at 1 2. apply sqrt_sqrt. lra. }
      split; [|intros; lra]. replace (A0 j j - _) with 0 by lra. rewrite Rabs_R0. lra.
    + pose proof (LOW r j ltac:(lia) ltac:(lia)) as LW.
      assert (EX : A0 r j - sumn j (fun k => mentry A j k * mentry A r k) = quot A0 (mentry A) r j * mentry A j j).
      { unfold quot. field. lra. }
      split.
      * replace (A0 r j - _) with ((quot A0 (mentry A) r j - drop (quot A0 (mentry A) r j)) * mentry A j j).
        -- rewrite Rabs_mult, (Rabs_pos_eq (mentry A j j)) by lra.
           apply Rmult_le_compat_r; [lra|]. apply drop_err.
        -- rewrite <- LW. lra.
      * intros NZ. rewrite LW in NZ. apply drop_nz in NZ. rewrite NZ in LW. rewrite LW. lra.
Qed.

Lemma factors_ext n i A L L' : (forall r c, (r < n)%nat -> (c < n)%nat -> L r c = L' r c) ->
  (forall r c, (r < c)%nat \/ (i <= c)%nat -> L' r c = 0) -> (i <= n)%nat -> factors n i A L -> factors n i A L'.
Proof.
  intros E Z Hi (_ & D & X). split; auto. split.
  - intros c Hc. rewrite <- E by lia. auto.
  - intros r c Hc Hr. rewrite <- !E by lia.
    assert (EL : llt n L r c = llt n L' r c) by (apply sumn_ext; intros k Hk; rewrite !E by lia; auto).
    rewrite <- EL. auto.
Qed.

(** The factorization: symmetric storage of a lower factor; failure means a small pivot. *)
Theorem cholesky_ok n A : matrix_ok n A ->
  (cholesky n A = Ok None /\ exists i L, (i < n)%nat /\ factors n i (mentry A) L /\ mentry A i i - llt n L i i < 1 / 10 ^ 10) \/
  exists C, cholesky n A = Ok (Some C) /\ matrix_ok n C /\
    (forall i j, (i < n)%nat -> (j < n)%nat -> mentry C i j = mentry C j i) /\
    factors n n (mentry A) (fun r c => if Nat.ltb c n then lower (mentry C) r c else 0).
Proof.
  intros M. unfold cholesky.
  destruct (@chol_loop_ok n (mentry A) n 0 A) as [(E & i & A' & Hi & I1 & SM)|(A1 & E & I1)].
  - lia.
  - constructor; auto; intros; lia.
  - left. rewrite E. split; [reflexivity|]. exists i, (fun r c => if Nat.leb c r && Nat.ltb c i then mentry A' r c else 0).
    split; auto. split; [apply inv_factors; auto; lia|]. unfold llt. rewrite (@sumn_trunc n i); [|lia|].
    + rewrite (@sumn_ext i _ (fun k => mentry A' i k * mentry A' i k)); auto.
      intros k Hk. destruct (Nat.leb k i && Nat.ltb k i) eqn:E1; [auto|lia].
    + intros k Hk. destruct (Nat.leb k i && Nat.ltb k i) eqn:E1; [lia|lra].
  - right. rewrite E. cbn [bind]. pose proof I1 as [M1 _ _ _].
    destruct (@for_res_inv _ (fun j B => matrix_ok n B /\ forall r c, mentry B r c = if Nat.ltb r j && Nat.ltb r c then 0 else mentry A1 r c) n 0 trim_row A1)
      as (A2 & E2 & M2 & U2).
    { split; auto. }
    { intros k B Hk (MB & UB). destruct (@trim_row_ok n k B MB ltac:(lia)) as (B' & EB & MB' & UB').
      exists B'. split; auto. split; auto. intros r c. rewrite UB', UB.
      destruct (Nat.eqb r k && Nat.ltb k c) eqn:E1, (Nat.ltb r (S k) && Nat.ltb r c) eqn:E3, (Nat.ltb r k && Nat.ltb r c) eqn:E4; auto; lia. }
    rewrite E2. cbn [bind]. simpl Nat.add in U2.
    destruct (@for_res_inv _ (fun j B => matrix_ok n B /\ forall r c, (r < n)%nat -> (c < n)%nat ->
        mentry B r c = if Nat.ltb r c then (if Nat.ltb c j then mentry A1 c r else 0) else mentry A1 r c) (n - 1) 1 mirror_row A2)
      as (C & E3 & M3 & U3).
    { split; auto. intros r c Hr Hc. rewrite U2. destruct (Nat.ltb r n && Nat.ltb r c) eqn:E1, (Nat.ltb r c) eqn:E3, (Nat.ltb c 1) eqn:E4; auto; lia. }
    { intros k B Hk (MB & UB). destruct (@mirror_row_ok n k B MB ltac:(lia)) as (B' & EB & MB' & UB').
      { intros r Hr. rewrite UB by lia. destruct (Nat.ltb r k) eqn:E1; [|lia]. rewrite Nat.ltb_irrefl. auto. }
      exists B'. split; auto. split; auto. intros r c Hr Hc. rewrite UB'.
      destruct (Nat.eqb c k && Nat.ltb r k) eqn:E1.
      - assert (c = k) by lia. subst c. rewrite UB by lia.
        destruct (Nat.ltb k r) eqn:E4; [lia|]. destruct (Nat.ltb r k) eqn:E5; [|lia]. destruct (Nat.ltb k (S k)) eqn:E6; [auto|lia].
      - rewrite UB by lia. destruct (Nat.ltb r c) eqn:E4; auto. destruct (Nat.ltb c k) eqn:E5, (Nat.ltb c (S k)) eqn:E6; auto; lia. }
    rewrite E3. cbn [bind]. exists C. split; auto. split; auto. split.
    + intros i j Hi Hj. rewrite !U3 by auto.
      destruct (Nat.ltb i j) eqn:E4, (Nat.ltb j i) eqn:E5, (Nat.ltb j (1 + (n - 1))) eqn:E6, (Nat.ltb i (1 + (n - 1))) eqn:E7; auto; try lia.
      assert (i = j) by lia. subst. auto.
    + apply factors_ext with (L := fun r c => if Nat.leb c r && Nat.ltb c n then mentry A1 r c else 0); auto.
      * intros r c Hr Hc. unfold lower. destruct (Nat.ltb c n) eqn:E4; [|lia]. rewrite andb_true_r.
        destruct (Nat.leb c r) eqn:E5; auto. rewrite U3 by auto. destruct (Nat.ltb r c) eqn:E6; [lia|auto].
      * intros r c Hrc. unfold lower. destruct (Nat.ltb c n) eqn:E4; auto. destruct (Nat.leb c r) eqn:E5; auto. lia.
      * apply inv_factors; auto.
Qed.

(** ** The solver. *)
Lemma dense_rows n C i : matrix_ok n C -> (i < n)%nat -> forall v x lo hi, get C i = Ok v -> (hi < length x)%nat ->
  dot_dense v x lo hi = Ok (sumn (hi + 1 - lo) (fun k => mentry C i (lo + k) * nth (lo + k) x 0)).
Proof.
  intros M Hi v x lo hi Ev Hx. destruct (row_get M Hi) as (w & Ew & Ww & Nw & Mw). rewrite Ew in Ev. inversion Ev; subst w.
  rewrite dot_dense_ok by auto. f_equal. apply sumn_ext. intros. now rewrite Mw.
Qed.

Lemma nth_nth_error_R (l : list R) k : nth k l 0 = match nth_error l k with Some a => a | None => 0 end.
Proof. revert k; induction l; destruct k; simpl; auto. Qed.
Lemma sumn_swap n m (f : nat -> nat -> R) : sumn n (fun i => sumn m (fun j => f i j)) = sumn m (fun j => sumn n (fun i => f i j)).
Proof.
  induction n as [|n IH].
  - rewrite sumn_0, (@sumn_ext m _ (fun _ => 0)) by (intros; apply sumn_0). now rewrite sumn_zero.
  - rewrite sumn_S, IH, <- sumn_plus. apply sumn_ext. intros. now rewrite sumn_S.
Qed.
Lemma nth_upd_R (l : list R) i a k : (i < length l)%nat -> nth k (upd l i a) 0 = if Nat.eqb k i then a else nth k l 0.
Proof.
  intros Hi. destruct (Nat.eqb k i) eqn:E.
  - apply Nat.eqb_eq in E. subst. apply nth_error_nth. apply upd_nth_same. auto.
  - apply Nat.eqb_neq in E. rewrite !nth_nth_error_R. rewrite upd_nth_other by auto. reflexivity.
Qed.

Theorem solve_ok n C b x : matrix_ok n C -> (0 < n)%nat -> (n <= length b)%nat -> (n <= length x)%nat ->
  (forall i j, (i < n)%nat -> (j < n)%nat -> mentry C i j = mentry C j i) ->
  (forall i, (i < n)%nat -> mentry C i i <> 0) ->
  exists z, cholesky_solve n C b x = Ok z /\ length z = length x /\
    forall i, (i < n)%nat -> matvec n (llt n (lower (mentry C))) (fun k => nth k z 0) i = nth i b 0.
Proof.
  intros M Hn Hb Hx SYM DG. unfold cholesky_solve. destruct (Nat.eqb n 0) eqn:E0; [apply Nat.eqb_eq in E0; lia|]. clear E0.
  destruct (@for_res_inv _ (fun i y => length y = n /\ forall k, (k < i)%nat ->
     sumn k (fun m => mentry C k m * nth m y 0) + mentry C k k * nth k y 0 = nth k b 0) n 0 (fwd_step C b) (repeat n0 n)) as (y & Ey & Ly & Hy).
  { split; [apply repeat_length|]. intros; lia. }
  { intros i y Hi (Ly & Hy). unfold fwd_step. assert (Hin : (i < n)%nat) by lia.
    destruct (row_get M Hin) as (v & Ev & Wv & Nv & Mv). rewrite Ev. cbn [bind].
    assert (ED : (if Nat.ltb 0 i then dot_dense v y 0 (i - 1) else Ok n0) = Ok (sumn i (fun m => mentry C i m * nth m y 0))).
    { destruct (Nat.ltb 0 i) eqn:E.
      - rewrite (dense_rows M Hin) by (auto; lia). replace (i - 1 + 1 - 0)%nat with i by lia. reflexivity.
      - replace i with 0%nat by lia. reflexivity. }
    rewrite ED. cbn [bind]. rewrite get_entry_R by auto. cbn [bind]. rewrite <- Mv.
    destruct (@nth_error_lt _ b i) as [bi Hbi]; [lia|]. rewrite (get_some Hbi). cbn [bind].
    rewrite set_Ok by lia. eexists. split; [reflexivity|]. rewrite upd_length. split; auto.
    assert (LT : (i < length y)%nat) by lia.
    intros k Hk. rewrite (@sumn_ext k _ (fun m => mentry C k m * nth m y 0)).
    2:{ intros m Hm. rewrite nth_upd_R by auto. destruct (Nat.eqb m i) eqn:E; [lia|auto]. }
    rewrite nth_upd_R by auto. destruct (Nat.eqb k i) eqn:E.
    - apply Nat.eqb_eq in E. subst k. rewrite (nth_error_nth _ _ 0 Hbi). change (nsub ?u ?v) with (u - v). change (ndiv ?u ?v) with (u / v).
      field. apply DG. auto.
    - apply Hy. apply Nat.eqb_neq in E. lia. }
  rewrite Ey. cbn [bind].
  assert (BK : forall m z, (m <= n)%nat -> length z = length x ->
     (forall k, (m <= k < n)%nat -> sumn (n - (k + 1)) (fun j => mentry C k (k + 1 + j) * nth (k + 1 + j) z 0) + mentry C k k * nth k z 0 = nth k y 0) ->
     exists z', back_loop m n C y z = Ok z' /\ length z' = length x /\
     (forall k, (k < n)%nat -> sumn (n - (k + 1)) (fun j => mentry C k (k + 1 + j) * nth (k + 1 + j) z' 0) + mentry C k k * nth k z' 0 = nth k y 0)).
  { induction m as [|m IH]; intros z Hm Lz Hz; cbn [back_loop].
    - exists z. split; auto. split; auto. intros; apply Hz; lia.
    - assert (Hin : (m < n)%nat) by lia.
      destruct (row_get M Hin) as (v & Ev & Wv & Nv & Mv). rewrite Ev. cbn [bind].
      rewrite (dense_rows M Hin) by (auto; lia). cbn [bind]. rewrite get_entry_R by auto. cbn [bind]. rewrite <- Mv.
      destruct (@nth_error_lt _ y m) as [ym Hym]; [lia|]. rewrite (get_some Hym). cbn [bind].
      rewrite set_Ok by lia. cbn [bind]. assert (LT : (m < length z)%nat) by lia.
      apply IH; [lia|now rewrite upd_length|].
      intros k Hk. rewrite (@sumn_ext _ _ (fun j => mentry C k (k + 1 + j) * nth (k + 1 + j) z 0)).
      2:{ intros j Hj. rewrite nth_upd_R by auto. destruct (Nat.eqb (k + 1 + j) m) eqn:E; [lia|auto]. }
      rewrite nth_upd_R by auto. destruct (Nat.eqb k m) eqn:E.
      + apply Nat.eqb_eq in E. subst k. rewrite (nth_error_nth _ _ 0 Hym). change (nsub ?u ?v) with (u - v). change (ndiv ?u ?v) with (u / v).
        replace (n - 1 + 1 - (m + 1))%nat with (n - (m + 1))%nat by lia. field. apply DG. auto.
      + apply Hz. lia. }
  destruct (BK n x (Nat.le_refl n) eq_refl) as (z & Ez & Lz & Hz); [intros; lia|].
  exists z. split; auto. split; auto. intros i Hi.
  (* L^T z = y and L y = b *)
  assert (LTz : forall j, (j < n)%nat -> sumn n (fun k => lower (mentry C) k j * nth k z 0) = nth j y 0).
  { intros j Hj. rewrite <- (Hz j Hj).
    assert (G : forall d, sumn (j + 1 + d) (fun k => lower (mentry C) k j * nth k z 0) = sumn d (fun q => lower (mentry C) (j + 1 + q) j * nth (j + 1 + q) z 0) + lower (mentry C) j j * nth j z 0).
    { induction d as [|d IHd].
      - rewrite sumn_0, Nat.add_0_r, Nat.add_1_r, sumn_S. rewrite (@sumn_ext j _ (fun _ => 0)).
        + rewrite sumn_zero. lra.
        + intros k Hk. unfold lower. destruct (Nat.leb j k) eqn:E; [lia|lra].
      - rewrite Nat.add_succ_r, !sumn_S, IHd. lra. }
    replace n with (j + 1 + (n - (j + 1)))%nat at 1 by lia. rewrite G. f_equal.
    - apply sumn_ext. intros q Hq. unfold lower. destruct (Nat.leb j (j + 1 + q)) eqn:E; [|lia]. rewrite (SYM (j + 1 + q)%nat j) by lia. auto.
    - unfold lower. rewrite Nat.leb_refl. auto. }
  unfold matvec, llt.
  rewrite (@sumn_ext n _ (fun k => sumn n (fun m => lower (mentry C) i m * (lower (mentry C) k m * nth k z 0)))).
  2:{ intros k _. rewrite Rmult_comm, <- sumn_scal. apply sumn_ext. intros; lra. }
  rewrite sumn_swap.
  rewrite (@sumn_ext n _ (fun m => lower (mentry C) i m * nth m y 0)).
  2:{ intros m Hm. rewrite sumn_scal, LTz by auto. auto. }
  rewrite (@sumn_trunc n (S i)).
  - rewrite sumn_S. unfold lower at 2. rewrite Nat.leb_refl. rewrite <- (Hy i Hi). f_equal.
    apply sumn_ext. intros k Hk. unfold lower. destruct (Nat.leb k i) eqn:E; [auto|lia].
  - lia.
  - intros k Hk. unfold lower. destruct (Nat.leb k i) eqn:E; [lia|lra].
Qed.
