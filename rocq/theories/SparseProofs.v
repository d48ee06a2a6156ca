(** Sparse vectors refine sorted association lists. *)
From Verif Require Import Base Num Sparse SparseSpec.

Lemma get_app {A} (p : list A) x q : get (p ++ x :: q) (length p) = Ok x.
Proof. apply get_some. rewrite nth_error_app2, Nat.sub_diag by lia. reflexivity. Qed.
Lemma upd_app {A} (p : list A) x y q : upd (p ++ x :: q) (length p) y = p ++ y :: q.
Proof. induction p; simpl; auto. now rewrite IHp. Qed.
Lemma set_app {A} (p : list A) x y q : set (p ++ x :: q) (length p) y = Ok (p ++ y :: q).
Proof. rewrite set_Ok by (rewrite app_length; simpl; lia). now rewrite upd_app. Qed.

Lemma shift_left_app {A} (q : list A) : forall p x j, exists y,
  shift_left (p ++ x :: q ++ j) (length p) (length q) = Ok (p ++ q ++ y :: j).
Proof.
  induction q as [|z q IH]; intros p x j.
  - exists x. reflexivity.
  - cbn [length shift_left app].
    assert (G : get (p ++ x :: z :: q ++ j) (length p + 1) = Ok z).
    { pose proof (get_app (p ++ [x]) z (q ++ j)) as G. rewrite app_length, <- app_assoc in G. exact G. }
    rewrite G. cbn [bind]. rewrite set_app. cbn [bind].
    destruct (IH (p ++ [z]) z j) as [y Hy].
    exists y. rewrite app_length in Hy. simpl in Hy. rewrite <- !app_assoc in Hy. exact Hy.
Qed.

Lemma shift_right_app {A} (q : list A) : forall p y j, exists x,
  shift_right (p ++ q ++ y :: j) (length p + length q) (length q) = Ok (p ++ x :: q ++ j).
Proof.
  induction q as [|z q IH] using rev_ind; intros p y j.
  - exists y. simpl. reflexivity.
  - rewrite app_length. simpl. rewrite (Nat.add_comm (length q) 1). cbn [Nat.add shift_right].
    replace (length p + S (length q) - 1) with (length (p ++ q)) by (rewrite app_length; lia).
    rewrite <- app_assoc. simpl. rewrite app_assoc.
    rewrite get_app. simpl.
    replace ((p ++ q) ++ z :: y :: j) with (((p ++ q) ++ [z]) ++ y :: j) by (rewrite <- !app_assoc; reflexivity).
    replace (length p + S (length q)) with (length ((p ++ q) ++ [z])) by (rewrite !app_length; simpl; lia).
    rewrite set_app. simpl.
    destruct (IH p z (z :: j)) as [x Hx]. exists x.
    rewrite app_length, <- !app_assoc. simpl. exact Hx.
Qed.

(** Keys around an insertion point. *)
Lemma sorted_app (a b : list nat) : StronglySorted lt (a ++ b) <->
  StronglySorted lt a /\ StronglySorted lt b /\ forall x y, In x a -> In y b -> x < y.
Proof.
  induction a as [|h t IH]; simpl.
  - split; [intros; repeat split; auto; try constructor; contradiction | tauto].
  - split.
    + intros S0. inversion S0 as [|? ? S1 F1]; subst. apply IH in S1 as (A & B & C).
      rewrite Forall_app in F1. destruct F1 as [F1 F2]. repeat split; auto.
      * constructor; auto.
      * intros x y [<-|Hx] Hy; auto. rewrite Forall_forall in F2. auto.
    + intros (A & B & C). inversion A; subst. constructor.
      * apply IH. auto.
      * apply Forall_app. split; auto. apply Forall_forall. auto.
Qed.

Section FindPos.
  Variables (c n : nat) (ks j : list nat) (row : nat).
  Let ix := c :: n :: ks ++ j.
  Hypothesis srt : StronglySorted lt ks.

  Lemma key_at p k : nth_error ks p = Some k -> get ix (p + 2) = Ok k.
  Proof.
    intros E. apply get_some. unfold ix. rewrite Nat.add_comm. simpl.
    rewrite nth_error_app1; auto. eapply nth_error_Some_lt; eauto.
  Qed.

  Lemma sorted_nth p q a b : nth_error ks p = Some a -> nth_error ks q = Some b -> p < q -> a < b.
  Proof.
    revert srt. clear. revert p q. induction ks as [|h t IH]; intros p q srt Hp Hq L; [destruct p; discriminate|].
    inversion srt as [|? ? S1 F1]; subst. destruct q as [|q]; [lia|]. destruct p as [|p]; simpl in *.
    - inversion Hp; subst. rewrite Forall_forall in F1. apply F1. eapply nth_error_In; eauto.
    - eapply IH; eauto. lia.
  Qed.

  (** What the binary search returns: the place of the row, or the place next to it. *)
  Definition around (pos : nat) : Prop :=
    exists k, nth_error ks pos = Some k /\
      (k = row \/ (k <> row /\
        (forall q b, q < pos -> nth_error ks q = Some b -> b < row) /\
        (forall q b, pos < q -> nth_error ks q = Some b -> row < b))).

  Lemma find_pos_ok fuel left right :
    left <= right -> right < length ks -> right - left < fuel ->
    (forall q b, q < left -> nth_error ks q = Some b -> b < row) ->
    (forall q b, right < q -> nth_error ks q = Some b -> row < b) ->
    exists pos, find_pos fuel row ix (left + 2) (right + 2) = Ok (pos + 2) /\ around pos.
  Proof.
    revert left right. induction fuel as [|f IH]; intros l r LR RL FU HL HR; [lia|].
    cbn [find_pos].
    set (m := (l + r) / 2).
    assert (Hm : l <= m <= r) by (unfold m; split; [apply Nat.div_le_lower_bound | apply Nat.div_le_upper_bound]; lia).
    assert (Em : Nat.div (l + 2 + (r + 2)) 2 = m + 2).
    { replace (l + 2 + (r + 2)) with (l + r + 2 * 2) by lia. rewrite Nat.div_add by lia. reflexivity. }
    rewrite Em.
    destruct (@nth_error_lt _ ks m) as [k Hk]; [lia|].
    rewrite (key_at _ Hk). simpl.
    assert (LO : forall q b, q < m -> nth_error ks q = Some b -> b < k) by (intros; eapply sorted_nth; eauto).
    assert (HI : forall q b, m < q -> nth_error ks q = Some b -> k < b) by (intros; eapply sorted_nth; eauto).
    destruct (Nat.eqb k row) eqn:E1; [apply Nat.eqb_eq in E1|apply Nat.eqb_neq in E1].
    { exists m. split; auto. exists k. auto. }
    destruct (Nat.eqb (l + 2) (r + 2)) eqn:E2; [apply Nat.eqb_eq in E2|apply Nat.eqb_neq in E2].
    { exists m. split; auto. exists k. split; auto. right. split; auto.
      assert (l = r) by lia. assert (m = l) by lia. subst r. split; intros; [apply (HL q)|apply (HR q)]; auto; lia. }
    destruct (Nat.ltb k row && Nat.leb (m + 2 + 1) (r + 2)) eqn:E3.
    { replace (m + 2 + 1) with ((m + 1) + 2) by lia. apply IH; try lia.
      - intros q b Hq Eq. destruct (Nat.eq_dec q m) as [->|].
        + rewrite Hk in Eq. inversion Eq; subst. lia.
        + assert (b < k) by (apply (LO q); auto; lia). lia.
      - auto. }
    destruct (Nat.ltb row k && Nat.leb (l + 2 + 1) (m + 2)) eqn:E4.
    { replace (m + 2 - 1) with ((m - 1) + 2) by lia. apply IH; try lia; auto.
      intros q b Hq Eq. destruct (Nat.eq_dec q m) as [->|].
      + rewrite Hk in Eq. inversion Eq; subst. lia.
      + assert (k < b) by (apply (HI q); auto; lia). lia. }
    exists m. split; auto. exists k. split; auto. right. split; auto.
    split; intros q b Hq Eq.
    - destruct (lt_dec k row). { assert (b < k) by (apply (LO q); auto). lia. }
      apply (HL q); auto. lia.
    - destruct (lt_dec row k). { assert (k < b) by (apply (HI q); auto). lia. }
      apply (HR q); auto. lia.
  Qed.
End FindPos.

Section Refine.
  Context {F : Type} `{NF : Num F}.

  Definition repP (P : F -> Prop) (v : svec) (l : list (nat * F)) : Prop :=
    StronglySorted lt (map fst l) /\ Forall (fun e => P (snd e)) l /\
    match v with
    | None => l = []
    | Some (ix, vx) => exists cap ji jv,
        ix = cap :: length l :: map fst l ++ ji /\ vx = map snd l ++ jv /\
        length l + length ji = cap /\ length ji = length jv /\ 0 < cap
    end.
  Definition rep : svec -> list (nat * F) -> Prop := repP (fun x => dropped x = false).
  (** The capacity; a null vector is first allocated with ten places. *)
  Definition capof (v : @svec F) : nat := match v with None => 10 | Some (ix, _) => nth 0 ix 0 end.

  Fixpoint lookup (l : list (nat * F)) (row : nat) : option F :=
    match l with
    | [] => None
    | (r, x) :: t => if Nat.eqb r row then Some x else lookup t row
    end.
  Definition lval l row : F := match lookup l row with Some x => x | None => n0 end.

  Lemma lookup_app l1 l2 row : lookup (l1 ++ l2) row =
    match lookup l1 row with Some x => Some x | None => lookup l2 row end.
  Proof. induction l1 as [|[r x] t IH]; simpl; auto. destruct (r =? row); auto. Qed.
  Lemma lookup_none l row : ~ In row (map fst l) -> lookup l row = None.
  Proof.
    induction l as [|[r x] t IH]; simpl; auto. intros N.
    destruct (r =? row) eqn:E; [apply Nat.eqb_eq in E; tauto|]. apply IH. tauto.
  Qed.
  Lemma lookup_some_in l row x : lookup l row = Some x -> In (row, x) l.
  Proof.
    induction l as [|[r y] t IH]; simpl; [discriminate|].
    destruct (r =? row) eqn:E; [apply Nat.eqb_eq in E; intros K; inversion K; subst; auto|]. auto.
  Qed.
  Lemma lookup_in l row : In row (map fst l) -> exists x, lookup l row = Some x.
  Proof.
    induction l as [|[r y] t IH]; simpl; [tauto|]. intros [->|K]; [rewrite Nat.eqb_refl; eauto|].
    destruct (r =? row); eauto.
  Qed.

  (** The list of entries is cut at the place the binary search found. *)
  Lemma around_split (l : list (nat * F)) row pos : StronglySorted lt (map fst l) -> around (map fst l) row pos ->
    exists l1 k x l2, l = l1 ++ (k, x) :: l2 /\ length l1 = pos /\
      (k = row \/ (k <> row /\ (forall a, In a (map fst l1) -> a < row) /\ (forall a, In a (map fst l2) -> row < a))).
  Proof.
    intros S0 (k & Hk & D). rewrite map_nth_error' in Hk.
    destruct (nth_error l pos) as [[k' x]|] eqn:E; [|discriminate]. simpl in Hk. inversion Hk; subst k'.
    destruct (nth_error_split _ _ E) as (l1 & l2 & -> & L). exists l1, k, x, l2. split; auto. split; auto.
    destruct D as [->|(N & A & B)]; auto. right. split; auto. split.
    - intros a Ha. apply In_nth_error in Ha as [q Hq]. apply (A q).
      + apply nth_error_Some_lt in Hq. rewrite map_length in Hq. lia.
      + rewrite map_app, nth_error_app1; auto. apply nth_error_Some_lt in Hq. auto.
    - intros a Ha. apply In_nth_error in Ha as [q Hq]. apply (B (length (map fst l1) + S q)).
      + rewrite map_length. lia.
      + rewrite map_app, nth_error_app2 by lia.
        replace (length (map fst l1) + S q - length (map fst l1)) with (S q) by lia. exact Hq.
  Qed.

  (** The search on the arrays of a vector. *)
  Lemma search_ok cap ji (l : list (nat * F)) row :
    StronglySorted lt (map fst l) -> l <> [] ->
    exists l1 k x l2, l = l1 ++ (k, x) :: l2 /\
      find_pos (S (length l)) row (cap :: length l :: map fst l ++ ji) 2 (1 + length l) = Ok (length l1 + 2) /\
      (k = row \/ (k <> row /\ (forall a, In a (map fst l1) -> a < row) /\ (forall a, In a (map fst l2) -> row < a))).
  Proof.
    intros S0 N.
    assert (L : 0 < length l) by (destruct l; simpl; [congruence|lia]).
    destruct (@find_pos_ok cap (length l) (map fst l) ji row S0 (S (length l)) 0 (length l - 1)) as (pos & E & A);
      rewrite ?map_length; try lia.
    { intros q b Hq Eq. apply nth_error_Some_lt in Eq. rewrite map_length in Eq. lia. }
    destruct (around_split l S0 A) as (l1 & k & x & l2 & -> & <- & D).
    exists l1, k, x, l2. split; auto. split; auto. rewrite <- E. f_equal; lia.
  Qed.

  Lemma arr_key cap n (l1 : list (nat * F)) k x l2 ji :
    cap :: n :: map fst (l1 ++ (k, x) :: l2) ++ ji = (cap :: n :: map fst l1) ++ k :: (map fst l2 ++ ji).
  Proof. rewrite map_app. simpl. rewrite <- app_assoc. reflexivity. Qed.
  Lemma arr_val (l1 : list (nat * F)) k x l2 jv :
    map snd (l1 ++ (k, x) :: l2) ++ jv = map snd l1 ++ x :: (map snd l2 ++ jv).
  Proof. rewrite map_app. simpl. rewrite <- app_assoc. reflexivity. Qed.
  Lemma len_key cap n (l1 : list (nat * F)) : length (cap :: n :: map fst l1) = length l1 + 2.
  Proof. simpl. rewrite map_length. lia. Qed.

  Lemma lookup_key (l1 : list (nat * F)) row x l2 : StronglySorted lt (map fst (l1 ++ (row, x) :: l2)) ->
    lookup l1 row = None /\ lookup l2 row = None.
  Proof.
    rewrite map_app. intros S0. apply sorted_app in S0 as (A & B & C). simpl in B. inversion B as [|? ? B1 B2]; subst.
    split; apply lookup_none; intros K.
    - specialize (C row row K). simpl in C. assert (row < row) by (apply C; auto). lia.
    - rewrite Forall_forall in B2. specialize (B2 _ K). lia.
  Qed.

  Lemma get_entry_okP P v l row : repP P v l -> v <> None -> get_entry row v = Ok (lval l row).
  Proof.
    intros (S0 & NZ & R) N. destruct v as [[ix vx]|]; [|congruence].
    destruct R as (cap & ji & jv & -> & -> & Lc & Lj & Pc). unfold get_entry. cbn [get nth_error bind].
    destruct (Nat.eqb (length l) 0) eqn:E0.
    { apply Nat.eqb_eq in E0. destruct l; [reflexivity|discriminate]. }
    assert (l <> []) by (intros ->; discriminate).
    destruct (@search_ok cap ji l row S0) as (l1 & k & x & l2 & El & Ef & D); auto.
    rewrite Ef. cbn [bind]. rewrite El, arr_key, <- (len_key cap (length (l1 ++ (k,x)::l2)) l1), get_app. cbn [bind].
    unfold lval. destruct (Nat.eqb k row) eqn:E1.
    - apply Nat.eqb_eq in E1. subst k l. destruct (lookup_key _ _ _ _ S0) as [A B].
      rewrite lookup_app, A. simpl. rewrite Nat.eqb_refl, map_length, Nat.sub_0_r.
      rewrite arr_val, <- (map_length snd l1). apply get_app.
    - apply Nat.eqb_neq in E1. destruct D as [->|(_ & A & B)]; [congruence|].
      rewrite lookup_app. rewrite (lookup_none l1). 2:{ intros K. specialize (A _ K). lia. }
      simpl. destruct (k =? row) eqn:E2; [apply Nat.eqb_eq in E2; congruence|].
      rewrite lookup_none; auto. intros K. specialize (B _ K). lia.
  Qed.

  Lemma get_entry_ok v l row : rep v l -> v <> None -> get_entry row v = Ok (lval l row).
  Proof. apply get_entry_okP. Qed.

  (** Result of an update, as a list. *)
  Definition updated (l l' : list (nat * F)) (row : nat) (val : F) : Prop :=
    forall r, lookup l' r = if Nat.eqb row r then (if tiny val then None else Some val) else lookup l r.

  Lemma step_back_ok row pos cap n (l1 : list (nat * F)) k x l2 ji fuel :
    pos = length l1 + 2 -> k <> row -> pos < fuel ->
    (forall a, In a (map fst l1) -> a < row) ->
    exists pos', step_back fuel (cap :: n :: map fst (l1 ++ (k, x) :: l2) ++ ji) row pos = Ok pos' /\
      exists p, get (cap :: n :: map fst (l1 ++ (k, x) :: l2) ++ ji) pos' = Ok p /\
      (if Nat.ltb p row then pos' + 1 else pos') = length l1 + 2 + (if Nat.ltb k row then 1 else 0).
  Proof.
    intros -> Hk FU A. destruct fuel as [|f]; [lia|].
    assert (G : get (cap :: n :: map fst (l1 ++ (k, x) :: l2) ++ ji) (length l1 + 2) = Ok k).
    { rewrite arr_key, <- (len_key cap n l1). apply get_app. }
    cbn [step_back]. rewrite G. cbn [bind].
    destruct (Nat.ltb row k && Nat.ltb 2 (length l1 + 2)) eqn:E.
    - destruct l1 as [|e l1 _] using rev_ind; [simpl in E; lia|]. destruct e as [k1 x1].
      assert (G1 : get (cap :: n :: map fst ((l1 ++ [(k1, x1)]) ++ (k, x) :: l2) ++ ji) (length (l1 ++ [(k1, x1)]) + 2 - 1) = Ok k1).
      { rewrite <- app_assoc. simpl app. rewrite arr_key, app_length. simpl length.
        replace (length l1 + 1 + 2 - 1) with (length l1 + 2) by lia.
        rewrite <- (len_key cap n l1). apply get_app. }
      assert (K1 : k1 < row). { apply A. rewrite map_app. apply in_or_app. simpl. auto. }
      destruct f as [|f]; [lia|]. cbn [step_back]. rewrite G1. cbn [bind].
      destruct (Nat.ltb row k1) eqn:E1; [lia|]. simpl andb. cbv iota.
      eexists. split; [reflexivity|]. exists k1. split; [exact G1|].
      rewrite app_length. simpl. destruct (k1 <? row) eqn:E2, (k <? row) eqn:E3; lia.
    - eexists. split; [reflexivity|]. exists k. split; [exact G|]. destruct (k <? row) eqn:E1; lia.
  Qed.

  Lemma firstn_len_app {A} n (a b : list A) : length a = n -> firstn n (a ++ b) = a.
  Proof. intros <-. rewrite firstn_app, Nat.sub_diag, firstn_all. simpl. apply app_nil_r. Qed.

  (** Insertion of a new row between smaller and larger rows. *)
  Lemma insert_arrays cap (l1 l2 : list (nat * F)) ji (jv : list F) row val :
    length ji = length jv -> 0 < length ji ->
    exists ji' jv', length ji' = length jv' /\ S (length ji') = length ji /\
      exists I1 V1 I2,
      shift_right (cap :: length (l1 ++ l2) :: map fst (l1 ++ l2) ++ ji) (2 + length (l1 ++ l2)) (2 + length (l1 ++ l2) - (length l1 + 2)) = Ok I1 /\
      shift_right (map snd (l1 ++ l2) ++ jv) (length (l1 ++ l2)) (2 + length (l1 ++ l2) - (length l1 + 2)) = Ok V1 /\
      set I1 (length l1 + 2) row = Ok I2 /\
      set V1 (length l1 + 2 - 2) val = Ok (map snd (l1 ++ (row, val) :: l2) ++ jv') /\
      set I2 1 (length (l1 ++ l2) + 1) = Ok (cap :: length (l1 ++ (row, val) :: l2) :: map fst (l1 ++ (row, val) :: l2) ++ ji').
  Proof.
    intros Lj Pj. destruct ji as [|a ji]; simpl in Pj; [lia|]. destruct jv as [|b jv]; [discriminate|].
    simpl in Lj. exists ji, jv. split; [lia|]. split; [reflexivity|].
    set (n := length (l1 ++ l2)).
    assert (En : n = length l1 + length l2) by apply app_length.
    destruct (@shift_right_app _ (map fst l2) (cap :: n :: map fst l1) a ji) as [x1 E1].
    destruct (@shift_right_app _ (map snd l2) (map snd l1) b jv) as [x2 E2].
    rewrite !map_length in *. rewrite len_key in E1.
    exists ((cap :: n :: map fst l1) ++ x1 :: map fst l2 ++ ji), (map snd l1 ++ x2 :: map snd l2 ++ jv),
      ((cap :: n :: map fst l1) ++ row :: map fst l2 ++ ji).
    split; [|split; [|split; [|split]]].
    - rewrite <- E1. f_equal; try lia. rewrite map_app, <- app_assoc. reflexivity.
    - rewrite <- E2. f_equal; try lia. rewrite map_app, <- app_assoc. reflexivity.
    - rewrite <- (len_key cap n l1). apply set_app.
    - replace (length l1 + 2 - 2) with (length (map snd l1)) by (rewrite map_length; lia).
      rewrite set_app, arr_val. reflexivity.
    - rewrite set_Ok by (simpl; lia). cbn [app upd]. rewrite arr_key. cbn [app]. do 4 f_equal.
      rewrite app_length. simpl. lia.
  Qed.

  Lemma rep_insert (P : F -> Prop) (l1 l2 : list (nat * F)) row val cap ji jv :
    StronglySorted lt (map fst (l1 ++ l2)) -> Forall (fun e => P (snd e)) (l1 ++ l2) ->
    P val ->
    (forall a, In a (map fst l1) -> a < row) -> (forall a, In a (map fst l2) -> row < a) ->
    length (l1 ++ l2) + length ji = cap -> length ji = length jv -> 0 < length ji ->
    exists I1 V1 I2 V2 I3,
      shift_right (cap :: length (l1 ++ l2) :: map fst (l1 ++ l2) ++ ji) (2 + length (l1 ++ l2)) (2 + length (l1 ++ l2) - (length l1 + 2)) = Ok I1 /\
      shift_right (map snd (l1 ++ l2) ++ jv) (length (l1 ++ l2)) (2 + length (l1 ++ l2) - (length l1 + 2)) = Ok V1 /\
      set I1 (length l1 + 2) row = Ok I2 /\
      set V1 (length l1 + 2 - 2) val = Ok V2 /\
      set I2 1 (length (l1 ++ l2) + 1) = Ok I3 /\
      repP P (Some (I3, V2)) (l1 ++ (row, val) :: l2) /\ capof (Some (I3, V2)) = cap.
  Proof.
    intros S0 NZ T A B Lc Lj Pj.
    destruct (insert_arrays cap l1 l2 ji jv row val Lj Pj) as (ji' & jv' & Lj' & Le & I1 & V1 & I2 & E1 & E2 & E3 & E4 & E5).
    exists I1, V1, I2, (map snd (l1 ++ (row, val) :: l2) ++ jv'), (cap :: length (l1 ++ (row, val) :: l2) :: map fst (l1 ++ (row, val) :: l2) ++ ji').
    split; [exact E1|]. split; [exact E2|]. split; [exact E3|]. split; [exact E4|]. split; [exact E5|]. split; [|reflexivity].
    split; [|split].
    - rewrite map_app in S0 |- *. apply sorted_app in S0 as (S1 & S2 & S3). apply sorted_app. split; auto.
      simpl. split.
      + constructor; auto. apply Forall_forall. auto.
      + intros x y Hx [<-|Hy]; auto.
    - apply Forall_app in NZ as [N1 N2]. apply Forall_app. split; auto.
    - exists cap, ji', jv'. repeat split; auto; rewrite app_length in *; simpl in *; lia.
  Qed.

  Lemma lookup_insert (l1 l2 : list (nat * F)) row (val : F) r :
    (forall a, In a (map fst l1) -> a < row) -> (forall a, In a (map fst l2) -> row < a) ->
    lookup (l1 ++ (row, val) :: l2) r = if Nat.eqb row r then Some val else lookup (l1 ++ l2) r.
  Proof.
    intros A B. rewrite !lookup_app. simpl. destruct (Nat.eqb row r) eqn:E; auto.
    apply Nat.eqb_eq in E. subst r. rewrite (lookup_none l1); auto. intros K. specialize (A _ K). lia.
  Qed.

  Lemma set_entry_okP (P : F -> Prop) v l row val : (tiny val = false -> P val) -> repP P v l ->
    exists v' l', set_entry row val v = Ok v' /\ repP P v' l' /\ updated l l' row val /\
      (v' = None <-> v = None /\ tiny val = true) /\ capof v <= capof v'.
  Proof.
    intros HP R. destruct v as [[ix vx]|].
    2:{ destruct R as (S0 & NZ & ->). simpl. destruct (tiny val) eqn:T.
        - exists None, []. split; auto. split; [repeat split; auto|]. split; [|split; [tauto|auto]].
          intros r. rewrite T. destruct (row =? r); reflexivity.
        - exists (Some (10 :: 1 :: row :: repeat 0 9, val :: repeat n0 9)), [(row, val)]. split; auto. split; [|split].
          + split; [|split].
            * simpl. constructor; constructor.
            * constructor; auto.
            * exists 10, (repeat 0 9), (repeat n0 9). repeat split; try (simpl; lia).
          + intros r. simpl. destruct (row =? r); auto. now rewrite T.
          + split; [split; [discriminate | intros [_ K]; discriminate]|simpl; lia]. }
    destruct R as (S0 & NZ & cap & ji & jv & -> & -> & Lc & Lj & Pc).
    unfold set_entry. cbn [get nth_error bind].
    assert (Same : forall l0 : list (nat * F), tiny val = true -> lookup l0 row = None -> updated l0 l0 row val).
    { intros l0 T Z r. rewrite T. destruct (row =? r) eqn:E; auto. apply Nat.eqb_eq in E. now subst r. }
    destruct (Nat.eqb (length l) 0) eqn:E0.
    { apply Nat.eqb_eq in E0. destruct l; [clear E0|discriminate]. cbn [length map app] in *.
      destruct (tiny val) eqn:T.
      - eexists _, []. split; [reflexivity|]. split; [|split].
        + split; [constructor|]. split; [constructor|]. exists cap, ji, jv. repeat split; auto.
        + apply Same; auto.
        + split; [split; [discriminate | intros [K _]; discriminate]|simpl; lia].
      - destruct ji as [|a ji]; [simpl in Lc; lia|]. destruct jv as [|b jv]; [discriminate|].
        cbn. eexists _, [(row, val)]. split; [reflexivity|]. split; [|split].
        + split; [simpl; constructor; constructor|]. split; [constructor; auto|].
          exists cap, ji, jv. simpl in *. repeat split; auto; lia.
        + intros r. simpl. rewrite T. destruct (row =? r); auto.
        + split; [split; [discriminate | intros [K _]; discriminate]|simpl; lia]. }
    assert (Ne : l <> []) by (intros ->; discriminate).
    destruct (@search_ok cap ji l row S0 Ne) as (l1 & k & x & l2 & El & Ef & D).
    rewrite Ef. cbn [bind].
    assert (G : get (cap :: length l :: map fst l ++ ji) (length l1 + 2) = Ok k).
    { rewrite El, arr_key, <- (len_key cap (length (l1 ++ (k,x)::l2)) l1). apply get_app. }
    rewrite G. cbn [bind].
    destruct (Nat.eqb k row) eqn:E1.
    { apply Nat.eqb_eq in E1. subst k. clear D.
      assert (Lk := lookup_key l1 row x l2). rewrite <- El in Lk. specialize (Lk S0) as [Z1 Z2].
      destruct (tiny val) eqn:T.
      - (* deletion *)
        assert (En : length l = length l1 + S (length l2)) by (rewrite El, app_length; reflexivity).
        destruct (@shift_left_app _ (map fst l2) (cap :: length l :: map fst l1) row ji) as [y1 Ey1].
        destruct (@shift_left_app _ (map snd l2) (map snd l1) x jv) as [y2 Ey2].
        rewrite !map_length in *. rewrite len_key in Ey1.
        replace (cap :: length l :: map fst l ++ ji) with ((cap :: length l :: map fst l1) ++ row :: map fst l2 ++ ji)
          by (rewrite El at 3; rewrite <- arr_key with (x := x); reflexivity).
        replace (map snd l ++ jv) with (map snd l1 ++ x :: map snd l2 ++ jv)
          by (rewrite El; rewrite arr_val; reflexivity).
        replace (1 + length l - (length l1 + 2)) with (length l2) by lia.
        replace (length l1 + 2 - 2) with (length l1) by lia.
        rewrite Ey1, Ey2. cbn [bind]. rewrite set_Ok by (simpl; lia). cbn [bind app upd].
        eexists _, (l1 ++ l2). split; [reflexivity|]. split; [|split].
        + split; [|split].
          * rewrite El in S0. rewrite map_app in S0 |- *. apply sorted_app in S0 as (A & B & C).
            simpl in B. inversion B; subst. apply sorted_app. repeat split; auto. intros; apply C; simpl; auto.
          * rewrite El in NZ. apply Forall_app in NZ as [N1 N2]. inversion N2; subst. apply Forall_app. auto.
          * exists cap, (y1 :: ji), (y2 :: jv). rewrite app_length, !map_app, <- !app_assoc. simpl.
            repeat split; auto; try lia. f_equal. f_equal. lia.
        + intros r. rewrite El, !lookup_app. simpl. rewrite T. destruct (row =? r) eqn:E; auto.
          apply Nat.eqb_eq in E. subst r. rewrite Z1. auto.
        + split; [split; [discriminate | intros [K _]; discriminate]|simpl; lia].
      - (* overwriting *)
        replace (length l1 + 2 - 2) with (length (map snd l1)) by (rewrite map_length; lia).
        assert (Ea : map snd l ++ jv = map snd l1 ++ x :: map snd l2 ++ jv) by (rewrite El; apply arr_val).
        rewrite Ea, set_app. cbn [bind]. clear Ea.
        eexists _, (l1 ++ (row, val) :: l2). split; [reflexivity|]. split; [|split].
        + split; [|split].
          * rewrite El in S0. rewrite map_app in S0 |- *. exact S0.
          * rewrite El in NZ. apply Forall_app in NZ as [N1 N2]. inversion N2; subst. apply Forall_app. auto.
          * exists cap, ji, jv. rewrite El in *. rewrite arr_val. repeat split; auto.
            -- rewrite !map_app, !app_length. reflexivity.
            -- rewrite app_length in *. simpl in *. lia.
        + intros r. rewrite El, !lookup_app. simpl. rewrite T. destruct (row =? r) eqn:E; auto.
          apply Nat.eqb_eq in E. subst r. now rewrite Z1.
        + split; [split; [discriminate | intros [K _]; discriminate]|simpl; lia]. }
    apply Nat.eqb_neq in E1. destruct D as [->|(_ & A & B)]; [congruence|].
    assert (Nin : lookup l row = None).
    { apply lookup_none. rewrite El, map_app. intros K. apply in_app_or in K as [K|[K|K]]; [apply A in K|simpl in K; congruence|apply B in K]; lia. }
    destruct (tiny val) eqn:T.
    { eexists _, l. split; [reflexivity|]. split; [|split].
      - split; auto. split; auto. exists cap, ji, jv. auto.
      - apply Same; auto.
      - split; [split; [discriminate | intros [K _]; discriminate]|simpl; lia]. }
    (* insertion *)
    set (I0 := if Nat.eqb (length l) cap then _ else _). set (V0 := if Nat.eqb (length l) cap then _ else _).
    assert (GR : exists cap' ji' jv', I0 = cap' :: length l :: map fst l ++ ji' /\ V0 = map snd l ++ jv' /\
                 length l + length ji' = cap' /\ length ji' = length jv' /\ 0 < length ji' /\ cap <= cap').
    { subst I0 V0. destruct (Nat.eqb (length l) cap) eqn:Eg.
      - apply Nat.eqb_eq in Eg. exists (cap * 2), (repeat 0 (cap * 2 - length l)), (repeat n0 (cap * 2 - length l)).
        cbn [skipn]. rewrite !firstn_len_app by apply map_length. repeat split; auto; rewrite ?repeat_length; lia.
      - apply Nat.eqb_neq in Eg. exists cap, ji, jv. repeat split; auto. lia. }
    destruct GR as (cap' & ji' & jv' & EI & EV & Lc' & Lj' & Pj' & Hcap). rewrite EI, EV. clear I0 V0 EI EV.
    destruct (@step_back_ok row (length l1 + 2) cap' (length l) l1 k x l2 ji' (S (length l1 + 2))) as (pos' & Es & p & Ep & Epos); auto.
    rewrite <- El in Es, Ep. rewrite Es. cbn [bind]. rewrite Ep. cbn [bind]. cbv zeta. rewrite Epos.
    assert (Cut : exists m1 m2, l = m1 ++ m2 /\ length l1 + 2 + (if Nat.ltb k row then 1 else 0) = length m1 + 2 /\
       (forall a, In a (map fst m1) -> a < row) /\ (forall a, In a (map fst m2) -> row < a)).
    { destruct (Nat.ltb k row) eqn:Ek.
      - exists (l1 ++ [(k, x)]), l2. rewrite <- app_assoc, app_length. simpl. repeat split; auto; try lia.
        intros a Ha. rewrite map_app in Ha. apply in_app_or in Ha as [Ha|[<-|[]]]; auto. simpl. lia.
      - exists l1, ((k, x) :: l2). repeat split; auto; try lia. intros a [<-|Ha]; auto. simpl. lia. }
    destruct Cut as (m1 & m2 & Em & Epm & Am & Bm). rewrite Epm. pose proof (HP eq_refl) as HPv. clear - S0 NZ Em Am Bm Lc' Lj' Pj' T NF HPv Hcap. subst l.
    destruct (@rep_insert P m1 m2 row val cap' ji' jv' S0 NZ HPv Am Bm Lc' Lj' Pj') as (I1 & V1 & I2 & V2 & I3 & -> & F2 & F3 & F4 & F5 & RR & RC).
    cbn [bind]. rewrite F2. cbn [bind]. rewrite F3. cbn [bind]. rewrite F4. cbn [bind]. rewrite F5. cbn [bind].
    eexists _, _. split; [reflexivity|]. split; [exact RR|]. split.
    - intros r. rewrite lookup_insert by assumption. rewrite T. reflexivity.
    - split; [split; [discriminate | intros [K _]; discriminate]|rewrite RC; simpl; lia].
  Qed.

  Lemma set_entry_ok v l row val : rep v l ->
    exists v' l', set_entry row val v = Ok v' /\ rep v' l' /\ updated l l' row val /\
      (v' = None <-> v = None /\ tiny val = true).
  Proof.
    intros R. destruct (@set_entry_okP (fun x => dropped x = false) v l row val) as (v' & l' & E & R' & U & Z & _); auto.
    exists v', l'. auto.
  Qed.

  (** Representation and the specification's well-formedness agree. *)
  Lemma rep_wf v l : rep v l -> well_formed v.
  Proof.
    intros (S0 & NZ & R). destruct v as [[ix vx]|]; simpl; auto.
    destruct R as (cap & ji & jv & -> & -> & Lc & Lj & Pc).
    split; [|split].
    - exists cap, (length l). simpl. rewrite !app_length, !map_length. repeat split; auto; try lia.
      rewrite firstn_len_app by apply map_length. auto.
    - rewrite app_length, map_length. lia.
    - simpl. rewrite firstn_len_app by apply map_length. apply Forall_forall. intros x Hx.
      apply in_map_iff in Hx as (e & <- & He). rewrite Forall_forall in NZ. auto.
  Qed.

  Lemma wf_rep v : well_formed v -> exists l, rep v l.
  Proof.
    destruct v as [[ix vx]|]; simpl.
    2:{ exists []. repeat split; constructor. }
    intros ((cap & num & E0 & E1 & Li & Lv & Le & S0) & P & NZ).
    destruct ix as [|c [|n ks]]; try discriminate. simpl in E0, E1. inversion E0; inversion E1; subst c n. clear E0 E1.
    simpl in *.
    assert (Lk : length (firstn num ks) = num) by (rewrite firstn_length; lia).
    assert (Lx : length (firstn num vx) = num) by (rewrite firstn_length; lia).
    assert (M1 : map fst (combine (firstn num ks) (firstn num vx)) = firstn num ks).
    { revert Lk Lx. generalize (firstn num ks) (firstn num vx). clear. intros a b <-. revert b.
      induction a; destruct b; simpl; intros; try discriminate; auto. rewrite IHa; auto. }
    assert (M2 : map snd (combine (firstn num ks) (firstn num vx)) = firstn num vx).
    { revert Lk Lx. generalize (firstn num ks) (firstn num vx). clear. intros a b <-. revert b.
      induction a; destruct b; simpl; intros; try discriminate; auto. rewrite IHa; auto. }
    assert (Ll : length (combine (firstn num ks) (firstn num vx)) = num) by (rewrite combine_length; lia).
    exists (combine (firstn num ks) (firstn num vx)). split; [|split].
    - rewrite M1. auto.
    - apply Forall_forall. intros [k x] Hin. apply in_combine_r in Hin. rewrite Forall_forall in NZ. simpl. auto.
    - exists cap, (skipn num ks), (skipn num vx). rewrite M1, M2, !firstn_skipn, Ll, !skipn_length.
      repeat split; auto; lia.
  Qed.

  Lemma set_all_ok ops : forall v l acc kept, rep v l ->
    (forall r, lval l r = acc r) -> (forall r, (exists x, lookup l r = Some x) <-> kept r = true) ->
    exists v' l', set_all ops v = Ok v' /\ rep v' l' /\
      (forall r, lval l' r = last_value (acc r) ops r) /\
      (forall r, (exists x, lookup l' r = Some x) <-> last_kept (kept r) ops r = true) /\
      (v' = None <-> v = None /\ Forall (fun op => dropped (snd op) = true) ops).
  Proof.
    induction ops as [|[row val] ops IH]; intros v l acc kept R A K; simpl.
    - exists v, l. split; [reflexivity|]. split; [exact R|]. split; [exact A|]. split; [exact K|]. split; [intros ->; auto|tauto].
    - destruct (set_entry_ok row val R) as (v1 & l1 & E & R1 & U & Z). rewrite E. simpl.
      destruct (IH v1 l1 (fun r => if Nat.eqb row r then (if dropped val then n0 else val) else acc r)
                  (fun r => if Nat.eqb row r then negb (dropped val) else kept r)) as (v' & l' & E' & R' & A' & K' & Z').
      + exact R1.
      + intros r. unfold lval. rewrite U. change (tiny val) with (dropped val).
        destruct (row =? r); [destruct (dropped val); auto|]. apply A.
      + intros r. rewrite U. change (tiny val) with (dropped val).
        destruct (row =? r); [|apply K]. destruct (dropped val); simpl; split; intros X; eauto; try discriminate.
        destruct X; discriminate.
      + exists v', l'. split; [exact E'|]. split; [exact R'|]. split; [exact A'|]. split; [exact K'|].
        rewrite Z', Z. change (tiny val) with (dropped val). split.
        * intros ((-> & T) & FA). split; auto.
        * intros (-> & FA). inversion FA; subst; auto.
  Qed.

  Theorem sparse_map ops : exists v, set_all ops None = Ok v /\ well_formed v /\
    (v = None <-> Forall (fun op => dropped (snd op) = true) ops) /\
    (v <> None -> forall row, get_entry row v = Ok (last_value n0 ops row)) /\
    match v with
    | None => forall row, last_kept false ops row = false
    | Some (ix, vx) => in_capacity ix vx /\ forall row, In row (used_rows ix) <-> last_kept false ops row = true
    end.
  Proof.
    destruct (@set_all_ok ops None [] (fun _ => n0) (fun _ => false)) as (v & l & E & R & A & K & Z).
    - repeat split; constructor.
    - reflexivity.
    - intros r. simpl. split; [intros [? X]; discriminate|discriminate].
    - exists v. split; [exact E|]. split; [eapply rep_wf; eauto|]. split; [rewrite Z; tauto|]. split.
      + intros N row. rewrite (get_entry_ok row R N). now rewrite A.
      + pose proof (rep_wf R) as W. destruct R as (S0 & NZ & R). destruct v as [[ix vx]|].
        * destruct W as [W _]. split; auto. intros row. rewrite <- K.
          destruct R as (cap & ji & jv & -> & _). unfold used_rows. simpl. rewrite firstn_len_app by apply map_length.
          split.
          -- apply lookup_in.
          -- intros [x Hx]. apply lookup_some_in in Hx. apply in_map_iff. exists (row, x). auto.
        * subst l. intros row. destruct (last_kept false ops row) eqn:Ek; auto. apply K in Ek as [x Hx]. discriminate.
  Qed.
End Refine.
