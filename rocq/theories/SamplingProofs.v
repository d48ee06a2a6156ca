(** Proofs about Sampling.v in exact arithmetic. *)
From Verif Require Import Base Num MemoryHandler SortSpec MemoryHandlerProofs Sampling SamplingSpec.
From Coq Require Import Reals Lra.
Local Open Scope R_scope.

Lemma n0_R : (n0 : R) = 0. Proof. reflexivity. Qed.
Lemma n1_R : (n1 : R) = 1. Proof. reflexivity. Qed.

Lemma rsum_nil : rsum [] = 0. Proof. reflexivity. Qed.
Lemma rsum_cons a l : rsum (a :: l) = a + rsum l. Proof. reflexivity. Qed.
Ltac rs := cbn in *; rewrite ?rsum_cons, ?rsum_nil in *.

(* ---- box ---- *)
Lemma box_sample_ok (u : nat -> R) xmin : forall k xmax, length xmax = length xmin ->
  exists d, box_sample u k xmin xmax = Ok d /\ length d = length xmin /\
    forall i, (i < length xmin)%nat ->
      nth i d 0 = nth i xmin 0 + u (k + i)%nat * (nth i xmax 0 - nth i xmin 0).
Proof.
  induction xmin as [|a ta IH]; intros k xmax HL.
  - exists []. cbn. repeat split; auto. intros i Hi. lia.
  - destruct xmax as [|b tb]; [discriminate|]. cbn [box_sample].
    destruct (IH (S k) tb) as (d & E & L & Hn); [now inversion HL|].
    rewrite E. cbn [bind]. eexists. split; [reflexivity|]. split; [cbn; lia|].
    intros [|i] Hi; cbn [nth].
    + rewrite Nat.add_0_r. reflexivity.
    + cbn in Hi. rewrite Hn by lia. replace (S k + i)%nat with (k + S i)%nat by lia. reflexivity.
Qed.

Theorem box_sample_inside (u : nat -> R) k xmin xmax :
  length xmax = length xmin ->
  (forall j, 0 <= u j < 1) ->
  (forall i, (i < length xmin)%nat -> nth i xmin 0 <= nth i xmax 0) ->
  exists d, box_sample u k xmin xmax = Ok d /\ length d = length xmin /\
    forall i, (i < length xmin)%nat -> nth i xmin 0 <= nth i d 0 <= nth i xmax 0.
Proof.
  intros HL Hu Hb. destruct (@box_sample_ok u xmin k xmax HL) as (d & E & L & Hn).
  exists d. split; [exact E|]. split; [exact L|]. intros i Hi. rewrite Hn by exact Hi.
  specialize (Hu (k + i)%nat). specialize (Hb i Hi). nra.
Qed.

(** Every point of the box (upper faces excluded) can be drawn. *)
Theorem box_sample_onto k xmin xmax p :
  length xmax = length xmin -> length p = length xmin ->
  (forall i, (i < length xmin)%nat -> nth i xmin 0 <= nth i p 0 < nth i xmax 0) ->
  exists u, (forall j, 0 <= u j < 1) /\ box_sample u k xmin xmax = Ok p.
Proof.
  intros HL HP Hb.
  set (t i := if (i <? length xmin)%nat
              then (nth i p 0 - nth i xmin 0) / (nth i xmax 0 - nth i xmin 0) else 0).
  exists (fun j => t (j - k)%nat). split.
  - intros j. unfold t. destruct (_ <? _)%nat eqn:E; [|lra]. apply Nat.ltb_lt in E.
    specialize (Hb _ E). split.
    + apply Rmult_le_pos; [lra|]. apply Rlt_le, Rinv_0_lt_compat. lra.
    + apply (Rmult_lt_reg_r (nth (j - k) xmax 0 - nth (j - k) xmin 0)); [lra|].
      unfold Rdiv. rewrite Rmult_assoc, Rinv_l by lra. lra.
  - destruct (@box_sample_ok (fun j => t (j - k)%nat) xmin k xmax HL) as (d & E & L & Hn).
    rewrite E. f_equal. apply list_ext. intros i.
    destruct (Nat.lt_ge_cases i (length xmin)) as [Hi|Hi].
    + rewrite !(nth_error_nth' _ 0) by lia. f_equal. rewrite Hn by exact Hi.
      replace (k + i - k)%nat with i by lia. unfold t. pose proof Hi as Hi'.
      apply Nat.ltb_lt in Hi'. rewrite Hi'. specialize (Hb _ Hi).
      unfold Rdiv. rewrite Rmult_assoc, Rinv_l by lra. lra.
    + rewrite (proj2 (nth_error_None d i)), (proj2 (nth_error_None p i)) by lia. reflexivity.
Qed.

(* ---- weighted sums ---- *)
Lemma axpy_ok v x : forall dart : list R, length x = length dart ->
  exists d, axpy v x dart = Ok d /\ length d = length dart /\
    forall i, (i < length dart)%nat -> nth i d 0 = nth i dart 0 + v * nth i x 0.
Proof.
  induction x as [|c tc IH]; intros [|d td] HL; cbn in HL; try discriminate.
  - exists []. cbn. repeat split; auto. intros i Hi. cbn in Hi. lia.
  - cbn [axpy]. destruct (IH td) as (t & E & L & Hn); [lia|]. rewrite E. cbn [bind].
    eexists. split; [reflexivity|]. split; [cbn; lia|].
    intros [|i] Hi; cbn in *; auto. apply Hn. lia.
Qed.

Lemma combine_corners_ok (nd : nat) v : forall (x : list (list R)) dart,
  (length v <= length x)%nat -> length dart = nd -> Forall (fun c => length c = nd) x ->
  exists d, combine_corners v x dart = Ok d /\ length d = nd /\
    forall i, (i < nd)%nat -> nth i d 0 = nth i dart 0 + weighted_coord v x i.
Proof.
  induction v as [|a tv IH]; intros x dart HL Hd Hx.
  - exists dart. cbn. repeat split; auto. intros i Hi. unfold weighted_coord; cbn. rewrite rsum_nil. lra.
  - destruct x as [|c tx]; [cbn in HL; lia|]. inversion Hx as [|? ? Hc Htx]; subst.
    cbn [combine_corners]. destruct (axpy_ok a c dart) as (d & E & L & Hn); [congruence|].
    rewrite E. cbn [bind]. destruct (IH tx d) as (r & E2 & L2 & Hn2); [cbn in HL; lia|congruence|assumption|].
    exists r. split; [exact E2|]. split; [exact L2|].
    intros i Hi. rewrite Hn2, Hn by assumption. unfold weighted_coord. rs. lra.
Qed.

Lemma diffs_length (l : list R) : length (diffs l) = (length l - 1)%nat.
Proof. induction l as [|a [|b t] IH]; auto. cbn [diffs length] in *. lia. Qed.

Lemma diffs_sum (l : list R) a : rsum (diffs (a :: l)) = last (a :: l) 0 - a.
Proof.
  revert a; induction l as [|b t IH]; intros a; [cbn; rewrite rsum_nil; lra|].
  change (diffs (a :: b :: t)) with ((b - a) :: diffs (b :: t)).
  rewrite rsum_cons, IH.
  change (last (a :: b :: t) 0) with (last (b :: t) 0). lra.
Qed.

Lemma diffs_nonneg (l : list R) : StronglySorted Rle l -> Forall (fun a => 0 <= a) (diffs l).
Proof.
  induction l as [|a [|b t] IH]; intros H; cbn; auto.
  inversion H as [|? ? HS HF]; subst. constructor.
  - inversion HF; subst. lra.
  - apply IH. exact HS.
Qed.

Lemma sorted_range_strongly (l : list R) :
  sorted_range Rltb l 0 (length l - 1) -> StronglySorted Rle l.
Proof.
  induction l as [|a t IH]; intros H; constructor.
  - apply IH. intros i j ka kb Hi Hij Hj E1 E2.
    apply (H (S i) (S j)); auto; cbn in *; lia.
  - apply Forall_forall. intros b Hb. apply In_nth_error in Hb. destruct Hb as [i Hi].
    assert (Hlt : (i < length t)%nat) by (eapply nth_error_Some_lt; eauto).
    apply Rltb_false. apply (H 0%nat (S i)); auto; cbn; lia.
Qed.

Lemma strongly_sorted_perm_eq (l l' : list R) :
  StronglySorted Rle l -> StronglySorted Rle l' -> Permutation l l' -> l = l'.
Proof.
  revert l'; induction l as [|a t IH]; intros l' H H' P.
  - apply Permutation_nil in P. now subst.
  - destruct l' as [|b t']; [apply Permutation_sym, Permutation_nil in P; discriminate|].
    inversion H as [|? ? HS HF]; inversion H' as [|? ? HS' HF']; subst.
    assert (a = b) as ->.
    { rewrite Forall_forall in HF, HF'.
      assert (Ha : In a (b :: t')) by (eapply Permutation_in; [exact P|now left]).
      assert (Hb : In b (a :: t)) by (eapply Permutation_in; [apply Permutation_sym, P|now left]).
      destruct Ha as [Ha|Ha]; [now symmetry|]. destruct Hb as [Hb|Hb]; [now idtac|].
      pose proof (HF _ Hb). pose proof (HF' _ Ha). lra. }
    f_equal. apply IH; auto. eapply Permutation_cons_inv; eauto.
Qed.

Lemma last_in {A} (l : list A) d : l <> [] -> In (last l d) l.
Proof.
  induction l as [|a t IH]; intros H; [congruence|].
  destruct t as [|b t']; [now left|]. right. apply IH. discriminate.
Qed.

Lemma strongly_sorted_last (l : list R) x d : StronglySorted Rle l -> In x l -> x <= last l d.
Proof.
  revert x; induction l as [|a t IH]; intros x H Hx; [destruct Hx|].
  inversion H as [|? ? HS HF]; subst.
  destruct t as [|b t']; [destruct Hx as [->|[]]; cbn; lra|].
  change (last (a :: b :: t') d) with (last (b :: t') d).
  destruct Hx as [->|Hx]; [|now apply IH].
  apply Rle_trans with b; [inversion HF; auto|]. apply IH; auto. now left.
Qed.

Lemma breaks_length (u : nat -> R) k n : (1 <= n)%nat -> length (simplex_breaks u k n) = S n.
Proof. intros Hn. unfold simplex_breaks. cbn. rewrite app_length, map_length, seq_length. cbn. lia. Qed.

Lemma breaks_sorted (u : nat -> R) k n : (1 <= n)%nat -> (forall j, 0 <= u j < 1) ->
  exists t, quicksort nltb (simplex_breaks u k n) 0 n = Ok (0 :: t)
    /\ length t = n /\ StronglySorted Rle (0 :: t) /\ last (0 :: t) 0 = 1
    /\ Permutation (simplex_breaks u k n) (0 :: t).
Proof.
  intros Hn Hu. pose proof (breaks_length u k Hn) as HL.
  destruct (quicksort_correct Rltb_sw (simplex_breaks u k n) (left := 0) (right := n)) as (s & E & P & HS & _);
    [lia|lia|].
  pose proof (Permutation_length P) as HL2.
  assert (SS : StronglySorted Rle s).
  { apply sorted_range_strongly. replace (length s - 1)%nat with n by lia. exact HS. }
  assert (Hall : forall x, In x s -> 0 <= x <= 1).
  { intros x Hx. apply (Permutation_in _ (Permutation_sym P)) in Hx. unfold simplex_breaks in Hx.
    rewrite n0_R, n1_R in Hx. destruct Hx as [<-|Hx]; [lra|]. apply in_app_or in Hx.
    destruct Hx as [Hx|[<-|[]]]; [|lra]. apply in_map_iff in Hx. destruct Hx as (i & <- & _).
    specialize (Hu (k + i)%nat). lra. }
  assert (H0 : In 0 s) by (eapply Permutation_in; [exact P|now left]).
  assert (H1 : In 1 s).
  { eapply Permutation_in; [exact P|]. right. apply in_or_app. right. now left. }
  destruct s as [|a t]; [destruct H0|].
  assert (a = 0) as ->.
  { inversion SS as [|? ? _ HF]; subst. specialize (Hall a (or_introl eq_refl)).
    destruct H0 as [H0|H0]; auto. rewrite Forall_forall in HF. specialize (HF _ H0). lra. }
  exists t. split; [exact E|]. split; [rewrite HL in HL2; cbn in HL2; lia|]. split; [exact SS|]. split; [|exact P].
  pose proof (@strongly_sorted_last _ _ 0 SS H1) as Hlo.
  assert (Hin : In (last (0 :: t) 0) (0 :: t)) by (apply last_in; discriminate).
  specialize (Hall _ Hin). lra.
Qed.

Theorem simplex_sample_inside (u : nat -> R) k nd x :
  (1 <= length x)%nat -> (forall j, 0 <= u j < 1) -> Forall (fun c => length c = nd) x ->
  exists d w, simplex_sample u k nd (length x) x = Ok d /\ length d = nd
    /\ length w = length x /\ convex_weights w
    /\ forall i, (i < nd)%nat -> nth i d 0 = weighted_coord w x i.
Proof.
  intros Hn Hu Hx. unfold simplex_sample.
  replace (length x =? 0)%nat with false by (symmetry; apply Nat.eqb_neq; lia).
  destruct (@breaks_sorted _ k _ Hn Hu) as (t & E & L & SS & HL & P). rewrite E. cbn [bind].
  destruct (@combine_corners_ok nd (diffs (0 :: t)) x (repeat n0 nd)) as (d & E2 & L2 & Hd).
  { rewrite diffs_length. cbn. lia. }
  { apply repeat_length. }
  { exact Hx. }
  exists d, (diffs (0 :: t)). split; [exact E2|]. split; [exact L2|].
  split; [rewrite diffs_length; cbn; lia|]. split.
  - split; [now apply diffs_nonneg|]. rewrite diffs_sum, HL. lra.
  - intros i Hi. rewrite Hd by exact Hi. rewrite n0_R.
    replace (nth i (repeat 0 nd) 0) with 0; [lra|]. symmetry.
    clear. revert i; induction nd; destruct i; cbn; auto.
Qed.

(** partial sums *)
Fixpoint psums (a : R) (w : list R) : list R :=
  match w with [] => [a] | b :: t => a :: psums (a + b) t end.
Lemma diffs_psums w : forall a, diffs (psums a w) = w.
Proof.
  induction w as [|b t IH]; intros a; auto. cbn [psums].
  destruct t as [|c t']; cbn [psums diffs] in *.
  - f_equal. cbn. lra.
  - f_equal; [cbn; lra|]. apply (IH (a + b)).
Qed.
Lemma psums_length w a : length (psums a w) = S (length w).
Proof. revert a; induction w; cbn; auto. Qed.
Lemma psums_last w : forall a, last (psums a w) 0 = a + rsum w.
Proof.
  induction w as [|b t IH]; intros a; cbn [psums]; [rs; lra|].
  destruct t as [|c t']; [rs; lra|].
  change (last (a :: psums (a + b) (c :: t')) 0) with (last (psums (a + b) (c :: t')) 0).
  rewrite IH. rs. lra.
Qed.
Lemma rsum_nonneg w : Forall (fun a => 0 <= a) w -> 0 <= rsum w.
Proof. induction 1; rs; lra. Qed.
Lemma psums_ge w : forall a, Forall (fun a => 0 <= a) w -> Forall (fun b => a <= b <= a + rsum w) (psums a w).
Proof.
  induction w as [|b t IH]; intros a H; cbn [psums].
  - constructor; [rs; lra|constructor].
  - inversion H; subst. pose proof (rsum_nonneg H3). constructor; [rs; lra|].
    eapply Forall_impl; [|apply IH; assumption]. intros c Hc. rs. lra.
Qed.
Lemma psums_sorted w : forall a, Forall (fun a => 0 <= a) w -> StronglySorted Rle (psums a w).
Proof.
  induction w as [|b t IH]; intros a H; cbn [psums].
  - repeat constructor.
  - inversion H; subst. constructor; [now apply IH|].
    eapply Forall_impl; [|apply psums_ge; assumption]. intros c Hc. cbn in *. lra.
Qed.
Lemma nth_removelast {A} (l : list A) d : forall i, (S i < length l)%nat -> nth i (removelast l) d = nth i l d.
Proof.
  induction l as [|a t IH]; intros i Hi; [cbn in Hi; lia|].
  destruct t as [|b t']; [cbn in Hi; lia|].
  change (removelast (a :: b :: t')) with (a :: removelast (b :: t')).
  destruct i; [reflexivity|]. cbn [nth]. rewrite IH by (cbn in *; lia). reflexivity.
Qed.

(** Every convex combination with a positive last weight can be drawn. *)
Theorem simplex_sample_onto k nd x w :
  length w = length x -> (1 <= length x)%nat -> Forall (fun c => length c = nd) x ->
  convex_weights w -> 0 < last w 0 ->
  exists u d, (forall j, 0 <= u j < 1) /\ simplex_sample u k nd (length x) x = Ok d
    /\ length d = nd /\ forall i, (i < nd)%nat -> nth i d 0 = weighted_coord w x i.
Proof.
  intros HL Hn Hx [Hw Hs] Hlast.
  (* psums 0 w = 0 :: mid ++ [1] *)
  assert (Hw' : exists w0 wl, w = w0 ++ [wl]).
  { destruct (exists_last (l := w)) as (w0 & wl & ->); [destruct w; [cbn in HL; lia|discriminate]|]. eauto. }
  destruct Hw' as (w0 & wl & ->). rewrite last_last in Hlast.
  assert (Hps : forall l a, psums a (l ++ [wl]) = psums a l ++ [a + rsum l + wl]).
  { induction l as [|b t IH]; intros a; cbn; rewrite ?rsum_nil, ?rsum_cons; [f_equal; f_equal; lra|].
    rewrite IH. cbn. f_equal. f_equal. f_equal. lra. }
  assert (Hsum : rsum (w0 ++ [wl]) = rsum w0 + wl).
  { clear. induction w0 as [|b t IH]; rs; [lra|]. rewrite IH. lra. }
  apply Forall_app in Hw. destruct Hw as [Hw0 _].
  assert (Hmid : exists mid, psums 0 w0 = 0 :: mid /\ length mid = length w0
             /\ Forall (fun b => 0 <= b < 1) mid).
  { pose proof (@psums_ge _ 0 Hw0) as HG. pose proof (psums_length w0 0) as HLn.
    destruct w0 as [|b t].
    - exists []. cbn. auto.
    - cbn [psums] in *. eexists. split; [reflexivity|]. split; [clear - HLn; cbn [length] in *; congruence|].
      inversion HG; subst. eapply Forall_impl; [|eassumption]. intros c Hc. cbn beta in Hc. rs. lra. }
  destruct Hmid as (mid & Em & Lm & Fm).
  set (u j := nth (j - k) mid 0).
  assert (Hu : forall j, 0 <= u j < 1).
  { intros j. unfold u. destruct (Nat.lt_ge_cases (j - k) (length mid)) as [Hj|Hj].
    - rewrite Forall_forall in Fm. apply Fm. now apply nth_In.
    - rewrite nth_overflow by lia. lra. }
  assert (Hbr : simplex_breaks u k (length x) = psums 0 (w0 ++ [wl])).
  { rewrite Hps, Em. unfold simplex_breaks. rewrite n0_R, n1_R. cbn [app]. f_equal. f_equal.
    - rewrite app_length in HL. cbn in HL. replace (length x - 1)%nat with (length mid) by lia.
      apply list_ext. intros i. rewrite map_nth_error'.
      destruct (Nat.lt_ge_cases i (length mid)) as [Hi|Hi].
      + rewrite (nth_error_nth' (seq 0 (length mid)) 0%nat) by (rewrite seq_length; lia).
        rewrite seq_nth by lia. cbn [option_map]. unfold u.
        replace (k + (0 + i) - k)%nat with i by lia. now rewrite (nth_error_nth' mid 0) by lia.
      + rewrite (proj2 (nth_error_None mid i)) by lia.
        rewrite (proj2 (nth_error_None (seq 0 (length mid)) i)) by (rewrite seq_length; lia). reflexivity.
    - f_equal. lra. }
  exists u. destruct (@breaks_sorted _ k _ Hn Hu) as (t & E & L & SS & _ & P).
  assert (Et : psums 0 (w0 ++ [wl]) = 0 :: t).
  { rewrite <- Hbr. apply strongly_sorted_perm_eq; auto. rewrite Hbr. apply psums_sorted.
    apply Forall_app. split; auto. constructor; auto. lra. }
  unfold simplex_sample. replace (length x =? 0)%nat with false by (symmetry; apply Nat.eqb_neq; lia).
  rewrite E. cbn [bind]. rewrite <- Et, diffs_psums.
  destruct (@combine_corners_ok nd (w0 ++ [wl]) x (repeat n0 nd)) as (d & E2 & L2 & Hd).
  { lia. } { apply repeat_length. } { exact Hx. }
  exists d. split; [exact Hu|]. split; [exact E2|]. split; [exact L2|].
  intros i Hi. rewrite Hd by exact Hi. rewrite n0_R.
  replace (nth i (repeat 0 nd) 0) with 0; [lra|]. symmetry.
  clear. revert i; induction nd; destruct i; cbn; auto.
Qed.

(* ---- discrete cdf ---- *)
Lemma div2_bounds a b : (a <= b)%nat -> (a <= (a + b) / 2 <= b)%nat.
Proof. intros. split; [apply Nat.div_le_lower_bound|apply Nat.div_le_upper_bound]; lia. Qed.
Lemma div2_lt a b : (a < b)%nat -> ((a + b) / 2 < b)%nat.
Proof. intros. apply Nat.div_lt_upper_bound; lia. Qed.

Lemma cdf_search_ok (cdf : list R) (U : R) :
  nondecreasing cdf -> 0 <= U ->
  forall fuel ist iend, (iend - ist < fuel)%nat -> (ist <= iend)%nat -> (iend < length cdf)%nat ->
    cell_lo cdf ist <= U -> U <= cell_hi cdf iend ->
    exists i, cdf_search fuel cdf U ist iend = Ok i /\ (ist <= i <= iend)%nat
      /\ cell_lo cdf i <= U <= cell_hi cdf i.
Proof.
  intros Hmono HU. induction fuel as [|f IH]; intros ist iend Hf Hle Hlt Hlo Hhi; [lia|].
  cbn [cdf_search]. pose proof (div2_bounds Hle) as Hm.
  set (imid := ((ist + iend) / 2)%nat) in *.
  assert (Elo : (if (0 <? imid)%nat then get cdf (imid - 1) else Ok n0) = Ok (cell_lo cdf imid)).
  { unfold cell_lo. destruct imid as [|m]; [reflexivity|]. cbn [Nat.ltb Nat.leb Nat.eqb].
    apply get_Ok, nth_error_nth'. lia. }
  rewrite Elo. cbn [bind].
  assert (Ehi : get cdf imid = Ok (cell_hi cdf imid)).
  { apply get_Ok, nth_error_nth'. lia. }
  rewrite Ehi. cbn [bind nleb nltb RNum].
  destruct (Rleb (cell_lo cdf imid) U) eqn:E1; rbool in E1.
  - destruct (Rleb U (cell_hi cdf imid)) eqn:E2; rbool in E2; cbn [andb].
    + exists imid. auto.
    + assert (E3 : Rltb U (cell_lo cdf imid) = false) by (apply Rltb_false; lra). rewrite E3.
      assert (imid <> iend) by (intros ->; lra).
      destruct (IH (imid + 1)%nat iend) as (i & E & Hi & Hc); auto; try lia.
      { unfold cell_lo. destruct (imid + 1 =? 0)%nat eqn:Ez; [apply Nat.eqb_eq in Ez; lia|].
        replace (imid + 1 - 1)%nat with imid by lia. unfold cell_hi in E2. lra. }
      exists i. split; auto. split; [lia|auto].
  - cbn [andb]. assert (E3 : Rltb U (cell_lo cdf imid) = true) by (apply Rltb_true; lra). rewrite E3.
    assert (Hne : imid <> ist) by (intros Heq; rewrite Heq in E1; lra).
    assert (imid <> iend).
    { intros Heq. assert (ist < iend)%nat by lia. pose proof (div2_lt H). fold imid in H0. lia. }
    destruct (IH ist imid) as (i & E & Hi & Hc); auto; try lia.
    { apply Rle_trans with (cell_lo cdf imid); [lra|]. unfold cell_lo, cell_hi.
      destruct (imid =? 0)%nat eqn:Ez; [apply Nat.eqb_eq in Ez; lia|].
      apply (Hmono (imid - 1)%nat imid); [lia| |]; apply nth_error_nth'; lia. }
    exists i. split; auto. split; [lia|auto].
Qed.

Lemma cell_unique (cdf : list R) U i j :
  nondecreasing cdf -> (i < length cdf)%nat -> (j < length cdf)%nat ->
  cell_lo cdf i < U < cell_hi cdf i -> cell_lo cdf j <= U <= cell_hi cdf j -> j = i.
Proof.
  intros Hm Hi Hj H1 H2. unfold cell_lo, cell_hi in *.
  destruct (Nat.lt_trichotomy i j) as [H|[H|H]]; auto; exfalso.
  - replace (j =? 0)%nat with false in H2 by (symmetry; apply Nat.eqb_neq; lia).
    assert (nth i cdf 0 <= nth (j - 1) cdf 0); [|lra].
    apply (Hm i (j - 1)%nat); [lia| |]; apply nth_error_nth'; lia.
  - replace (i =? 0)%nat with false in H1 by (symmetry; apply Nat.eqb_neq; lia).
    assert (nth j cdf 0 <= nth (i - 1) cdf 0); [|lra].
    apply (Hm j (i - 1)%nat); [lia| |]; apply nth_error_nth'; lia.
Qed.

Lemma Int_part_nat (r : R) : 0 <= r -> exists m, Int_part r = Z.of_nat m /\ INR m <= r < INR m + 1.
Proof.
  intros Hr. pose proof (base_Int_part r) as [H1 H2].
  assert (0 <= Int_part r)%Z.
  { assert (-1 < IZR (Int_part r)) by lra. apply (lt_IZR (-1)) in H. lia. }
  exists (Z.to_nat (Int_part r)). rewrite Z2Nat.id by assumption. split; auto.
  rewrite INR_IZR_INZ, Z2Nat.id by assumption. lra.
Qed.

Theorem discrete_sample_ok (u : nat -> R) k (cdf : list R) :
  cdf <> [] -> nondecreasing cdf -> 0 <= nth 0 cdf 0 -> 0 <= u k < 1 ->
  let n := length cdf in
  let total := nth (n - 1) cdf 0 in
  exists i, discrete_sample u k n cdf = Ok i /\ (i < n)%nat
    /\ (total > 0 -> cell_lo cdf i <= u k * total <= cell_hi cdf i)
    /\ (total > 0 -> forall j, (j < n)%nat ->
          cell_lo cdf j < u k * total < cell_hi cdf j -> i = j)
    /\ (total = 0 -> INR i <= INR n * u k < INR i + 1).
Proof.
  intros Hne Hm H0 Hu n total. unfold discrete_sample.
  assert (Hn : (0 < n)%nat) by (unfold n; destruct cdf; [congruence|cbn; lia]).
  replace (n =? 0)%nat with false by (symmetry; apply Nat.eqb_neq; lia).
  assert (El : get cdf (n - 1) = Ok total) by (apply get_Ok, nth_error_nth'; lia).
  rewrite El. cbn [bind].
  assert (Ht : 0 <= total).
  { apply Rle_trans with (nth 0 cdf 0); auto. apply (Hm 0%nat (n - 1)%nat); [lia| |]; apply nth_error_nth'; lia. }
  cbn [neqb RNum nmul nofZ ntrunc]. rewrite n0_R. destruct (Reqb total 0) eqn:E0; rbool in E0.
  - destruct (@Int_part_nat (IZR (Z.of_nat n) * u k)) as (m & Em & Hm1).
    { apply Rmult_le_pos; [|lra]. rewrite <- INR_IZR_INZ. apply pos_INR. }
    rewrite Em, Nat2Z.id. rewrite <- INR_IZR_INZ in Hm1.
    assert (Hmn : (m < n)%nat).
    { apply INR_lt. apply Rle_lt_trans with (INR n * u k); [lra|].
      assert (0 < INR n) by (apply lt_0_INR; exact Hn). nra. }
    replace (m =? n)%nat with false by (symmetry; apply Nat.eqb_neq; lia).
    exists m. split; auto. split; auto. split; [lra|]. split; [lra|]. intros _. exact Hm1.
  - assert (HUb : 0 <= u k * total <= total) by nra.
    destruct (@cdf_search_ok cdf (u k * total) Hm (proj1 HUb) (S n) 0 (n - 1)) as (i & E & Hi & Hc).
    { lia. } { lia. } { lia. } { cbn. lra. } { unfold cell_hi. fold total. lra. }
    exists i. split; auto. split; [lia|]. split; [auto|]. split; [|lra].
    intros _ j Hj Hjc. eapply cell_unique; eauto. lia.
Qed.

(* ---- active pool ---- *)
Lemma pool_search_ok (cdf : list R) (U : R) :
  forall fuel ist iend, (iend - ist < fuel)%nat -> (ist <= iend)%nat -> (iend < length cdf)%nat ->
    cell_lo cdf ist <= U -> U <= cell_hi cdf iend -> nondecreasing cdf ->
    exists i, pool_search fuel cdf U ist iend = Ok i /\ (ist <= i <= iend)%nat
      /\ cell_lo cdf i <= U <= cell_hi cdf i.
Proof.
  induction fuel as [|f IH]; intros ist iend Hf Hle Hlt Hlo Hhi Hmono; [lia|].
  cbn [pool_search]. destruct (ist <? iend)%nat eqn:El.
  2:{ apply Nat.ltb_ge in El. assert (iend = ist) by lia. subst. exists ist. auto. }
  apply Nat.ltb_lt in El. pose proof (div2_bounds Hle) as Hm. pose proof (div2_lt El) as Hm2.
  set (imid := ((ist + iend) / 2)%nat) in *.
  assert (Ehi : get cdf imid = Ok (cell_hi cdf imid)) by (apply get_Ok, nth_error_nth'; lia).
  rewrite Ehi. cbn [bind nltb RNum].
  destruct (Rltb U (cell_hi cdf imid)) eqn:E1; rbool in E1.
  - destruct (IH ist imid) as (i & E & Hi & Hc); auto; try lia; [lra|]. exists i. split; auto. split; auto. lia.
  - assert (Hnext : cell_lo cdf (imid + 1) = cell_hi cdf imid).
    { unfold cell_lo, cell_hi. replace (imid + 1 =? 0)%nat with false by (symmetry; apply Nat.eqb_neq; lia).
      f_equal. lia. }
    destruct (Rltb (cell_hi cdf imid) U) eqn:E2; rbool in E2.
    + destruct (IH (imid + 1)%nat iend) as (i & E & Hi & Hc); auto; try lia; [lra|].
      exists i. split; auto. split; auto. lia.
    + exists imid. split; auto. split; [lia|]. split; [|lra].
      apply Rle_trans with (cell_hi cdf imid); [|lra].
      unfold cell_lo, cell_hi. destruct (imid =? 0)%nat eqn:Ez.
      * apply Nat.eqb_eq in Ez. rewrite Ez in *. unfold cell_hi in *.
        assert (ist = 0)%nat by lia. subst ist. unfold cell_lo in Hlo. cbn in Hlo. lra.
      * apply Nat.eqb_neq in Ez. apply (Hmono (imid - 1)%nat imid); [lia| |]; apply nth_error_nth'; lia.
Qed.

(** cumulate / normalise *)
Definition prefix_sum (l : list R) (i : nat) : R := rsum (firstn (S i) l).

Lemma firstn_S_nth (l : list R) i : (i < length l)%nat -> firstn (S i) l = firstn i l ++ [nth i l 0].
Proof. revert i; induction l as [|a t IH]; intros [|i] H; cbn in *; try lia; auto. rewrite <- IH by lia. reflexivity. Qed.
Lemma rsum_app l l' : rsum (l ++ l') = rsum l + rsum l'.
Proof. induction l; rs; [lra|]. rewrite IHl. lra. Qed.
Lemma prefix_sum_S (l : list R) i : (S i < length l)%nat -> prefix_sum l (S i) = prefix_sum l i + nth (S i) l 0.
Proof. intros H. unfold prefix_sum. rewrite firstn_S_nth by lia. rewrite rsum_app, rsum_cons, rsum_nil. lra. Qed.
Lemma prefix_sum_0 (l : list R) : (0 < length l)%nat -> prefix_sum l 0 = nth 0 l 0.
Proof. destruct l; cbn; intros; [lia|]. unfold prefix_sum; rs. lra. Qed.

Lemma cumulate_ok (l : list R) : exists c, cumulate l = Ok c /\ length c = length l
  /\ forall i, (i < length l)%nat -> nth_error c i = Some (prefix_sum l i).
Proof.
  destruct l as [|a t]; [exists []; cbn; repeat split; auto; intros; lia|].
  unfold cumulate. set (l := a :: t).
  destruct (@for_res_inv (list R)
    (fun k c => length c = length l /\ forall i, (i < length l)%nat ->
       nth_error c i = Some (if (i <? k)%nat then prefix_sum l i else nth i l 0))
    (length l - 1) 1 (fun i c => a <- get c i ;; b <- get c (i - 1) ;; set c i (nadd a b)) l)
    as (c & E & HL & Hc).
  - split; auto. intros i Hi. destruct i as [|i].
    + cbn [Nat.ltb Nat.leb]. rewrite prefix_sum_0 by lia. now apply nth_error_nth'.
    + cbn [Nat.ltb Nat.leb]. now apply nth_error_nth'.
  - intros k c Hk [HL Hc].
    assert (Hlt : (k < length l)%nat) by lia.
    pose proof (Hc k Hlt) as Hk1. rewrite Nat.ltb_irrefl in Hk1.
    assert (Hlt' : (k - 1 < length l)%nat) by lia.
    pose proof (Hc _ Hlt') as Hk2.
    replace (k - 1 <? k)%nat with true in Hk2 by (symmetry; apply Nat.ltb_lt; lia).
    unfold get. rewrite Hk1, Hk2. cbn [bind]. rewrite set_Ok by lia.
    eexists. split; [reflexivity|]. split; [now rewrite upd_length|].
    intros i Hi. destruct (Nat.eq_dec i k) as [->|Hne].
    + rewrite upd_nth_same by lia. replace (k <? S k)%nat with true by (symmetry; apply Nat.ltb_lt; lia).
      f_equal. cbn [nadd RNum]. destruct k as [|k]; [lia|]. rewrite prefix_sum_S by lia.
      replace (S k - 1)%nat with k by lia. lra.
    + rewrite upd_nth_other by exact Hne. rewrite Hc by exact Hi.
      replace (i <? S k)%nat with (i <? k)%nat; auto.
      destruct (i <? k)%nat eqn:E1; symmetry; [apply Nat.ltb_lt in E1; apply Nat.ltb_lt; lia|
        apply Nat.ltb_ge in E1; apply Nat.ltb_ge; lia].
  - exists c. split; [exact E|]. split; auto. intros i Hi. rewrite Hc by exact Hi.
    replace (i <? 1 + (length l - 1))%nat with true; auto. symmetry; apply Nat.ltb_lt. lia.
Qed.

Lemma normalise_ok (l : list R) : exists c, normalise l = Ok c /\ length c = length l
  /\ forall i, (i < length l)%nat -> nth_error c i = Some (nth i l 0 / nth (length l - 1) l 0).
Proof.
  unfold normalise. set (n := length l). set (tot := nth (n - 1) l 0).
  destruct (@for_res_inv (list R)
    (fun k c => length c = n /\ forall i, (i < n)%nat ->
       nth_error c i = Some (if (i <? k)%nat then nth i l 0 / tot else nth i l 0))
    n 0 (fun i c => a <- get c i ;; b <- get c (n - 1) ;; set c i (ndiv a b)) l)
    as (c & E & HL & Hc).
  - split; auto. intros i Hi. cbn. now apply nth_error_nth'.
  - intros k c Hk [HL Hc].
    assert (Hlt : (k < n)%nat) by lia.
    pose proof (Hc k Hlt) as Hk1. rewrite Nat.ltb_irrefl in Hk1.
    assert (Hlt' : (n - 1 < n)%nat) by lia.
    pose proof (Hc _ Hlt') as Hk2.
    replace (n - 1 <? k)%nat with false in Hk2 by (symmetry; apply Nat.ltb_ge; lia).
    unfold get. rewrite Hk1, Hk2. cbn [bind]. rewrite set_Ok by lia.
    eexists. split; [reflexivity|]. split; [now rewrite upd_length|].
    intros i Hi. destruct (Nat.eq_dec i k) as [->|Hne].
    + rewrite upd_nth_same by lia. replace (k <? S k)%nat with true by (symmetry; apply Nat.ltb_lt; lia).
      reflexivity.
    + rewrite upd_nth_other by exact Hne. rewrite Hc by exact Hi.
      replace (i <? S k)%nat with (i <? k)%nat; auto.
      destruct (i <? k)%nat eqn:E1; symmetry; [apply Nat.ltb_lt in E1; apply Nat.ltb_lt; lia|
        apply Nat.ltb_ge in E1; apply Nat.ltb_ge; lia].
  - exists c. split; [exact E|]. split; auto. intros i Hi. rewrite Hc by exact Hi.
    replace (i <? 0 + n)%nat with true; auto. symmetry; apply Nat.ltb_lt. lia.
Qed.

Theorem make_cdf_ok (sizes : list R) :
  exists c, make_cdf sizes = Ok c /\ length c = length sizes
    /\ forall i, (i < length sizes)%nat ->
         nth i c 0 = rsum (firstn (S i) sizes) / rsum sizes.
Proof.
  unfold make_cdf. destruct (cumulate_ok sizes) as (c & E & L & Hc). rewrite E. cbn [bind].
  destruct (normalise_ok c) as (d & E2 & L2 & Hd). exists d. split; auto. split; [congruence|].
  intros i Hi. apply nth_error_nth. rewrite Hd by lia. f_equal.
  rewrite (nth_error_nth c i 0 (Hc i Hi)).
  rewrite (nth_error_nth c (length c - 1) 0 (Hc (length c - 1)%nat ltac:(lia))).
  unfold prefix_sum. f_equal. rewrite L. rewrite (firstn_all2 (n := S (length sizes - 1))) by lia. reflexivity.
Qed.

Theorem pool_pick_ok (sizes : list R) U :
  sizes <> [] -> Forall (fun a => 0 <= a) sizes -> 0 < rsum sizes -> 0 <= U < 1 ->
  exists c i, make_cdf sizes = Ok c /\ pool_pick U c = Ok i /\ (i < length sizes)%nat
    /\ rsum (firstn i sizes) <= U * rsum sizes <= rsum (firstn (S i) sizes)
    /\ forall j, (j < length sizes)%nat ->
         rsum (firstn j sizes) < U * rsum sizes < rsum (firstn (S j) sizes) -> i = j.
Proof.
  intros Hne Hpos Htot HU. destruct (make_cdf_ok sizes) as (c & E & L & Hc).
  assert (Hn : (0 < length sizes)%nat) by (destruct sizes; [congruence|cbn; lia]).
  assert (Hps : forall i j, (i <= j)%nat -> rsum (firstn i sizes) <= rsum (firstn j sizes)).
  { intros i j Hij. replace (firstn i sizes) with (firstn i (firstn j sizes)) by (rewrite firstn_firstn; f_equal; lia).
    rewrite <- (firstn_skipn i (firstn j sizes)) at 2. rewrite rsum_app.
    assert (0 <= rsum (skipn i (firstn j sizes))); [|lra]. apply rsum_nonneg.
    rewrite Forall_forall in *. intros x Hx. apply Hpos.
    rewrite <- (firstn_skipn j sizes), <- (firstn_skipn i (firstn j sizes)), !in_app_iff. auto. }
  assert (Hmono : nondecreasing c).
  { intros i j a b Hij Ha Hb.
    pose proof (nth_error_Some_lt _ _ Ha). pose proof (nth_error_Some_lt _ _ Hb).
    apply nth_error_nth with (d := 0) in Ha, Hb. rewrite <- Ha, <- Hb, !Hc by lia.
    apply Rmult_le_compat_r; [apply Rlt_le, Rinv_0_lt_compat; exact Htot|]. apply Hps. lia. }
  assert (Hdiv : forall a, a / rsum sizes * rsum sizes = a).
  { intros a. unfold Rdiv. rewrite Rmult_assoc, Rinv_l by lra. lra. }
  assert (Hlo : forall i, (i < length sizes)%nat -> cell_lo c i = rsum (firstn i sizes) / rsum sizes).
  { intros i Hi. unfold cell_lo. destruct i; cbn [Nat.eqb]; [rs; unfold Rdiv; lra|].
    replace (S i - 1)%nat with i by lia. now rewrite Hc by lia. }
  assert (Hhi : forall i, (i < length sizes)%nat -> cell_hi c i = rsum (firstn (S i) sizes) / rsum sizes).
  { intros i Hi. unfold cell_hi. now rewrite Hc. }
  assert (Hlast : cell_hi c (length c - 1) = 1).
  { rewrite Hhi by lia. rewrite firstn_all2 by lia. unfold Rdiv. rewrite Rinv_r; lra. }
  destruct (@pool_search_ok c U (S (length c)) 0 (length c - 1)) as (i & E2 & Hi & Hi2); auto; try lia.
  { cbn. lra. } { rewrite Hlast. lra. }
  exists c, i. split; auto. split.
  { unfold pool_pick. destruct c; [cbn in L; lia|]. exact E2. }
  split; [lia|]. rewrite Hlo, Hhi in Hi2 by lia. split.
  - rewrite <- (Hdiv (rsum (firstn i sizes))), <- (Hdiv (rsum (firstn (S i) sizes))). nra.
  - intros j Hj Hj2. apply (@cell_unique c U j i); auto; try lia.
    + rewrite Hlo, Hhi by lia.
      rewrite <- (Hdiv (rsum (firstn j sizes))), <- (Hdiv (rsum (firstn (S j) sizes))) in Hj2. nra.
    + rewrite Hlo, Hhi by lia. exact Hi2.
Qed.

(* ---- unit sphere ---- *)
Lemma sumsq_acc l : forall s, fold_left (fun s x => s + x * x) l s = s + norm2 l.
Proof.
  unfold norm2. induction l as [|a t IH]; intros s; rs; [lra|]. rewrite IH. lra.
Qed.
Lemma sumsq_norm2 l : sumsq l = norm2 l.
Proof. unfold sumsq. rewrite sumsq_acc. lra. Qed.
Lemma norm2_nonneg l : 0 <= norm2 l.
Proof. unfold norm2. apply rsum_nonneg. apply Forall_forall. intros a Ha. apply in_map_iff in Ha. destruct Ha as (x & <- & _). nra. Qed.

Lemma gauss_fill_ok (u : nat -> R) : (forall j, 0 < u j < 1) ->
  forall fuel k n, (n < fuel)%nat -> (1 <= n)%nat ->
  exists d, gauss_fill u fuel k n = Ok d /\ length d = n /\ ((2 <= n)%nat -> 0 < norm2 d).
Proof.
  intros Hu. induction fuel as [|f IH]; intros k n Hf Hn; [lia|].
  cbn [gauss_fill]. assert (E : Rleb (u k) 0 = false) by (apply Rleb_false; apply Hu). rewrite E.
  set (r := sqrt (- 2 * ln (u k))). set (th := 2 * PI * u (S k)).
  assert (Hr : 0 < r).
  { unfold r. apply sqrt_lt_R0. pose proof (ln_increasing (u k) 1 (proj1 (Hu k)) (proj2 (Hu k))).
    rewrite ln_1 in H. lra. }
  assert (Hcs : (r * cos th) * (r * cos th) + (r * sin th) * (r * sin th) = r * r).
  { pose proof (sin2_cos2 th) as H. unfold Rsqr in H.
    replace (r * cos th * (r * cos th) + r * sin th * (r * sin th))
      with (r * r * (sin th * sin th + cos th * cos th)) by ring. rewrite H. ring. }
  destruct n as [|[|[|m]]]; [lia| | |].
  - eexists. split; [reflexivity|]. split; [reflexivity|]. lia.
  - eexists. split; [reflexivity|]. split; [reflexivity|]. intros _.
    unfold norm2. rs. rewrite Rplus_0_r, Hcs. nra.
  - destruct (IH (S (S k)) (S m)) as (d & E2 & L & _); [lia|lia|]. rewrite E2. cbn [bind].
    eexists. split; [reflexivity|]. split; [cbn; lia|]. intros _.
    unfold norm2. cbn [map]. rewrite !rsum_cons. rewrite <- Rplus_assoc, Hcs.
    pose proof (norm2_nonneg d). unfold norm2 in H. nra.
Qed.

Lemma norm2_scale l c : norm2 (map (fun x => x * c) l) = norm2 l * (c * c).
Proof. unfold norm2. induction l as [|a t IH]; rs; [lra|]. rewrite IH. lra. Qed.

Theorem unit_sphere_sample_ok (u : nat -> R) k n :
  (forall j, 0 < u j < 1) -> (2 <= n)%nat ->
  exists d, unit_sphere_sample u k n = Ok d /\ length d = n /\ norm2 d = 1.
Proof.
  intros Hu Hn. unfold unit_sphere_sample.
  destruct (@gauss_fill_ok u Hu (S n) k n) as (d & E & L & Hd); [lia|lia|]. rewrite E. cbn [bind].
  specialize (Hd Hn). rewrite sumsq_norm2.
  assert (E0 : Reqb (norm2 d) 0 = false) by (apply Reqb_false; lra). rewrite E0.
  eexists. split; [reflexivity|]. split; [now rewrite map_length|].
  rewrite norm2_scale. set (s := sqrt (norm2 d)).
  assert (Hs : s * s = norm2 d) by (apply sqrt_sqrt; lra).
  assert (0 < s) by (apply sqrt_lt_R0; lra).
  rewrite <- Hs. field. lra.
Qed.

Theorem unit_sphere_sample_zero_draw (u : nat -> R) k n :
  u k = 0 -> unit_sphere_sample u k n = UB.
Proof.
  intros H. unfold unit_sphere_sample. cbn [gauss_fill].
  assert (E : Rleb (u k) 0 = true) by (apply Rleb_true; lra). now rewrite E.
Qed.
