(** Proofs about the shuffles and the monitoring points of Regions.v. *)
From Coq Require Import Reals Lra.
From Verif Require Import Base Num KdTree SmartTree Vec KdSpec SmartTreeSpec SmartTreeProofs KdQueryProofs SmartQueryProofs
  SamplingProofs GeometryProofs PolyMesh PolyMeshProofs Regions RegionsProofs MonitorSpec PropsKdTree.
Local Open Scope R_scope.

Lemma draw_in_ok off n v : (off < n)%nat -> 0 <= v <= 1 -> (off <= draw_in off n v < n)%nat.
Proof.
  intros H Hv. unfold draw_in. cbn [ntrunc nmul RNum nofZ].
  assert (P : 0 <= IZR (Z.of_nat (n - off))) by (apply IZR_le; lia).
  destruct (@Int_part_nat (v * IZR (Z.of_nat (n - off)))) as (m & Em & Hm).
  { apply Rmult_le_pos; lra. }
  rewrite Em, Nat2Z.id.
  assert (Hle : (m <= n - off)%nat).
  { apply INR_le. rewrite INR_IZR_INZ. rewrite INR_IZR_INZ in Hm. rewrite INR_IZR_INZ.
    assert (v * IZR (Z.of_nat (n - off)) <= 1 * IZR (Z.of_nat (n - off))) by (apply Rmult_le_compat_r; lra). lra. }
  destruct (Nat.eqb_spec (off + m) n); lia.
Qed.

Lemma shuffle_ok off n u (l : list nat) : (off <= n)%nat -> (n <= length l)%nat ->
  (forall k, (k < n - off)%nat -> 0 <= u k <= 1) ->
  exists l', shuffle off n u l = Ok l' /\ Permutation l l'
    /\ forall k, (k < off \/ n <= k)%nat -> nth_error l' k = nth_error l k.
Proof.
  intros H Hl Hu. unfold shuffle.
  destruct (@for_res_inv _ (fun _ st => Permutation l st
    /\ forall k, (k < off \/ n <= k)%nat -> nth_error st k = nth_error l k) (n - off) 0
    (fun k l => aswap l (off + k) (draw_in off n (u k))) l) as (l' & E & P & G).
  - split; auto.
  - intros k st Hk (P & G).
    assert (B : (off <= draw_in off n (u k) < n)%nat) by (apply draw_in_ok; [lia|apply Hu; lia]).
    pose proof (Permutation_length P) as EL.
    rewrite aswap_Ok by lia. eexists. split; [reflexivity|]. split.
    + etransitivity; [exact P|apply swapped_perm].
    + intros q Hq. rewrite swapped_nth by lia.
      destruct (Nat.eqb_spec q (draw_in off n (u k))); [lia|].
      destruct (Nat.eqb_spec q (off + k)); [lia|]. auto.
  - exists l'. auto.
Qed.

Lemma monitoring_ok nss u seeds (sizing : list R) : (nss <= length seeds)%nat -> length sizing = length seeds ->
  (forall k, (k < length seeds - nss)%nat -> 0 <= u k <= 1) ->
  exists idx out, monitoring_points nss u seeds sizing = Ok out
    /\ NoDup idx /\ length idx = Nat.min 100 (length seeds - nss)
    /\ (forall i, In i idx -> (nss <= i < length seeds)%nat)
    /\ Forall2 (fun i p => nth_error seeds i = Some (fst p) /\ nth_error sizing i = Some (snd p)) idx out.
Proof.
  intros H Hs Hu. set (n := length seeds) in *.
  destruct (@shuffle_ok nss n u (seq 0 n)) as (l & E & P & G); auto.
  { now rewrite seq_length. }
  assert (Ll : length l = n) by (rewrite <- (Permutation_length P); apply seq_length).
  assert (ND : NoDup l) by (eapply Permutation_NoDup; [exact P|apply seq_NoDup]).
  set (m := Nat.min 100 (n - nss)).
  assert (Hm : (nss + m <= n)%nat) by (unfold m; lia).
  set (idx := map (fun k => nth (nss + k) l 0%nat) (seq 0 m)).
  assert (Hidx : forall i, In i idx -> (nss <= i < n)%nat).
  { intros i Hi. apply in_map_iff in Hi. destruct Hi as (k & <- & Hk). apply in_seq in Hk.
    assert (Hin : In (nth (nss + k) l 0%nat) l) by (apply nth_In; lia).
    assert (Hlt : (nth (nss + k) l 0 < n)%nat).
    { eapply Permutation_in in Hin; [|symmetry; exact P]. apply in_seq in Hin. lia. }
    split; auto. destruct (Nat.lt_ge_cases (nth (nss + k) l 0%nat) nss) as [Hc|Hc]; auto. exfalso.
    set (v := nth (nss + k) l 0%nat) in *.
    assert (E1 : nth_error l v = Some v).
    { rewrite G by lia. rewrite (nth_error_nth' _ 0%nat) by (rewrite seq_length; lia). now rewrite seq_nth by lia. }
    assert (E2 : nth_error l (nss + k) = Some v) by (apply nth_error_nth'; lia).
    assert (Ev : v = (nss + k)%nat); [|lia].
    eapply NoDup_nth_error; [exact ND|lia|congruence]. }
  exists idx. eexists. split; [|split; [|split; [|split]]].
  - unfold monitoring_points. fold n. rewrite E. cbn [bind].
    apply (@mapr_ok _ _ _ (fun k => (nth (nth (nss + k) l 0%nat) seeds [], nth (nth (nss + k) l 0%nat) sizing 0))).
    intros k Hk. apply in_seq in Hk.
    assert (Hi : (nss <= nth (nss + k) l 0 < n)%nat).
    { apply Hidx. apply in_map_iff. exists k. split; auto. apply in_seq. unfold m. lia. }
    rewrite (get_nth l 0%nat) by lia. cbn [bind]. rewrite (get_nth seeds []) by (fold n; lia). cbn [bind].
    rewrite (get_nth sizing 0) by lia. reflexivity.
  - unfold idx. apply (proj2 (NoDup_nth_error _)). rewrite map_length, seq_length. intros i j Hi Eij.
    assert (Hj : (j < m)%nat).
    { destruct (Nat.lt_ge_cases j m) as [|Hc]; auto. exfalso.
      rewrite (proj2 (nth_error_None _ j)) in Eij by (rewrite map_length, seq_length; auto).
      apply nth_error_None in Eij. rewrite map_length, seq_length in Eij. lia. }
    rewrite !nth_error_map in Eij. rewrite !(nth_error_nth' (seq 0 m) 0%nat) in Eij by (rewrite seq_length; auto).
    rewrite !seq_nth in Eij by auto. cbn [option_map Nat.add] in Eij. inversion Eij as [Ev].
    assert ((nss + i = nss + j)%nat); [|lia]. eapply (proj1 (NoDup_nth_error l)); [exact ND|lia|].
    rewrite !(nth_error_nth' l 0%nat) by lia. congruence.
  - unfold idx. now rewrite map_length, seq_length.
  - exact Hidx.
  - fold m. unfold idx.
    assert (Hall : forall k, In k (seq 0 m) -> (nth (nss + k) l 0 < n)%nat).
    { intros k Hk. apply Hidx. apply in_map_iff. eauto. }
    revert Hall. generalize (seq 0 m). intros q. induction q as [|k q IH]; intros Hall; cbn [map]; constructor.
    + specialize (Hall k (or_introl eq_refl)). cbn [fst snd]. split; apply nth_error_nth'; lia.
    + apply IH. intros; apply Hall; right; auto.
Qed.

(** ** Imposed points *)
Lemma keep_app {A} m m' (l l' : list A) : length m = length l -> keep (m ++ m') (l ++ l') = keep m l ++ keep m' l'.
Proof.
  revert l; induction m as [|b m IH]; intros l H; destruct l as [|a l]; try discriminate; auto.
  unfold keep in *. cbn [app combine filter fst]. inversion H. destruct b; cbn [map app snd]; now rewrite IH.
Qed.
Lemma keep_length {A} m (l : list A) : length m = length l -> length (keep m l) = length (filter (fun b => b) m).
Proof.
  revert l; induction m as [|b m IH]; intros l H; destruct l as [|a l]; try discriminate; auto.
  unfold keep in *. cbn [combine filter fst]. inversion H. destruct b; cbn [map length]; now rewrite IH.
Qed.
Lemma keep_all {A} m (l : list A) : length m = length l -> length (filter negb m) = 0%nat -> keep m l = l.
Proof.
  revert l; induction m as [|b m IH]; intros l H Hz; destruct l as [|a l]; try discriminate; auto.
  unfold keep in *. cbn [combine filter fst] in *. inversion H. destruct b; [|discriminate]. cbn [map snd]. now rewrite IH.
Qed.
Lemma filter_both m : (length (filter (fun b => b) m) + length (filter negb m) = length m)%nat.
Proof. induction m as [|[] m IH]; cbn; lia. Qed.
Lemma firstn_S {A} (l : list A) k a : nth_error l k = Some a -> firstn (S k) l = firstn k l ++ [a].
Proof. revert k; induction l as [|b l IH]; intros [|k] H; cbn in *; try discriminate; [now inversion H|]. now rewrite <- IH. Qed.

Lemma drop_ok valid seeds (sizing : list R) regs : length valid = length seeds ->
  length sizing = length seeds -> length regs = length seeds ->
  drop_invalid (length seeds - length (filter negb valid)) valid seeds sizing regs
  = Ok (keep valid seeds, keep valid sizing, keep valid regs).
Proof.
  intros H1 H2 H3. unfold drop_invalid.
  set (P := fun (k : nat) (s : list (list R) * list R * list nat) =>
    s = (keep (firstn k valid) (firstn k seeds), keep (firstn k valid) (firstn k sizing), keep (firstn k valid) (firstn k regs))).
  destruct (@fold_res_inv _ _ (fun pre => P (length pre))
    (fun i s => let '(a, b, c) := s in
      v <- get valid i ;;
      if negb v then Ok s
      else if (length a <? length seeds - length (filter negb valid))%nat then
        x <- get seeds i ;; h <- get sizing i ;; r <- get regs i ;;
        Ok (a ++ [x], b ++ [h], c ++ [r])
      else UB) (seq 0 (length seeds)) ([], [], [])) as (s & E & HP).
  - reflexivity.
  - intros pre i post s Es ->.
    assert (Ei : i = length pre /\ (i < length seeds)%nat).
    { assert (En : nth_error (seq 0 (length seeds)) (length pre) = Some i).
      { rewrite Es, nth_error_app2, Nat.sub_diag by lia. reflexivity. }
      assert (Hlt : (length pre < length seeds)%nat).
      { rewrite <- (seq_length (length seeds) 0). apply nth_error_Some. congruence. }
      rewrite (nth_error_nth' _ 0%nat) in En by (rewrite seq_length; auto). rewrite seq_nth in En by auto.
      inversion En. cbn. split; auto. }
    destruct Ei as (Ei & Hi). rewrite <- Ei.
    destruct (nth_error_lt valid ltac:(rewrite H1; exact Hi)) as (v & Ev).
    destruct (nth_error_lt seeds Hi) as (x & Ex).
    destruct (nth_error_lt sizing ltac:(rewrite H2; exact Hi)) as (h & Eh).
    destruct (nth_error_lt regs ltac:(rewrite H3; exact Hi)) as (r & Er).
    assert (K : forall A (l : list A) a, length l = length seeds -> nth_error l i = Some a ->
      keep (firstn (S i) valid) (firstn (S i) l) = keep (firstn i valid) (firstn i l) ++ if v then [a] else []).
    { intros A l a Hl Ea. rewrite (firstn_S valid i Ev), (firstn_S l i Ea), keep_app by (rewrite !firstn_length; lia).
      f_equal. destruct v; reflexivity. }
    rewrite (get_some Ev). cbn [bind]. rewrite app_length. cbn [length]. rewrite Nat.add_1_r. rewrite <- Ei. unfold P.
    rewrite (K _ seeds x), (K _ sizing h), (K _ regs r) by auto.
    destruct v; cbn [negb].
    + assert (Hroom : (length (keep (firstn i valid) (firstn i seeds)) < length seeds - length (filter negb valid))%nat).
      { rewrite keep_length by (rewrite !firstn_length; lia).
        assert (En : valid = firstn i valid ++ true :: skipn (S i) valid).
        { rewrite <- (firstn_skipn (S i) valid) at 1. rewrite (firstn_S valid i Ev), <- app_assoc. reflexivity. }
        pose proof (filter_both valid) as F. rewrite En in F at 1. rewrite filter_app, app_length in F. cbn [filter length] in F. lia. }
      apply Nat.ltb_lt in Hroom. rewrite Hroom.
      rewrite (get_some Ex). cbn [bind]. rewrite (get_some Eh). cbn [bind]. rewrite (get_some Er). cbn [bind].
      eexists. split; reflexivity.
    + rewrite !app_nil_r. eexists. split; reflexivity.
  - rewrite E, HP. rewrite seq_length. rewrite !firstn_all2 by lia. reflexivity.
Qed.

Section Impose.
  Context (kept : nat) (seeds : list (list R)) (sizing : list R).
  Context (Hne : seeds <> []) (H3 : forall p, In p seeds -> (3 <= length p)%nat) (Hsz : length sizing = length seeds).
  Context (tree : stree R) (Hr : ready tree) (Hnd : st_nd tree = 3%nat) (Hp : st_pts tree = seeds).

  Lemma closest_seed q : good_imposed seeds q ->
    exists i, closest tree (fun _ => true) (fst q) dbl_max = Ok (0%nat, (i, seed_dist seeds (fst q) i))
      /\ (i < length seeds)%nat
      /\ forall j, (j < length seeds)%nat -> seed_dist seeds (fst q) i <= seed_dist seeds (fst q) j.
  Proof.
    intros (Hq & j & Hj & Hd). pose proof (@C08_is_minimum tree (fst q) dbl_max Hr) as C.
    rewrite Hnd in C. unfold dist_to, all_points in C. rewrite Hnd, Hp in C. apply C; auto.
    - exists j. split; auto. apply in_seq. lia.
    - eapply Rle_trans; [|apply Rlt_le; exact Hd]. apply sqrt_pos.
  Qed.
  Lemma closest_is_seed (q : list R * R) i : (i < length seeds)%nat ->
    (forall j, (j < length seeds)%nat -> seed_dist seeds (fst q) i <= seed_dist seeds (fst q) j) ->
    (is_seed seeds (fst q) <-> seed_dist seeds (fst q) i < 1 / 10 ^ 10).
  Proof.
    intros Hi Hm. split.
    - intros (j & Hj & Hd). specialize (Hm j Hj). lra.
    - intros Hd. exists i. auto.
  Qed.

  Lemma invalidate_ok hits : forall valid, length valid = length seeds -> (forall i, In i hits -> (i < length seeds)%nat) ->
    exists valid', fold_res (invalidate kept) hits valid = Ok valid' /\ length valid' = length seeds
      /\ forall i, nth_error valid' i = if (existsb (Nat.eqb i) hits && (kept <=? i)%nat)%bool then Some false else nth_error valid i.
  Proof.
    induction hits as [|a hits IH]; intros valid Hl Hh; cbn [fold_res existsb].
    - exists valid. auto.
    - assert (Ha : (a < length seeds)%nat) by (apply Hh; left; auto).
      destruct (nth_error_lt valid ltac:(rewrite Hl; exact Ha)) as (v & Ev).
      unfold invalidate at 1. rewrite (get_some Ev). cbn [bind].
      assert (Hh' : forall i, In i hits -> (i < length seeds)%nat) by (intros; apply Hh; right; auto).
      destruct (v && (kept <=? a)%nat)%bool eqn:Eb.
      + rewrite set_upd by lia. cbn [bind].
        destruct (IH (upd valid a false)) as (v' & E & L & G); auto; [now rewrite upd_length|].
        exists v'. split; auto. split; auto. intros i. rewrite G.
        destruct (Nat.eqb_spec i a) as [->|Hn]; cbn [orb].
        * apply andb_prop in Eb. destruct Eb as (_ & Eb). rewrite Eb. cbn [andb].
          rewrite upd_nth_same by lia. now destruct (existsb _ _ && _)%bool.
        * rewrite upd_nth_other by auto. reflexivity.
      + destruct (IH valid) as (v' & E & L & G); auto. exists v'. cbn [bind]. split; auto. split; auto.
        intros i. rewrite G. destruct (Nat.eqb_spec i a) as [->|Hn]; cbn [orb]; auto.
        destruct (kept <=? a)%nat eqn:Ek; [|now rewrite !andb_false_r].
        rewrite andb_true_r in Eb. subst v. rewrite Ev. now destruct (existsb _ _ && _)%bool.
  Qed.

  Lemma clear_ok imposed : (forall q, In q imposed -> good_imposed seeds q) ->
    exists mask sizing', fold_res (clear_sphere kept tree) imposed (repeat true (length seeds), sizing) = Ok (mask, sizing')
      /\ right_mask kept seeds imposed mask /\ right_sizes seeds imposed sizing sizing'.
  Proof.
    intros Hg.
    destruct (@fold_res_inv _ _ (fun pre s => right_mask kept seeds pre (fst s) /\ right_sizes seeds pre sizing (snd s))
      (clear_sphere kept tree) imposed (repeat true (length seeds), sizing)) as ((mask, sz) & E & HP).
    - cbn [fst snd]. split.
      + split; [apply repeat_length|]. split; [|intros i x r _ []].
        intros i Hi. apply nth_error_In, repeat_spec in Hi. discriminate.
      + split; auto. split; auto. intros x r [].
    - intros pre q post (valid, sz) Es ((M1 & M2 & M3) & (S1 & S2 & S3)). cbn [fst snd] in *.
      assert (Hq : good_imposed seeds q) by (apply Hg; rewrite Es; apply in_app_iff; right; left; auto).
      assert (Hinc : forall a, In a pre -> In a (pre ++ [q])) by (intros; apply in_app_iff; auto).
      assert (Hcase : forall a, In a (pre ++ [q]) -> In a pre \/ a = q).
      { intros a Ha. apply in_app_iff in Ha. destruct Ha as [Ha|[<-|[]]]; auto. }
      unfold clear_sphere. destruct (closest_seed Hq) as (i & Ei & Hi & Hmin). rewrite Ei. cbn [bind].
      pose proof (@closest_is_seed q i Hi Hmin) as Hiff.
      destruct (nltb (seed_dist seeds (fst q) i) (nlit 1 10)) eqn:Et; cbn [nltb RNum] in Et; rewrite tol_eq in Et.
      + apply Rltb_true in Et.
        destruct (@C10_points_in_ball tree (fun _ => true) (fst q) (snd q) Hr) as (out & Eo & Hc).
        { rewrite Hnd. apply Hq. }
        rewrite Eo. cbn [bind]. destruct Hc as (l & El & _ & Hin & Hc1 & Hc2). cbn [app] in El. subst l.
        unfold all_points, dist_to in *. rewrite Hnd, Hp in *.
        destruct (@invalidate_ok out valid M1) as (valid' & Ev & L' & G).
        { intros j Hj. apply Hin, in_seq in Hj. lia. }
        rewrite Ev. cbn [bind]. rewrite set_upd by lia. cbn [bind].
        eexists. split; [reflexivity|]. cbn [fst snd]. split.
        * split; [auto|]. split.
          -- intros j. rewrite G. destruct (existsb (Nat.eqb j) out && (kept <=? j)%nat)%bool eqn:Eb.
             ++ intros _. apply andb_prop in Eb. destruct Eb as (Eb1 & Eb2). apply Nat.leb_le in Eb2. split; auto.
                apply existsb_exists in Eb1. destruct Eb1 as (k & Hk & Ek). apply Nat.eqb_eq in Ek. subst k.
                destruct (Hc1 j Hk) as (_ & Hins). exists (fst q), (snd q). split; [|split].
                ** apply in_app_iff. right. left. now destruct q.
                ** now apply Hiff.
                ** unfold seed_dist, edist. rewrite sqrt_sqrt; [exact Hins|]. unfold sqdist. apply rsum_map_nonneg. intros k _. apply Rle_0_sqr.
             ++ intros Hj. destruct (M2 j Hj) as (B & x & r & Hx & R). split; auto. exists x, r. split; auto.
          -- intros j x r Hj Hx Hs Hd. rewrite G. apply Hcase in Hx. destruct Hx as [Hx|Hx].
             ++ rewrite (M3 j x r Hj Hx Hs Hd). now destruct (_ && _)%bool.
             ++ subst q. cbn [fst snd] in *.
                assert (Hk : In j out). { apply Hc2; auto. apply in_seq. lia. }
                assert (Eb : existsb (Nat.eqb j) out = true).
                { apply existsb_exists. exists j. split; auto. apply Nat.eqb_refl. }
                rewrite Eb. destruct (Nat.leb_spec kept j); [reflexivity|lia].
        * assert (Hqi : In (fst q, snd q) (pre ++ [q])) by (apply in_app_iff; right; left; now destruct q).
          split; [now rewrite upd_length|]. split; [intros j; destruct (Nat.eq_dec j i) as [->|Hn]|].
          -- right. exists (fst q), (snd q). split; [|split; auto]; auto. apply upd_nth_same. lia.
          -- rewrite upd_nth_other by auto. destruct (S2 j) as [|(x & r & Hx & R)]; auto. right. exists x, r. auto.
          -- intros x r Hx Hs. apply Hcase in Hx. destruct Hx as [Hx|Hx].
             ++ destruct (S3 x r Hx Hs) as (k & x' & r' & Hk & Hkm & Hx' & Hd & Er). destruct (Nat.eq_dec k i) as [->|Hn].
                ** exists i, (fst q), (snd q). split; auto. split; auto. split; auto. split; auto. apply upd_nth_same. lia.
                ** exists k, x', r'. split; auto. split; auto. split; auto. split; auto. now rewrite upd_nth_other.
             ++ subst q. cbn [fst snd] in *. exists i, x, r. split; auto. split; auto. split; auto. split; auto. apply upd_nth_same. lia.
      + apply Rltb_false in Et. eexists. split; [reflexivity|]. cbn [fst snd].
        assert (Hns : ~ is_seed seeds (fst q)) by (rewrite Hiff; lra).
        split.
        * split; auto. split.
          -- intros j Hj. destruct (M2 j Hj) as (B & x & r & Hx & R). split; auto. exists x, r. split; auto.
          -- intros j x r Hj Hx Hs Hd. apply Hcase in Hx. destruct Hx as [Hx|Hx]; [eauto|]. subst q. destruct Hns. auto.
        * split; auto. split; [intros j; destruct (S2 j) as [|(x & r & Hx & R)]; auto; right; exists x, r; auto|].
          intros x r Hx Hs. apply Hcase in Hx. destruct Hx as [Hx|Hx]; [|subst q; destruct Hns; auto].
          destruct (S3 x r Hx Hs) as (k & x' & r' & Hk & Hkm & Hx' & R). exists k, x', r'. auto.
    - exists mask, sz. auto.
  Qed.

  Lemma snap_ok sz imposed : length sz = length seeds -> (forall q, In q imposed -> good_imposed seeds q) ->
    exists imposed', mapr (snap_imposed tree seeds sz) imposed = Ok imposed' /\ Forall2 (right_points seeds sz) imposed imposed'.
  Proof.
    intros Hl. induction imposed as [|q l IH]; intros Hg; cbn [mapr].
    - exists []. auto.
    - destruct IH as (l' & E & HF); [intros; apply Hg; right; auto|].
      unfold snap_imposed at 1. destruct (@closest_seed q) as (i & Ei & Hi & Hmin); [apply Hg; left; auto|].
      rewrite Ei. cbn [bind]. pose proof (@closest_is_seed q i Hi Hmin) as Hiff.
      destruct (nltb (seed_dist seeds (fst q) i) (nlit 1 10)) eqn:Et; cbn [nltb RNum] in Et; rewrite tol_eq in Et.
      + apply Rltb_true in Et. cbn [bind]. rewrite E. cbn [bind]. eexists. split; [reflexivity|]. constructor; auto.
        left. split; auto. now apply Hiff.
      + apply Rltb_false in Et. rewrite (get_nth seeds [] Hi). cbn [bind]. rewrite (get_nth sz 0) by lia. cbn [bind].
        rewrite E. cbn [bind]. eexists. split; [reflexivity|]. constructor; auto.
        right. split; [rewrite Hiff; lra|]. exists i. split; auto. split; auto. cbn [fst snd].
        split; apply nth_error_nth'; lia.
  Qed.
End Impose.

Theorem impose_ok kept seeds (sizing : list R) regs imposed :
  seeds <> [] -> (forall p, In p seeds -> (3 <= length p)%nat) -> length sizing = length seeds -> length regs = length seeds ->
  (forall q, In q imposed -> good_imposed seeds q) ->
  exists mask sizing' imposed',
    impose_monitoring kept seeds sizing regs imposed = Ok (keep mask seeds, keep mask sizing', keep mask regs, imposed')
    /\ right_mask kept seeds imposed mask /\ right_sizes seeds imposed sizing sizing'
    /\ Forall2 (right_points seeds sizing') imposed imposed'.
Proof.
  intros Hne H3 Hsz Hrg Hg.
  destruct (@C07_from_array 3 seeds) as (tree & Et & Hr & Hnd & Hp); auto.
  destruct (@clear_ok kept seeds sizing H3 Hsz tree Hr Hnd Hp imposed Hg) as (mask & sz & E & HM & HS).
  destruct (@snap_ok seeds sizing H3 Hsz tree Hr Hnd Hp sz imposed) as (imp & E2 & HF); auto.
  { destruct HS as (HS & _). lia. }
  exists mask, sz, imp. split; auto. unfold impose_monitoring. rewrite Et. cbn [bind]. rewrite E. cbn [bind]. rewrite E2. cbn [bind].
  destruct HM as (LM & _), HS as (LS & _).
  destruct (Nat.ltb_spec 0 (length (filter negb mask))) as [Hb|Hb].
  - rewrite drop_ok by lia. reflexivity.
  - rewrite !keep_all by lia. reflexivity.
Qed.
