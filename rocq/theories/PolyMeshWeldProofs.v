(** Proofs about welding. *)
From Verif Require Import Base Num KdTree SmartTree Vec KdSpec SmartTreeSpec SmartTreeProofs SmartQueryProofs TreeGrow
  Spheres SpheresSpec SpheresProofs PolyMesh PolyMeshSpec PolyMeshProofs.
From Coq Require Import Reals Lra.

(** ** Removal of collapsed faces *)
Lemma nth_error_firstn {A} (l : list A) n k : nth_error (firstn n l) k = if k <? n then nth_error l k else None.
Proof.
  revert n k; induction l as [|h t IH]; intros n k.
  - rewrite firstn_nil. destruct (k <? n), k; reflexivity.
  - destruct n as [|n], k as [|k]; cbn [firstn nth_error]; auto. rewrite IH. reflexivity.
Qed.

Lemma swap_out_ok {A} (l : list A) i x : nth_error l i = Some x ->
  exists l', swap_out l i = Ok l' /\ Permutation l (x :: l') /\ S (length l') = length l
    /\ forall j, j < i -> nth_error l' j = nth_error l j.
Proof.
  intros Hx. pose proof (nth_error_Some_lt _ _ Hx) as Hi.
  destruct (exists_last (l := l)) as (l1 & z & ->). { destruct l; [simpl in Hi; lia|discriminate]. }
  unfold swap_out. rewrite app_length in *. simpl in *.
  replace (length l1 + 1 - 1) with (length l1) by lia.
  assert (Ez : nth_error (l1 ++ [z]) (length l1) = Some z) by (rewrite nth_error_app2, Nat.sub_diag by lia; reflexivity).
  rewrite (get_some Ez). cbn [bind]. rewrite set_Ok by (rewrite app_length; simpl; lia). cbn [bind].
  eexists. split; [reflexivity|].
  destruct (Nat.eq_dec i (length l1)) as [->|Hn].
  - rewrite Ez in Hx. injection Hx as ->.
    assert (Eu : firstn (length l1) (upd (l1 ++ [x]) (length l1) x) = l1).
    { apply list_ext. intros k. destruct (lt_dec k (length l1)).
      - rewrite nth_error_firstn, upd_nth_other by lia. replace (k <? length l1) with true by (symmetry; apply Nat.ltb_lt; lia).
        now rewrite nth_error_app1 by lia.
      - rewrite nth_error_firstn. replace (k <? length l1) with false by (symmetry; apply Nat.ltb_ge; lia).
        symmetry. apply nth_error_None. lia. }
    rewrite Eu. split; [symmetry; apply Permutation_cons_append|]. split; [lia|].
    intros j Hj. now rewrite nth_error_app1 by lia.
  - rewrite nth_error_app1 in Hx by lia.
    assert (Eu : firstn (length l1) (upd (l1 ++ [z]) i z) = upd l1 i z).
    { apply list_ext. intros k. rewrite nth_error_firstn, upd_nth, app_length. simpl.
      rewrite upd_nth. destruct (Nat.ltb_spec k (length l1)).
      - replace (i <? length l1 + 1) with true by (symmetry; apply Nat.ltb_lt; lia).
        replace (i <? length l1) with true by (symmetry; apply Nat.ltb_lt; lia). rewrite nth_error_app1 by lia. reflexivity.
      - destruct (Nat.eqb_spec k i); [lia|]. simpl. symmetry. apply nth_error_None. lia. }
    rewrite Eu. destruct (upd_split l1 i z Hx) as (a & b & -> & -> & La).
    split.
    + rewrite <- app_assoc. simpl. transitivity (x :: a ++ b ++ [z]); [symmetry; apply Permutation_middle|].
      constructor. apply Permutation_app_head. symmetry. apply Permutation_cons_append.
    + rewrite !app_length. simpl. split; [lia|]. intros j Hj. rewrite !nth_error_app1; auto; rewrite ?app_length; simpl; lia.
Qed.

Lemma repeats_ok f : forall l, (forall j, In j l -> j < length f) ->
  exists b, repeats f l = Ok b
    /\ (b = true <-> exists j, In j l /\ nth_error f j = nth_error f (next_corner f j)).
Proof.
  induction l as [|j t IH]; intros Hl; cbn [repeats].
  - exists false. split; auto. split; [discriminate|]. intros (j & [] & _).
  - assert (Hj : j < length f) by (apply Hl; left; auto). pose proof (next_corner_lt f Hj) as Hk.
    rewrite (get_nth f 0 Hj), (get_nth f 0 Hk). cbn [bind].
    destruct IH as (b & E & Hb). { intros; apply Hl; right; auto. }
    destruct (Nat.eqb_spec (nth j f 0) (nth (next_corner f j) f 0)) as [En|En].
    + exists true. split; auto. split; auto. intros _. exists j. split; [left; auto|].
      now rewrite (nth_error_nth' f 0 Hj), (nth_error_nth' f 0 Hk), En.
    + exists b. split; auto. rewrite Hb. split.
      * intros (k & Hkt & Ek). exists k. split; [right; auto|auto].
      * intros (k & [<-|Hkt] & Ek); [|exists k; auto].
        rewrite (nth_error_nth' f 0 Hj), (nth_error_nth' f 0 Hk) in Ek. congruence.
Qed.

Lemma drop_ok : forall fuel i faces, length faces - i <= fuel ->
  (forall j f, j < i -> nth_error faces j = Some f -> ~ collapsed f) ->
  exists faces' dropped, drop_degenerate fuel i faces = Ok faces'
    /\ Permutation faces (faces' ++ dropped)
    /\ (forall f, In f faces' -> ~ collapsed f) /\ (forall f, In f dropped -> collapsed f).
Proof.
  assert (Hend : forall i (faces : list (list nat)), length faces <= i ->
    (forall j f, j < i -> nth_error faces j = Some f -> ~ collapsed f) ->
    exists faces' dropped, Ok faces = Ok faces' /\ Permutation faces (faces' ++ dropped)
      /\ (forall f, In f faces' -> ~ collapsed f) /\ (forall f, In f dropped -> collapsed f)).
  { intros i faces Hi Hd. exists faces, []. split; auto. rewrite app_nil_r. split; [reflexivity|].
    split; [|intros f []]. intros f Hf. apply In_nth_error in Hf as (j & Hj). eapply Hd; [|eauto].
    apply nth_error_Some_lt in Hj. lia. }
  induction fuel as [|fuel IH]; intros i faces Hm Hd; cbn [drop_degenerate].
  - destruct (Nat.ltb_spec i (length faces)); [lia|]. eapply Hend; eauto.
  - destruct (Nat.ltb_spec i (length faces)) as [Hi|Hi]; [|eapply Hend; eauto].
    destruct (nth_error_lt faces Hi) as (f & Ef). rewrite (get_some Ef). cbn [bind].
    destruct (@repeats_ok f (seq 0 (length f))) as (b & Eb & Hb). { intros j Hj. apply in_seq in Hj. lia. }
    rewrite Eb. cbn [bind].
    assert (Hc : b = true <-> collapsed f).
    { rewrite Hb. unfold collapsed, next_corner. split; intros (j & Hj & E); exists j; split; auto; apply in_seq in Hj || apply in_seq; lia. }
    destruct b.
    + destruct (swap_out_ok faces i Ef) as (l' & E' & P' & L' & N'). rewrite E'. cbn [bind].
      destruct (IH i l') as (faces' & dropped & E & Pm & H1 & H2).
      { lia. } { intros j g Hj Eg. eapply Hd; eauto. rewrite <- N' by auto. auto. }
      exists faces', (f :: dropped). split; auto. split.
      { rewrite P'. rewrite Pm. apply Permutation_middle. }
      split; auto. intros g [<-|Hg]; auto. apply Hc; auto.
    + apply IH; [lia|]. intros j g Hj Eg. destruct (Nat.eq_dec j i) as [->|Hn].
      * assert (g = f) by congruence. subst g. intros Hcf. apply Hc in Hcf. discriminate.
      * eapply Hd; [|eauto]. lia.
Qed.

(** ** Clustering *)
Local Open Scope R_scope.

Section Weld.
  Variable need : nat -> nat -> bool.
  Variable hmin : R.
  Variable pts : list (list R).
  Hypothesis pts3 : forall p, In p pts -> (3 <= length p)%nat.
  Hypothesis hmin_max : hmin <= @dbl_max R RNum.

  Definition pt (i : nat) : list R := nth i pts [].
  Definition D (i j : nat) : R := vdist 3 (vec (pt i)) (vec (pt j)).

  Definition winv (n : nat) (s : stree R) (m : list nat) : Prop :=
    exists K, welding hmin n D K m
      /\ grown 3 s (map (fun k => item_of 3 (pt k) None None) K).

  Lemma welding_keep n K m : welding hmin n D K m ->
    (forall k, In k K -> hmin <= D n k) ->
    welding hmin (S n) D (K ++ [n]) (m ++ [length K]).
  Proof.
    intros (Hi & Hk & Lm & Hs & Hr) Hf. split; [|split; [|split; [|split]]].
    - unfold ascending in *. clear - Hi Hk. induction K as [|a t IH]; simpl; [repeat constructor|].
      apply Sorted_inv in Hi as (Hi & Hh). constructor; [apply IH; auto; intros; apply Hk; right; auto|].
      destruct t as [|b t]; simpl; constructor; [apply Hk; left; auto|]. inversion Hh; auto.
    - intros k Hin. apply in_app_iff in Hin as [Hin|[<-|[]]]; [specialize (Hk k Hin); lia|lia].
    - rewrite app_length. simpl. lia.
    - intros u v Hu Hv Hne. apply in_app_iff in Hu as [Hu|[<-|[]]]; apply in_app_iff in Hv as [Hv|[<-|[]]]; auto.
      + unfold D. rewrite vdist_sym. apply Hf; auto.
      + congruence.
    - intros i Hlt. destruct (Nat.eq_dec i n) as [->|Hn].
      + exists (length K), n. rewrite nth_error_app2, Lm, Nat.sub_diag by lia. split; [reflexivity|].
        rewrite nth_error_app2, Nat.sub_diag by lia. split; [reflexivity|]. split; [lia|]. split; auto.
        intros k' _ _. unfold D at 1. rewrite vdist_self. apply vdist_nonneg.
      + destruct (Hr i) as (c & k & E1 & E2 & Hle & Hc & Hmn); [lia|]. exists c, k.
        rewrite nth_error_app1 by lia. split; auto.
        rewrite nth_error_app1 by (apply nth_error_Some_lt in E2; auto). split; auto. split; auto. split; auto.
        intros k' Hin Hle'. apply in_app_iff in Hin as [Hin|[<-|[]]]; auto. lia.
  Qed.

  Lemma welding_drop n K m c k : welding hmin n D K m -> nth_error K c = Some k -> D n k < hmin ->
    (forall k', In k' K -> D n k <= D n k') -> welding hmin (S n) D K (m ++ [c]).
  Proof.
    intros (Hi & Hk & Lm & Hs & Hr) Ec Hd Hmn. split; [auto|split; [|split; [|split]]].
    - intros k' Hin. specialize (Hk k' Hin). lia.
    - rewrite app_length. simpl. lia.
    - auto.
    - intros i Hlt. destruct (Nat.eq_dec i n) as [->|Hn].
      + exists c, k. rewrite nth_error_app2, Lm, Nat.sub_diag by lia. split; [reflexivity|]. split; auto.
        pose proof (Hk k (nth_error_In _ _ Ec)). split; [lia|]. split; auto.
      + destruct (Hr i) as (c' & k' & E1 & H'); [lia|]. exists c', k'.
        rewrite nth_error_app1 by lia. auto.
  Qed.

  Lemma pt_len i : (i < length pts)%nat -> (3 <= length (pt i))%nat.
  Proof. intros H. apply pts3, nth_In. auto. Qed.

  Lemma good_pt i : (i < length pts)%nat -> good_args 3 (pt i) None None.
  Proof. intros H. split; [now apply pt_len|]. split; intros l Hl; discriminate. Qed.

  Lemma weld_map_ok : forall rest n s m, (n + length rest = length pts)%nat ->
    (forall j, (j < length rest)%nat -> nth j rest [] = pt (n + j)) -> winv n s m ->
    exists s' m', weld_map need hmin rest s m = Ok (s', m') /\ winv (length pts) s' m'.
  Proof.
    induction rest as [|p rest IH]; intros n s m Hn Hr HI; cbn [weld_map].
    - exists s, m. split; auto. simpl in Hn. now replace (length pts) with n by lia.
    - assert (Ep : p = pt n). { specialize (Hr 0%nat). simpl in Hr. rewrite Nat.add_0_r in Hr. apply Hr. lia. }
      subst p. simpl in Hn. assert (Hlt : (n < length pts)%nat) by lia.
      assert (Hr' : forall j, (j < length rest)%nat -> nth j rest [] = pt (S n + j)).
      { intros j Hj. specialize (Hr (S j)). simpl in Hr. rewrite Nat.add_succ_r in Hr. apply Hr. lia. }
      destruct HI as (K & HW & HG).
      assert (LmK : length m = n) by (destruct HW as (_ & _ & H & _); auto).
      pose proof (grown_n HG) as Hsn. rewrite map_length in Hsn.
      assert (Step : (forall k, In k K -> hmin <= D n k) ->
        exists s' m', (s1 <- add_point need s (pt n) None None ;; weld_map need hmin rest s1 (m ++ [st_n s])) = Ok (s', m')
          /\ winv (length pts) s' m').
      { intros Hf. destruct (@grown_add 3 need s _ (pt n) None None ltac:(lia) HG (good_pt Hlt)) as (s1 & E1 & HG1).
        rewrite E1. cbn [bind]. apply (IH (S n)); [lia|auto|]. exists (K ++ [n]). rewrite Hsn.
        split; [apply welding_keep; auto|]. rewrite map_app. exact HG1. }
      destruct (Nat.eqb_spec (length m) 0) as [E0|E0].
      + assert (HK : K = []).
        { destruct HW as (_ & Hk & _). destruct K as [|k K]; auto. specialize (Hk k (or_introl eq_refl)). lia. }
        subst K. simpl in Hsn. rewrite Hsn in Step. apply Step. intros k [].
      + assert (HK : K <> []).
        { destruct HW as (_ & _ & _ & _ & Hrep). destruct (Hrep 0%nat) as (c & k & _ & Ek & _); [lia|].
          intros ->. destruct c; discriminate. }
        assert (Rd : ready s). { apply (@grown_ready 3 s _ ltac:(lia) HG). destruct K; [congruence|discriminate]. }
        assert (End : st_nd s = 3%nat) by (destruct HG; auto).
        pose proof (grown_pts HG) as Epts. rewrite map_map in Epts. cbn [it_x item_of] in Epts.
        assert (Hd : forall c k, nth_error K c = Some k -> dist_to s (pt n) c = D n k).
        { intros c k Ec. rewrite dist_to_vdist by auto. unfold D. apply vdist_ext; auto. intros d Hd.
          unfold center, coord, vec. rewrite Epts.
          rewrite (nth_error_nth _ _ [] (x := pt k)); auto. rewrite map_nth_error', Ec. reflexivity. }
        assert (LK : length (st_pts s) = length K) by (rewrite Epts; apply map_length).
        destruct (@closest_ok s Rd (fun _ => true) (pt n) (@dbl_max R RNum)) as (b & Eb & Nb).
        { rewrite End. now apply pt_len. } { left; apply dbl_max_pos. }
        rewrite Eb. cbn [bind]. destruct b as [ic hc].
        destruct Nb as [(Eo & Hall) | (i & Hi & _ & Eo & Hlt' & Hall)].
        * assert (Eh : hc = @dbl_max R RNum) by congruence. rewrite Eh. clear Eh.
          assert (Hnl : nltb (@dbl_max R RNum) hmin = false) by (cbn [nltb RNum]; apply Rltb_false; exact hmin_max).
          rewrite Hnl. apply Step. intros k Hk. apply In_nth_error in Hk as (c & Ec).
          rewrite <- (Hd c k Ec). eapply Rle_trans; [exact hmin_max|]. cbn [snd] in Hall. apply Hall; auto.
          apply in_seq. rewrite LK. apply nth_error_Some_lt in Ec. lia.
        * injection Eo as -> ->. apply in_seq in Hi. rewrite LK in Hi.
          destruct (nth_error_lt K (i := i)) as (k & Ek); [lia|]. rewrite (Hd _ _ Ek) in *.
          assert (Hmin : forall k', In k' K -> D n k <= D n k').
          { intros k' Hk'. apply In_nth_error in Hk' as (c & Ec). rewrite <- (Hd c k' Ec). apply Hall; auto.
            apply in_seq. rewrite LK. apply nth_error_Some_lt in Ec. lia. }
          destruct (Rltb (D n k) hmin) eqn:El; cbn [nltb RNum]; rewrite El.
          { apply Rltb_true in El. apply (IH (S n)); [lia|auto|]. exists K. split; [eapply welding_drop; eauto|auto]. }
          { apply Rltb_false in El. apply Step. intros k' Hk'. specialize (Hmin k' Hk'). lra. }
  Qed.

  Lemma weld_all : exists s m, weld_map need hmin pts (st_new 3) [] = Ok (s, m) /\ winv (length pts) s m.
  Proof.
    apply (@weld_map_ok pts 0); auto. exists []. split; [|apply grown_new].
    split; [constructor|]. split; [intros k []|]. split; auto. split; [intros u v []|]. intros i Hi. lia.
  Qed.
End Weld.

Local Close Scope R_scope.

(** An ascending list of n numbers below n is 0 ... n-1. *)
Lemma ascending_full K n : ascending K -> (forall k, In k K -> k < n) -> length K = n -> K = seq 0 n.
Proof.
  intros Hs Hk Hl.
  assert (G : forall K a, Sorted lt K -> (forall k, In k K -> a <= k < a + length K) -> K = seq a (length K)).
  { clear. induction K as [|k K IH]; intros a Hs Hb; auto. simpl.
    apply Sorted_StronglySorted in Hs; [|unfold Relations_1.Transitive; intros; lia].
    apply StronglySorted_inv in Hs as (Hs & Hf). rewrite Forall_forall in Hf.
    assert (k = a).
    { destruct (Nat.eq_dec k a); auto. exfalso.
      assert (Hn : NoDup K). { clear - Hs. induction Hs as [|x t Hs IH Hf]; constructor; auto.
        rewrite Forall_forall in Hf. intros Hx. specialize (Hf x Hx). lia. }
      assert (Hi : incl K (seq (S (S a)) (length K - 1))).
      { intros x Hx. specialize (Hf x Hx). pose proof (Hb k (or_introl eq_refl)). pose proof (Hb x (or_intror Hx)).
        simpl in *. apply in_seq. lia. }
      apply NoDup_incl_length in Hi; auto. rewrite seq_length in Hi.
      destruct K; [|simpl in Hi; lia]. pose proof (Hb k (or_introl eq_refl)). simpl in *. lia. }
    subst k. f_equal. apply (IH (S a)).
    - apply StronglySorted_Sorted; auto.
    - intros x Hx. specialize (Hf x Hx). pose proof (Hb x (or_intror Hx)). simpl in *. lia. }
  rewrite (G K 0 Hs); [now rewrite Hl|]. intros k Hin. specialize (Hk k Hin). lia.
Qed.

Lemma remap_ok n k m faces : length m = n -> (forall c, In c m -> c < k) ->
  (forall f, In f faces -> forall c, In c f -> c < n) ->
  remap_all m faces = Ok (map (map (fun c => nth c m 0)) faces).
Proof.
  intros Lm Hm Hf. unfold remap_all. induction faces as [|f t IH]; cbn [renumber_all map]; auto.
  assert (E : renumber (map Some m) f = Ok (map (fun c => nth c m 0) f)).
  { assert (Hc : forall c, In c f -> c < n) by (apply Hf; left; auto). clear - Hc Lm.
    induction f as [|c t IH]; cbn [renumber map]; auto.
    assert (Ec : nth_error (map Some m) c = Some (Some (nth c m 0))).
    { rewrite map_nth_error', (nth_error_nth' m 0); auto. rewrite Lm. apply Hc; left; auto. }
    rewrite (get_some Ec). cbn [bind]. rewrite IH by (intros; apply Hc; right; auto). reflexivity. }
  rewrite E. cbn [bind]. rewrite IH by (intros g Hg; apply Hf; right; auto). reflexivity.
Qed.

Lemma weld_ok need (hmin : R) pts faces : (forall p, In p pts -> length p = 3) -> (hmin <= @dbl_max R RNum)%R ->
  (forall f, In f faces -> forall c, In c f -> c < length pts) ->
  exists pts' faces' K m, weld_nearby_points need hmin pts faces = Ok (pts', faces')
    /\ welding hmin (length pts) (D pts) K m
    /\ map Some pts' = map (nth_error pts) K
    /\ (length K = length pts -> pts' = pts /\ faces' = faces)
    /\ (length K <> length pts -> exists dropped,
          Permutation (map (map (fun c => nth c m 0)) faces) (faces' ++ dropped)
          /\ (forall f, In f faces' -> ~ collapsed f) /\ (forall f, In f dropped -> collapsed f)).
Proof.
  intros H3 Hm Hf.
  destruct (@weld_all need hmin pts) as (s & m & E & K & HW & HG); auto. { intros p Hp. rewrite H3; auto. }
  unfold weld_nearby_points. rewrite E. cbn [bind]. rewrite (grown_n HG), map_length.
  assert (Hsome : map Some (map (pt pts) K) = map (nth_error pts) K).
  { rewrite map_map. apply map_ext_in. intros k Hk. destruct HW as (_ & HK & _). unfold pt.
    symmetry. apply nth_error_nth'. auto. }
  destruct (Nat.eqb_spec (length K) (length pts)) as [El|El].
  - assert (EK : K = seq 0 (length pts)) by (destruct HW as (Hi & HK & _); apply ascending_full; auto).
    exists pts, faces, K, m. split; auto. split; auto. split; [|split; [auto|congruence]].
    rewrite <- Hsome. f_equal. subst K. unfold pt. apply list_ext. intros k. rewrite map_nth_error'.
    destruct (lt_dec k (length pts)) as [Hk|Hk].
    + rewrite (nth_error_nth' (seq 0 (length pts)) 0) by now rewrite seq_length. rewrite seq_nth by auto.
      simpl. now apply nth_error_nth'.
    + assert (E1 : nth_error pts k = None) by (apply nth_error_None; lia).
      assert (E2 : nth_error (seq 0 (length pts)) k = None) by (apply nth_error_None; rewrite seq_length; lia).
      now rewrite E1, E2.
  - assert (Hc : forall c, In c m -> c < length K).
    { intros c Hc. apply In_nth_error in Hc as (i & Ei). destruct HW as (_ & _ & Lm & _ & Hr).
      destruct (Hr i) as (c' & k & E1 & E2 & _). { apply nth_error_Some_lt in Ei. lia. }
      assert (c' = c) by congruence. subst c'. apply nth_error_Some_lt in E2. auto. }
    rewrite (@remap_ok (length pts) (length K)) by (auto; destruct HW as (_ & _ & Lm & _); auto). cbn [bind].
    destruct (@drop_ok (length (map (map (fun c => nth c m 0)) faces)) 0 (map (map (fun c => nth c m 0)) faces))
      as (faces' & dropped & Ed & Pm & H1 & H2); [lia|intros j f Hj; lia|].
    rewrite Ed. cbn [bind]. eexists _, faces', K, m. split; [reflexivity|]. split; auto.
    split; [|split; [congruence|exists dropped; auto]].
    rewrite (grown_pts HG), map_map. cbn [it_x item_of]. rewrite map_map, <- Hsome, !map_map. apply map_ext_in.
    intros k Hk. f_equal. apply firstn_all2. unfold pt.
    destruct HW as (_ & HK & _). rewrite H3; [auto|apply nth_In; auto].
Qed.
