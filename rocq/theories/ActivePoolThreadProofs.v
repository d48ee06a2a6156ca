(** Proofs about the threads of refine_active_pool. *)
From Verif Require Import Base Num MemoryHandler PolyMesh PolyMeshProofs ActivePool.

Lemma for_res_add {St} (body : nat -> St -> res St) a b lo s :
  for_res (a + b) lo body s = (s1 <- for_res a lo body s ;; for_res b (lo + a) body s1).
Proof.
  revert lo s; induction a as [|a IH]; intros lo s; cbn [for_res Nat.add bind].
  - now rewrite Nat.add_0_r.
  - destruct (body lo s); cbn [bind]; auto. rewrite IH. now rewrite Nat.add_succ_comm.
Qed.
Lemma for_res_S {St} (body : nat -> St -> res St) n lo s :
  for_res (S n) lo body s = (s1 <- for_res n lo body s ;; body (lo + n) s1).
Proof.
  replace (S n) with (n + 1) by lia. rewrite for_res_add.
  destruct (for_res n lo body s) as [x| |]; cbn [bind]; auto. cbn [for_res bind].
  destruct (body (lo + n) x); auto.
Qed.
Lemma bind_assoc {A B C} (x : res A) (f : A -> res B) (g : B -> res C) :
  bind (bind x f) g = bind x (fun a => bind (f a) g).
Proof. destruct x; auto. Qed.
Lemma bind_ext {A B} (x : res A) (f g : A -> res B) : (forall a, x = Ok a -> f a = g a) -> bind x f = bind x g.
Proof. destruct x; cbn; auto. Qed.
Lemma for_res_ext {St} (f g : nat -> St -> res St) n lo s :
  (forall i st, lo <= i < lo + n -> f i st = g i st) -> for_res n lo f s = for_res n lo g s.
Proof.
  revert lo s; induction n as [|n IH]; intros lo s H; cbn [for_res]; auto.
  rewrite H by lia. destruct (g lo s); cbn [bind]; auto. apply IH. intros; apply H; lia.
Qed.

Section T.
  Context {E : Type}.
  Variable process : nat -> list E -> res (list E).
  Variable k : nat.

  Lemma iter_shift {A} (f : A -> A) n x : Nat.iter n f (f x) = Nat.iter (S n) f x.
  Proof. induction n as [|n IH]; auto. cbn. f_equal. exact IH. Qed.
  Fixpoint occurs (t : nat) (l : list nat) : nat :=
    match l with [] => 0 | x :: r => (if x =? t then 1 else 0) + occurs t r end.

  Lemma run_length sched : forall sts : list (@thread_state E), length (fold_left (tick process k) sched sts) = length sts.
  Proof.
    induction sched as [|x r IH]; intros sts; cbn [fold_left]; auto. rewrite IH. unfold tick.
    destruct (nth_error sts x); auto. apply upd_length.
  Qed.
  Lemma run_nth sched : forall (sts : list (@thread_state E)) t st, nth_error sts t = Some st ->
    nth_error (fold_left (tick process k) sched sts) t = Some (Nat.iter (occurs t sched) (iteration process k t) st).
  Proof.
    induction sched as [|x r IH]; intros sts t st H; cbn [fold_left occurs]; auto.
    destruct (Nat.eqb_spec x t) as [->|Hne].
    - rewrite (IH _ t (iteration process k t st)).
      + cbn [Nat.add]. now rewrite iter_shift.
      + unfold tick. rewrite H. apply upd_nth_same. eapply nth_error_Some_lt; eauto.
    - cbn [Nat.add]. apply IH. unfold tick. destruct (nth_error sts x) eqn:Ex; auto.
      rewrite upd_nth_other; auto.
  Qed.
  Lemma iter_thread t m : Nat.iter m (iteration process k t) (0, Ok []) =
    (Nat.min m k, for_res (Nat.min m k) (t * k) process []).
  Proof.
    induction m as [|m IH]; auto.
    transitivity (iteration process k t (Nat.iter m (iteration process k t) (0, Ok []))); [reflexivity|]. rewrite IH. unfold iteration. destruct (Nat.ltb_spec (Nat.min m k) k).
    - replace (Nat.min (S m) k) with (S (Nat.min m k)) by lia. rewrite for_res_S. reflexivity.
    - replace (Nat.min (S m) k) with (Nat.min m k) by lia. reflexivity.
  Qed.

  Definition finished (T : nat) (sched : list nat) : Prop := forall t, t < T -> k <= occurs t sched.

  Lemma run_finished T sched : finished T sched ->
    run_threads process k T sched = map (fun t => (k, for_res k (t * k) process [])) (seq 0 T).
  Proof.
    intros Hf. unfold run_threads. apply list_ext. intros t. destruct (Nat.lt_ge_cases t T) as [Ht|Ht].
    - rewrite (@run_nth sched _ t (0, Ok [])).
      + rewrite iter_thread, Nat.min_r by (apply Hf; auto).
        rewrite map_nth_error with (d := t); auto. rewrite nth_error_nth' with (d := 0) by now rewrite seq_length.
        now rewrite seq_nth.
      + rewrite nth_error_repeat; auto.
    - rewrite (proj2 (nth_error_None _ _)), (proj2 (nth_error_None _ _)); auto.
      + now rewrite map_length, seq_length.
      + rewrite run_length, repeat_length. auto.
  Qed.

  (** The loop body only appends. *)
  Hypothesis Happ : forall i buf, process i buf = (l <- process i [] ;; Ok (buf ++ l)).
  Lemma for_res_app n : forall lo buf, for_res n lo process buf = (l <- for_res n lo process [] ;; Ok (buf ++ l)).
  Proof.
    induction n as [|n IH]; intros lo buf; cbn [for_res bind]; [now rewrite app_nil_r|].
    rewrite (Happ lo buf). destruct (process lo []) as [l| |]; cbn [bind]; auto.
    rewrite (IH (S lo) (buf ++ l)), (IH (S lo) l). destruct (for_res n (S lo) process []); cbn [bind]; auto.
    now rewrite app_assoc.
  Qed.
  Lemma join_chunks T : forall t0,
    (bs <- join (map (fun t => (k, for_res k (t * k) process [])) (seq t0 T)) ;; Ok (concat bs))
    = for_res (T * k) (t0 * k) process [].
  Proof.
    induction T as [|T IH]; intros t0; cbn [seq map join bind concat Nat.mul for_res]; auto.
    rewrite for_res_add. destruct (for_res k (t0 * k) process []) as [l| |]; cbn [bind]; auto.
    rewrite for_res_app. replace (t0 * k + k) with (S t0 * k) by lia. rewrite <- IH.
    destruct (join _); reflexivity.
  Qed.
  Lemma join_length T : forall t0 bs, join (map (fun t => (k, for_res k (t * k) process [])) (seq t0 T)) = Ok bs -> length bs = T.
  Proof.
    induction T as [|T IH]; intros t0 bs; cbn [seq map join].
    - intros H; injection H as <-; auto.
    - intros H. apply bind_Ok_inv in H. destruct H as (b & _ & H). apply bind_Ok_inv in H. destruct H as (r & Hr & H).
      injection H as <-. cbn [length]. f_equal. eauto.
  Qed.
End T.

(** ** Gathering *)
Definition total (l : list nat) : nat := fold_right Nat.add 0 l.
Lemma total_app l l' : total (l ++ l') = total l + total l'.
Proof. induction l; cbn; auto. unfold total in *. cbn. lia. Qed.
Lemma firstn_S_total l i : i < length l -> total (firstn (S i) l) = total (firstn i l) + nth i l 0.
Proof.
  revert i; induction l as [|a l IH]; intros i H; [cbn in H; lia|].
  destruct i as [|i]; [cbn; lia|]. cbn [length] in H.
  change (total (firstn (S (S i)) (a :: l))) with (a + total (firstn (S i) l)).
  change (total (firstn (S i) (a :: l))) with (a + total (firstn i l)).
  change (nth (S i) (a :: l) 0) with (nth i l 0). rewrite IH by lia. lia.
Qed.

Lemma prefix_sums_ok l : exists e, prefix_sums l = Ok e /\ length e = length l
  /\ forall i, i < length l -> nth_error e i = Some (total (firstn (S i) l)).
Proof.
  destruct l as [|a0 l0]; [exists []; cbn; repeat split; auto; intros; lia|].
  set (l := a0 :: l0). assert (Hl : length l > 0) by (cbn; lia). clearbody l. unfold prefix_sums.
  destruct (@for_res_inv (list nat) (fun j e => length e = length l /\ forall i, i < length l ->
     nth_error e i = Some (if i <? j then total (firstn (S i) l) else nth i l 0))
     (length l - 1) 1 (fun t l => a <- get l t ;; b <- get l (t - 1) ;; set l t (a + b)) l) as (e & Ee & Le & He).
  - split; auto. intros i Hi. destruct (Nat.ltb_spec i 1).
    + replace i with 0 by lia. destruct l; [cbn in Hl; lia|]. cbn. f_equal. lia.
    + now apply nth_error_nth'.
  - intros t st Ht (Ls & Hs).
    rewrite (get_some (Hs t ltac:(lia))). cbn [bind]. rewrite (get_some (Hs (t - 1) ltac:(lia))). cbn [bind].
    replace (t <? t) with false by (symmetry; apply Nat.ltb_ge; lia).
    replace (t - 1 <? t) with true by (symmetry; apply Nat.ltb_lt; lia).
    rewrite set_Ok by lia. eexists; split; eauto. split; [now rewrite upd_length|].
    intros i Hi. destruct (Nat.eq_dec i t) as [->|Hne].
    + rewrite upd_nth_same by lia. replace (t <? S t) with true by (symmetry; apply Nat.ltb_lt; lia).
      replace (S (t - 1)) with t by lia. rewrite firstn_S_total by lia. f_equal. lia.
    + rewrite upd_nth_other by auto. rewrite Hs by auto.
      destruct (Nat.ltb_spec i t), (Nat.ltb_spec i (S t)); auto; lia.
  - exists e. split; auto. split; auto. intros i Hi. rewrite He by auto.
    replace (i <? 1 + (length l - 1)) with true by (symmetry; apply Nat.ltb_lt; lia). reflexivity.
Qed.

Lemma upd_here {A} (l1 l2 : list A) x y : upd (l1 ++ x :: l2) (length l1) y = l1 ++ y :: l2.
Proof. induction l1; cbn; auto. now rewrite IHl1. Qed.

Section G.
  Context {E : Type}.
  Implicit Types (bufs : list (list E)) (cells : list (option E)).
  Definition sizes bufs := map (@length E) bufs.
  Lemma concat_length bufs : length (concat bufs) = total (sizes bufs).
  Proof. induction bufs; cbn; auto. rewrite app_length. unfold sizes, total in *. cbn. lia. Qed.
  Lemma firstn_sizes bufs j : firstn j (sizes bufs) = sizes (firstn j bufs).
  Proof. apply firstn_map. Qed.

  Lemma all_written_ok (l : list E) : all_written (map Some l) = Ok l.
  Proof. induction l; cbn; auto. now rewrite IHl. Qed.

  (** After j threads, the first cells hold the buffers of these threads. *)
  Lemma gather_ok bufs : bufs <> [] -> gather bufs = Ok (concat bufs).
  Proof.
    intros Hne. unfold gather. destruct (prefix_sums_ok (map (@length E) bufs)) as (ends & Ee & Le & He).
    rewrite Ee. cbn [bind]. rewrite map_length in *.
    assert (Hpos : length bufs > 0) by (destruct bufs; [congruence|cbn; lia]).
    rewrite (get_some (He (length bufs - 1) ltac:(lia))). cbn [bind].
    replace (S (length bufs - 1)) with (length bufs) by lia.
    rewrite firstn_all2 by (rewrite map_length; lia).
    set (tot := total (map (@length E) bufs)).
    destruct (@for_res_inv (list (option E))
      (fun j cells => cells = map Some (concat (firstn j bufs)) ++ repeat None (tot - length (concat (firstn j bufs))))
      (length bufs) 0 (copy_out bufs ends) (repeat None tot)) as (cells & Ec & Hc).
    - cbn. now rewrite Nat.sub_0_r.
    - intros t cells Ht Hc. unfold copy_out. rewrite (get_some (He t ltac:(lia))). cbn [bind].
      assert (Hprior : (if 0 <? t then get ends (t - 1) else Ok 0) = Ok (length (concat (firstn t bufs)))).
      { destruct (Nat.ltb_spec 0 t).
        - rewrite (get_some (He (t - 1) ltac:(lia))). replace (S (t - 1)) with t by lia.
          change (map (@length E) bufs) with (sizes bufs). now rewrite firstn_sizes, concat_length.
        - replace t with 0 by lia. reflexivity. }
      rewrite Hprior. cbn [bind]. destruct (@nth_error_lt _ bufs t ltac:(lia)) as (buf & Hbuf).
      rewrite (get_some Hbuf). cbn [bind].
      rewrite firstn_S_total by (rewrite map_length; lia).
      change (map (@length E) bufs) with (sizes bufs). rewrite firstn_sizes, <- concat_length.
      set (pre := concat (firstn t bufs)) in *.
      assert (Hn : nth t (sizes bufs) 0 = length buf).
      { unfold sizes. apply nth_error_nth. now apply map_nth_error. }
      rewrite Hn. replace (length pre + length buf - length pre) with (length buf) by lia.
      assert (Hfs : concat (firstn (S t) bufs) = pre ++ buf).
      { apply nth_error_split in Hbuf. destruct Hbuf as (l1 & l2 & Hb & Hl1). subst bufs.
        unfold pre. rewrite firstn_app, (firstn_all2 l1) by lia. replace (S t - length l1) with 1 by lia.
        cbn [firstn]. rewrite firstn_app, (firstn_all2 l1) by lia. replace (t - length l1) with 0 by lia. cbn [firstn].
        rewrite app_nil_r, concat_app. cbn. now rewrite app_nil_r. }
      assert (Htot : length pre + length buf <= tot).
      { rewrite <- app_length, <- Hfs. unfold tot. change (map (@length E) bufs) with (sizes bufs). rewrite <- concat_length.
        rewrite <- (firstn_skipn (S t) bufs) at 2. rewrite concat_app, app_length. lia. }
      destruct (@for_res_inv (list (option E))
        (fun j cells => cells = map Some (pre ++ firstn j buf) ++ repeat None (tot - length pre - j))
        (length buf) 0 (fun iface cells => e <- get buf iface ;; set cells (length pre + iface) (Some e)) cells) as (c2 & E2 & H2).
      + rewrite Hc. cbn [firstn]. rewrite app_nil_r, Nat.sub_0_r. reflexivity.
      + intros j c Hj Hcj. destruct (@nth_error_lt _ buf j ltac:(lia)) as (e & He').
        rewrite (get_some He'). cbn [bind].
        assert (Lj : length (map Some (pre ++ firstn j buf)) = length pre + j).
        { rewrite map_length, app_length, firstn_length. lia. }
        rewrite set_Ok by (rewrite Hcj, app_length, Lj, repeat_length; lia).
        eexists; split; eauto. rewrite Hcj.
        destruct (tot - length pre - j) as [|m] eqn:Em; [lia|].
        replace (tot - length pre - S j) with m by lia. cbn [repeat].
        rewrite <- Lj, upd_here. replace (firstn (S j) buf) with (firstn j buf ++ [e]).
        * rewrite !map_app, <- !app_assoc. reflexivity.
        * clear -He'. revert j He'. induction buf as [|b buf IH]; intros j H; destruct j; cbn in *; try congruence.
          now rewrite IH.
      + exists c2. split; auto. rewrite H2, Hfs. cbn [Nat.add]. rewrite firstn_all. rewrite app_length.
        do 2 f_equal. lia.
    - rewrite Ec. cbn [bind]. rewrite Hc. cbn [Nat.add]. rewrite firstn_all.
      change tot with (total (sizes bufs)). rewrite <- concat_length, Nat.sub_diag. cbn [repeat]. rewrite app_nil_r.
      apply all_written_ok.
  Qed.
End G.

(** The chunks of all threads together are the whole loop. *)
Lemma threads_ok {E} (process : nat -> list E -> res (list E)) (n T : nat) sched :
  1 <= T -> finished (n / T + 1) T sched ->
  (forall i buf, process i buf = (l <- process i [] ;; Ok (buf ++ l))) ->
  (forall i buf, n <= i -> process i buf = Ok buf) ->
  (bufs <- join (run_threads process (n / T + 1) T sched) ;; gather bufs) = for_res n 0 process [].
Proof.
  intros HT Hf Happ Hend. rewrite run_finished by auto. set (k := n / T + 1) in *.
  transitivity (bs <- join (map (fun t => (k, for_res k (t * k) process [])) (seq 0 T)) ;; Ok (concat bs)).
  - apply bind_ext. intros bs Hbs. apply gather_ok. apply join_length in Hbs. destruct bs; [cbn in Hbs; lia|discriminate].
  - rewrite join_chunks by auto. cbn [Nat.mul].
    assert (Hn : n <= T * k).
    { unfold k. pose proof (Nat.div_mod n T ltac:(lia)). pose proof (Nat.mod_upper_bound n T ltac:(lia)). nia. }
    replace (T * k) with (n + (T * k - n)) by lia. rewrite for_res_add. cbn [Nat.add].
    destruct (for_res n 0 process []) as [l| |]; cbn [bind]; auto.
    generalize (T * k - n). intros m. assert (G : forall m lo, n <= lo -> for_res m lo process l = Ok l).
    { clear m. induction m as [|m IH]; intros lo Hlo; cbn [for_res]; auto. rewrite Hend by auto. cbn [bind]. apply IH. lia. }
    now apply G.
Qed.

(** Threads run one after the other are a finished schedule. *)
Lemma occurs_app t l l' : occurs t (l ++ l') = occurs t l + occurs t l'.
Proof. induction l; cbn; auto. rewrite IHl. lia. Qed.
Lemma occurs_repeat t m : occurs t (repeat t m) = m.
Proof. induction m; cbn; auto. rewrite Nat.eqb_refl. lia. Qed.
Lemma in_order_finished k T : finished k T (in_order k T).
Proof.
  intros t Ht. unfold in_order. assert (In t (seq 0 T)) by (apply in_seq; lia).
  apply in_split in H. destruct H as (l1 & l2 & ->). rewrite flat_map_app, occurs_app. cbn [flat_map].
  rewrite occurs_app, occurs_repeat. lia.
Qed.
