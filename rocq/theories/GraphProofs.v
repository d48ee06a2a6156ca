(** Proofs about the point graph. *)
From Verif Require Import Base Graph GraphSpec.

Definition blk (cap : nat) (l : list nat) (rest : block) : block :=
  Some cap :: Some (length l) :: map Some l ++ rest.
Definition blk_ok (c : option block) (l : list nat) : Prop :=
  match c with
  | None => l = []
  | Some b => exists cap rest, b = blk cap l rest /\ length l + length rest = cap /\ length l < cap
  end.
Definition ginv (s : pgraph) (E : list (nat * nat)) : Prop :=
  match pg_g s with
  | None => E = []
  | Some g => length g <= pg_cap s
      /\ (forall i c, nth_error g i = Some c -> blk_ok c (successors E i))
      /\ (forall e, In e E -> fst e < length g)
  end.

Lemma edge_mem_succ E i j : edge_mem E i j = existsb (Nat.eqb j) (successors E i).
Proof.
  unfold edge_mem, successors. induction E as [|(a, b) t IH]; simpl; auto.
  destruct (Nat.eqb_spec a i); simpl; rewrite IH; auto. now rewrite (Nat.eqb_sym j b).
Qed.

Lemma rd_blk cap l rest i v : nth_error l i = Some v -> rd (blk cap l rest) (2 + i) = Ok v.
Proof.
  intros H. unfold rd, blk, get. simpl.
  rewrite nth_error_app1 by (rewrite map_length; eapply nth_error_Some_lt; eauto).
  rewrite map_nth_error', H. reflexivity.
Qed.

Lemma scan_ok cap l rest jp m i : i + m = length l ->
  scan_edges m (blk cap l rest) i jp = Ok (existsb (Nat.eqb jp) (skipn i l)).
Proof.
  revert i; induction m as [|m IH]; intros i H.
  - simpl. rewrite skipn_all2 by lia. reflexivity.
  - destruct (nth_error_lt l (i := i) ltac:(lia)) as [v Hv]. cbn [scan_edges].
    rewrite (@rd_blk cap l rest i v Hv). cbn [bind].
    assert (E : skipn i l = v :: skipn (S i) l).
    { clear -Hv. revert i Hv. induction l as [|h t IHl]; destruct i; simpl; intros; try discriminate.
      - now inversion Hv.
      - now apply IHl. }
    rewrite E. cbn [existsb]. rewrite (Nat.eqb_sym v jp). destruct (jp =? v); auto.
    rewrite IH by lia. reflexivity.
Qed.

Lemma entries_ok cap l rest m i : i + m = length l ->
  read_entries m (blk cap l rest) i = Ok (skipn i l).
Proof.
  revert i; induction m as [|m IH]; intros i H.
  - simpl. rewrite skipn_all2 by lia. reflexivity.
  - destruct (nth_error_lt l (i := i) ltac:(lia)) as [v Hv]. cbn [read_entries].
    rewrite (@rd_blk cap l rest i v Hv). cbn [bind]. rewrite IH by lia. cbn [bind].
    f_equal. clear -Hv. revert i Hv. induction l as [|h t IHl]; destruct i; simpl; intros; try discriminate.
      + now inversion Hv.
      + now apply IHl.
Qed.

Lemma connected_ok s E i j : ginv s E -> graph_connected s i j = Ok (edge_mem E i j).
Proof.
  unfold ginv, graph_connected. destruct (pg_g s) as [g|]; [|now intros ->].
  intros (Hc & Hb & Hl). destruct (Nat.leb_spec (length g) i) as [H|H].
  - f_equal. symmetry. unfold edge_mem. apply not_true_is_false. intros Hx.
    apply existsb_exists in Hx as (e & He & Hx). apply andb_true_iff in Hx as (Hx & _).
    apply Nat.eqb_eq in Hx. specialize (Hl _ He). lia.
  - destruct (nth_error_lt g H) as [c Ec]. rewrite (get_some Ec). cbn [bind].
    specialize (Hb _ _ Ec). rewrite edge_mem_succ. destruct c as [b|]; simpl in Hb.
    + destruct Hb as (cap & rest & -> & _). cbn [bind rd get blk nth_error].
      fold (blk cap (successors E i) rest).
      rewrite scan_ok by reflexivity. reflexivity.
    + now rewrite Hb.
Qed.

Lemma copy_edges_ok l rest cap n dst : n <= length l -> length dst = 2 + 2 * cap -> length l <= cap ->
  exists d, copy_edges n (blk cap l rest) dst = Ok d /\ length d = length dst
    /\ (forall k, k < n -> nth_error d (2 + k) = option_map Some (nth_error l k))
    /\ (forall k, n <= k -> nth_error d (2 + k) = nth_error dst (2 + k)).
Proof.
  intros Hn Hd Hl. unfold copy_edges.
  destruct (@for_res_inv _ (fun m d => length d = length dst
    /\ (forall k, k < m -> nth_error d (2 + k) = option_map Some (nth_error l k))
    /\ (forall k, m <= k -> nth_error d (2 + k) = nth_error dst (2 + k))) n 0
    (fun i d => v <- rd (blk cap l rest) (2 + i) ;; set d (2 + i) (Some v)) dst) as (d & Ed & Hx).
  - repeat split; auto. intros; lia.
  - intros k st Hk (H1 & H2 & H3). destruct (nth_error_lt l (i := k) ltac:(lia)) as [v Hv].
    rewrite (@rd_blk cap l rest k v Hv). cbn [bind]. rewrite set_Ok by lia.
    eexists. split; [reflexivity|]. split; [now rewrite upd_length|]. split.
    + intros m Hm. destruct (Nat.eq_dec m k) as [->|Hne].
      * rewrite upd_nth_same by lia. now rewrite Hv.
      * rewrite upd_nth_other by lia. apply H2. lia.
    + intros m Hm. rewrite upd_nth_other by lia. apply H3. lia.
  - exists d. tauto.
Qed.

Lemma append_ok cap l rest j : length l + length rest = cap -> length l < cap ->
  exists b, append_edge (blk cap l rest) j = Ok b /\ blk_ok (Some b) (l ++ [j]).
Proof.
  intros Hc Hl. unfold append_edge. cbn [rd get blk nth_error bind].
  fold (blk cap l rest).
  destruct rest as [|r0 rest]; [simpl in Hc; lia|].
  assert (E1 : set (blk cap l (r0 :: rest)) (2 + length l) (Some j)
             = Ok (Some cap :: Some (length l) :: map Some (l ++ [j]) ++ rest)).
  { rewrite set_Ok by (unfold blk; simpl; rewrite app_length, map_length; simpl; lia).
    f_equal. unfold blk. cbn [Nat.add upd]. do 2 f_equal. rewrite map_app, <- app_assoc. simpl.
    clear. induction l as [|h t IH]; simpl; auto. now rewrite IH. }
  rewrite E1. cbn [bind]. rewrite set_Ok by (simpl; lia). cbn [upd bind].
  assert (EB : Some cap :: Some (length l + 1) :: map Some (l ++ [j]) ++ rest = blk cap (l ++ [j]) rest).
  { unfold blk. rewrite app_length. reflexivity. }
  rewrite EB. simpl in Hc.
  destruct (Nat.eqb_spec (length l + 1) cap) as [He|He].
  - destruct (@copy_edges_ok (l ++ [j]) rest cap (length l + 1) (repeat None (2 * cap + 2)))
      as (d & Ed & D1 & D2 & D3).
    { rewrite app_length. simpl. lia. } { rewrite repeat_length. lia. } { rewrite app_length. simpl. lia. }
    rewrite Ed. cbn [bind]. rewrite repeat_length in D1. rewrite set_Ok by lia. cbn [bind].
    rewrite set_Ok by (rewrite upd_length; lia). eexists. split; [reflexivity|].
    exists (2 * cap), (repeat None cap). split; [|rewrite repeat_length, app_length; simpl; lia].
    apply list_ext. intros k. destruct k as [|[|k]].
    + rewrite upd_nth_other by lia. rewrite upd_nth_same by lia. reflexivity.
    + rewrite upd_nth_same by (rewrite upd_length; lia). unfold blk. simpl. rewrite app_length. reflexivity.
    + rewrite !upd_nth_other by lia.
      change (nth_error (blk (2 * cap) (l ++ [j]) (repeat None cap)) (S (S k)))
        with (nth_error (map Some (l ++ [j]) ++ repeat None cap) k).
      change (nth_error d (S (S k))) with (nth_error d (2 + k)).
      destruct (lt_dec k (length l + 1)) as [Hk|Hk].
      * rewrite (D2 k Hk). rewrite (@nth_error_app1 _ (map Some (l ++ [j]))) by (rewrite map_length, app_length; simpl; lia).
        now rewrite map_nth_error'.
      * rewrite (D3 k) by lia. rewrite nth_error_app2 by (rewrite map_length, app_length; simpl; lia).
        rewrite map_length, app_length. cbn [length].
        assert (NR : forall m q, nth_error (repeat (@None nat) m) q = if q <? m then Some None else None).
        { clear. induction m as [|m IHm]; destruct q; simpl; auto. rewrite IHm. reflexivity. }
        rewrite !NR. repeat match goal with |- context [?a <? ?b] => destruct (Nat.ltb_spec a b) end; auto; lia.
  - eexists. split; [reflexivity|]. exists cap, rest. split; auto. rewrite app_length. simpl. lia.
Qed.

Lemma successors_snoc E i j k :
  successors (E ++ [(i, j)]) k = if i =? k then successors E k ++ [j] else successors E k.
Proof.
  unfold successors. rewrite filter_app, map_app. simpl. destruct (i =? k); simpl; auto.
  now rewrite app_nil_r.
Qed.

Lemma connect_ok s E i j : ginv s E -> pg_n s <= pg_cap s ->
  exists s', graph_connect s i j = Ok (if (i <? pg_n s) && negb (edge_mem E i j) then 0 else 1, s')
    /\ ginv s' (make_edge (pg_n s) E i j) /\ pg_n s' = pg_n s /\ pg_cap s' = pg_cap s.
Proof.
  intros Hg Hn. unfold graph_connect, make_edge.
  destruct (Nat.leb_spec (pg_n s) i) as [H|H]; destruct (Nat.ltb_spec i (pg_n s)) as [H'|H']; try lia.
  { exists s. auto. }
  cbn [andb].
  assert (HE : exists g, ensure_graph s = g /\ pg_cap s <= length g
     /\ ginv (PG (pg_n s) (pg_cap s) (Some g)) E).
  { unfold ensure_graph, ginv in *. cbn [pg_g pg_cap pg_n] in *. destruct (pg_g s) as [g|].
    - destruct Hg as (G1 & G2 & G3). destruct (Nat.ltb_spec (length g) (pg_cap s)).
      + eexists. split; [reflexivity|]. rewrite app_length, repeat_length. split; [lia|]. split; [lia|]. split.
        * intros k c Hk. destruct (lt_dec k (length g)) as [L|L].
          -- rewrite nth_error_app1 in Hk by lia. auto.
          -- rewrite nth_error_app2 in Hk by lia. apply nth_error_In in Hk. apply repeat_spec in Hk. subst c.
             simpl. unfold successors. destruct (filter (fun e => fst e =? k) E) as [|e l] eqn:F; auto.
             assert (In e (filter (fun e => fst e =? k) E)) as Hin by (rewrite F; left; auto).
             apply filter_In in Hin as (Hin & Hx). apply Nat.eqb_eq in Hx. specialize (G3 _ Hin). lia.
        * intros e He. specialize (G3 _ He). lia.
      + exists g. auto.
    - subst E. eexists. split; [reflexivity|]. rewrite repeat_length. split; [lia|]. split; [lia|]. split.
      + intros k c Hk. apply nth_error_In in Hk. apply repeat_spec in Hk. subst c. reflexivity.
      + intros e []. }
  destruct HE as (g & -> & Hlen & Hg1). clear Hg.
  destruct (nth_error_lt g (i := i) ltac:(lia)) as [c Ec]. rewrite (get_some Ec). cbn [bind].
  assert (HB : exists g1, (match c with
           | None => set g i (Some (Some 10 :: Some 0 :: repeat None 10))
           | Some _ => Ok g end) = Ok g1 /\ length g1 = length g
     /\ ginv (PG (pg_n s) (pg_cap s) (Some g1)) E
     /\ exists b, nth_error g1 i = Some (Some b)).
  { destruct c as [b|].
    - exists g. eauto 10.
    - rewrite set_Ok by lia. eexists. split; [reflexivity|]. rewrite upd_length. split; auto.
      destruct Hg1 as (G1 & G2 & G3). cbn [pg_g pg_cap] in *. split.
      + split; [rewrite upd_length; auto|]. split.
        * intros k c Hk. destruct (Nat.eq_dec k i) as [->|Hne].
          -- rewrite upd_nth_same in Hk by lia. inversion Hk; subst c.
             specialize (G2 _ _ Ec). simpl in G2. rewrite G2. exists 10, (repeat None 10). repeat split; simpl; lia.
          -- rewrite upd_nth_other in Hk by lia. auto.
        * intros e He. rewrite upd_length. auto.
      + rewrite upd_nth_same by lia. eauto. }
  destruct HB as (g1 & -> & Hlen1 & Hg2 & b & Eb). cbn [bind].
  rewrite (@connected_ok _ E i j Hg2). cbn [bind].
  destruct (edge_mem E i j) eqn:Em; cbn [negb].
  { eexists. split; [reflexivity|]. auto. }
  rewrite (get_some Eb). cbn [bind].
  destruct Hg2 as (G1 & G2 & G3). cbn [pg_g pg_cap] in *.
  destruct (G2 _ _ Eb) as (cap & rest & -> & C1 & C2).
  destruct (@append_ok cap (successors E i) rest j C1 C2) as (b' & Ea & Hb'). rewrite Ea. cbn [bind].
  rewrite set_Ok by lia. cbn [bind]. eexists. split; [reflexivity|]. split; [|auto].
  split; [cbn [pg_cap]; rewrite upd_length; auto|]. cbn [pg_g pg_cap]. split.
  - intros k c' Hk. rewrite successors_snoc. destruct (Nat.eqb_spec i k) as [<-|Hne].
    + rewrite upd_nth_same in Hk by lia. inversion Hk; subst c'. auto.
    + rewrite upd_nth_other in Hk by lia. auto.
  - intros e He. rewrite upd_length. apply in_app_iff in He as [He|[<-|[]]]; auto. simpl. lia.
Qed.

Lemma grun_ok l : forall s E, ginv s E -> (pg_n s = 0 -> E = []) -> grows (pg_n s) (pg_cap s) l ->
  exists s', grun s l = Ok s' /\ ginv s' (snd (fold_left spec_step l (pg_n s, E)))
    /\ pg_n s' = fst (fold_left spec_step l (pg_n s, E)) /\ pg_n s' <= pg_cap s'.
Proof.
  assert (MK : forall n E i j, (n = 0 -> E = []) -> (n = 0 -> make_edge n E i j = [])).
  { intros n E i j H Hn. unfold make_edge. subst n. rewrite (H eq_refl). reflexivity. }
  induction l as [|o t IH]; intros s E Hg Hz (Hn & Hgr).
  - exists s. auto.
  - cbn [grun fold_left]. destruct o as [i j|i j|n cap|]; cbn [gstep spec_step] in *.
    + destruct (@connect_ok s E i j Hg Hn) as (s1 & E1 & I1 & N1 & C1). rewrite E1. cbn [bind].
      rewrite <- N1, <- C1 in Hgr.
      destruct (IH s1 _ I1 ltac:(rewrite N1; apply MK; auto) Hgr) as (s2 & E2 & Hx). exists s2. rewrite N1 in Hx. auto.
    + unfold graph_connect_nodes.
      destruct (@connect_ok s E i j Hg Hn) as (s1 & E1 & I1 & N1 & C1). rewrite E1. cbn [bind].
      destruct (@connect_ok s1 _ j i I1 ltac:(lia)) as (s2 & E2 & I2 & N2 & C2). rewrite E2. cbn [bind].
      rewrite N1 in N2, I2. rewrite C1 in C2. rewrite <- N2, <- C2 in Hgr.
      destruct (IH s2 _ I2 ltac:(rewrite N2; intros; apply MK; auto) Hgr) as (s3 & E3 & Hx). exists s3. rewrite N2 in Hx. auto.
    + destruct Hgr as (H1 & H2 & H3).
      assert (Hg' : ginv (PG n cap (pg_g s)) E).
      { unfold ginv in *. cbn [pg_g pg_cap]. destruct (pg_g s); auto. destruct Hg as (? & ? & ?). split; [lia|auto]. }
      cbn [bind]. destruct (IH (PG n cap (pg_g s)) E Hg' ltac:(intros; apply Hz; simpl in *; lia) H3) as (s2 & E2 & Hx). eauto.
    + cbn [bind]. unfold reset_graph. destruct (Nat.eqb_spec (pg_n s) 0) as [H0|H0].
      * rewrite (Hz H0) in *. destruct (IH s [] Hg ltac:(auto) Hgr) as (s2 & E2 & Hx). eauto.
      * destruct (IH (PG (pg_n s) (pg_cap s) None) [] eq_refl ltac:(auto) Hgr) as (s2 & E2 & Hx). eauto.
Qed.

Lemma neighbors_ok s E i : ginv s E -> 
  match pg_g s with
  | None => graph_neighbors s i = UB
  | Some g => i < length g ->
      exists r, graph_neighbors s i = Ok r /\ (match r with None => [] | Some l => l end) = successors E i
  end.
Proof.
  intros Hg. unfold ginv, graph_neighbors in *. destruct (pg_g s) as [g|]; auto.
  destruct Hg as (G1 & G2 & G3). intros Hi. destruct (nth_error_lt g Hi) as [c Ec]. rewrite (get_some Ec). cbn [bind].
  specialize (G2 _ _ Ec). destruct c as [b|]; simpl in G2; [|eauto].
  destruct G2 as (cap & rest & -> & _). cbn [rd get blk nth_error bind]. fold (blk cap (successors E i) rest).
  rewrite entries_ok by reflexivity. cbn [bind]. eauto.
Qed.

Lemma spec_nodup l : forall n E, NoDup E -> NoDup (snd (fold_left spec_step l (n, E))).
Proof.
  assert (MK : forall n E i j, NoDup E -> NoDup (make_edge n E i j)).
  { intros n E i j H. unfold make_edge. destruct ((i <? n) && negb (edge_mem E i j)) eqn:Ex; auto.
    apply andb_true_iff in Ex as (_ & Ex). apply negb_true_iff in Ex.
    apply (Permutation_NoDup (l := (i, j) :: E)); [apply Permutation_cons_append|]. constructor; auto. intros Hin.
    unfold edge_mem in Ex. assert (existsb (fun e => (fst e =? i) && (snd e =? j)) E = true); [|congruence].
    apply existsb_exists. exists (i, j). split; auto. simpl. now rewrite !Nat.eqb_refl. }
  induction l as [|o t IH]; intros n E H; cbn [fold_left]; auto.
  destruct o; cbn [spec_step]; apply IH; auto. constructor.
Qed.

Lemma make_edge_in n E i j e : In e (make_edge n E i j) <-> In e E \/ (e = (i, j) /\ i < n).
Proof.
  unfold make_edge. destruct (Nat.ltb_spec i n) as [H|H]; cbn [andb].
  - destruct (edge_mem E i j) eqn:Em; cbn [negb].
    + split; auto. intros [H0|(-> & _)]; auto. unfold edge_mem in Em. apply existsb_exists in Em as ((a, b) & Hin & Hx).
      apply andb_true_iff in Hx as (H1 & H2). apply Nat.eqb_eq in H1, H2. simpl in *. now subst.
    + rewrite in_app_iff. simpl. intuition congruence.
  - intuition; try lia.
Qed.

Lemma edge_mem_in E i j : edge_mem E i j = true <-> In (i, j) E.
Proof.
  unfold edge_mem. rewrite existsb_exists. split.
  - intros ((a, b) & Hin & Hx). apply andb_true_iff in Hx as (H1 & H2). apply Nat.eqb_eq in H1, H2. simpl in *. now subst.
  - intros H. exists (i, j). split; auto. simpl. now rewrite !Nat.eqb_refl.
Qed.
