(** C12, C13: the graph and the attributes attached to the points of a tree. *)
From Verif Require Import Base Num SmartTree Graph GraphSpec GraphProofs.

(** ** C12: whatever happens to the tree, the graph is the set of edges made since it
    was last cleared; lists of neighbours have no duplicates and keep the order. *)
Theorem C12_graph n cap l :
  grows n cap l ->
  exists s, grun (g_new n cap) l = Ok s
    /\ (forall i j, graph_connected s i j = Ok (edge_mem (snd (spec_run n l)) i j))
    /\ (forall i, NoDup (successors (snd (spec_run n l)) i))
    /\ (forall i r, graph_neighbors s i = Ok r ->
          match r with None => [] | Some nb => nb end = successors (snd (spec_run n l)) i).
Proof.
  intros H. destruct (@grun_ok l (g_new n cap) [] eq_refl (fun _ => eq_refl) H) as (s & E & I & N & C).
  exists s. split; auto. unfold spec_run in *. cbn [g_new pg_n] in *. split; [|split].
  - intros i j. now apply connected_ok.
  - intros i. pose proof (@spec_nodup l n [] (NoDup_nil _)) as ND. unfold successors.
    revert ND. generalize (snd (fold_left spec_step l (n, []))) as L. induction L as [|(a, b) L IH]; intros ND; [constructor|].
    inversion ND; subst. cbn [filter fst]. destruct (Nat.eqb_spec a i) as [->|]; auto.
    cbn [map snd]. constructor; auto. intros Hin. apply in_map_iff in Hin as ((c, d) & Hd & Hin).
    apply filter_In in Hin as (Hin & Hc). apply Nat.eqb_eq in Hc. simpl in *. subst. auto.
  - intros i r Er. pose proof (@neighbors_ok s _ i I) as Hn. unfold ginv in I.
    destruct (pg_g s) as [g|] eqn:Eg; [|congruence].
    assert (i < length g).
    { unfold graph_neighbors in Er. rewrite Eg in Er. apply bind_Ok_inv in Er as (c & Ec & _).
      apply get_Ok in Ec. eapply nth_error_Some_lt; eauto. }
    destruct (Hn H0) as (r' & E' & Hr). rewrite E' in Er. injection Er as <-. exact Hr.
Qed.

(** Edges made in both directions between existing points give a symmetric relation. *)
Fixpoint both_ways (n : nat) (l : list gop) : Prop :=
  match l with
  | [] => True
  | GConnect _ _ :: _ => False
  | GConnectNodes i j :: t => i < n /\ j < n /\ both_ways n t
  | GGrow n' _ :: t => both_ways n' t
  | GReset :: t => both_ways n t
  end.
Theorem C12_symmetric n cap l i j :
  grows n cap l -> both_ways n l ->
  exists s b, grun (g_new n cap) l = Ok s /\ graph_connected s i j = Ok b /\ graph_connected s j i = Ok b.
Proof.
  intros H HB. destruct (@C12_graph n cap l H) as (s & E & Hc & _). exists s, (edge_mem (snd (spec_run n l)) i j).
  split; auto. split; auto. rewrite Hc. f_equal. unfold spec_run.
  assert (S : forall l n E, both_ways n l -> (forall a b, In (a, b) E <-> In (b, a) E) ->
     forall a b, In (a, b) (snd (fold_left spec_step l (n, E))) <-> In (b, a) (snd (fold_left spec_step l (n, E)))).
  { clear. induction l as [|o t IH]; intros n E HB HE; [exact HE|]. cbn [fold_left].
    destruct o as [i j|i j|n' c|]; cbn [both_ways] in HB; cbn [spec_step].
    - destruct HB.
    - destruct HB as (Hi & Hj & HB). apply IH; auto. intros a b. rewrite !make_edge_in, HE. intuition congruence.
    - apply IH; auto.
    - apply IH; auto. intros a b. split; intros []. }
  specialize (S l n [] HB (fun a b => conj (fun x : In _ [] => match x with end) (fun x : In _ [] => match x with end)) i j).
  destruct (edge_mem _ j i) eqn:E1, (edge_mem _ i j) eqn:E2; auto.
  - apply edge_mem_in in E1. apply S in E1. apply edge_mem_in in E1. congruence.
  - apply edge_mem_in in E2. apply S in E2. apply edge_mem_in in E2. congruence.
Qed.

(** Connecting again changes nothing and is reported by the returned code. *)
Theorem C12_idempotent n cap l i j s :
  grows n cap l -> grun (g_new n cap) l = Ok s -> i < pg_n s ->
  exists s1 s2 c, graph_connect s i j = Ok (c, s1) /\ graph_connect s1 i j = Ok (1, s2)
    /\ (c = 0 <-> graph_connected s i j = Ok false)
    /\ graph_connected s1 i j = Ok true
    /\ forall a b, graph_connected s2 a b = graph_connected s1 a b
         /\ ((a, b) <> (i, j) -> graph_connected s1 a b = graph_connected s a b).
Proof.
  intros H E Hi. destruct (@grun_ok l (g_new n cap) [] eq_refl (fun _ => eq_refl) H) as (s' & E' & I & N & C).
  rewrite E in E'. injection E' as <-. set (Ed := snd _) in I.
  destruct (@connect_ok s Ed i j I C) as (s1 & E1 & I1 & N1 & C1).
  destruct (@connect_ok s1 _ i j I1 ltac:(lia)) as (s2 & E2 & I2 & N2 & C2).
  assert (M : edge_mem (make_edge (pg_n s) Ed i j) i j = true) by (apply edge_mem_in, make_edge_in; auto).
  rewrite M, andb_false_r in E2. cbn [negb] in E2.
  assert (ME : make_edge (pg_n s1) (make_edge (pg_n s) Ed i j) i j = make_edge (pg_n s) Ed i j).
  { unfold make_edge at 1. rewrite M, andb_false_r. reflexivity. }
  rewrite ME in I2.
  exists s1, s2, (if (i <? pg_n s) && negb (edge_mem Ed i j) then 0 else 1). split; auto. split; auto.
  split; [|split].
  - rewrite (@connected_ok s Ed) by auto. apply Nat.ltb_lt in Hi. rewrite Hi. destruct (edge_mem Ed i j); simpl; split; congruence.
  - rewrite (@connected_ok s1 _ i j I1). now rewrite M.
  - intros a b. rewrite (@connected_ok s2 _ a b I2), (@connected_ok s1 _ a b I1). split; auto.
    intros Hne. rewrite (@connected_ok s Ed) by auto. f_equal.
    destruct (edge_mem Ed a b) eqn:X; [apply edge_mem_in, make_edge_in; left; now apply edge_mem_in|].
    apply not_true_is_false. intros Y. apply edge_mem_in, make_edge_in in Y as [Y|(Y & _)]; [|congruence].
    apply edge_mem_in in Y. congruence.
Qed.

(** graph_connect_nodes with one index that is not a point makes a one-way edge. *)
Theorem C12_missing_point_refuted n cap i j :
  n <= cap -> i < n -> n <= j ->
  exists s, graph_connect_nodes (g_new n cap) i j = Ok s
    /\ graph_connected s i j = Ok true /\ graph_connected s j i = Ok false.
Proof.
  intros Hc Hi Hj.
  destruct (@C12_graph n cap [GConnectNodes i j]) as (s & E & G & _); [simpl; auto|].
  exists s. split.
  - cbn [grun gstep] in E. destruct (graph_connect_nodes (g_new n cap) i j); simpl in E; congruence.
  - rewrite !G. unfold spec_run, make_edge. cbn [fold_left spec_step snd]. unfold make_edge.
    apply Nat.ltb_lt in Hi. apply Nat.ltb_ge in Hj. rewrite Hi, Hj. cbn.
    rewrite !Nat.eqb_refl. split; auto. rewrite (proj2 (Nat.eqb_neq i j)); auto.
    apply Nat.ltb_lt in Hi. apply Nat.ltb_ge in Hj. lia.
Qed.

(** A tree that was never given an edge has no graph array to return. *)
Theorem C12_neighbors_without_graph_refuted n cap i : graph_neighbors (g_new n cap) i = UB.
Proof. reflexivity. Qed.

(** Twelve neighbours: the block of ten is outgrown. *)
Example C12_executed :
  (s <- grun (g_new 20 100) (GConnectNodes 3 3 :: map (GConnectNodes 3) (seq 5 12) ++ [GConnectNodes 9 3; GGrow 120 200; GConnectNodes 3 119]) ;;
   l <- graph_neighbors s 3 ;; b <- graph_connected s 119 3 ;; Ok (l, b))
  = Ok (Some (3 :: seq 5 12 ++ [119]), true).
Proof. vm_compute. reflexivity. Qed.
Example C12_hypotheses :
  grows 20 100 [GConnectNodes 3 7; GGrow 25 100; GConnectNodes 3 24; GReset]
  /\ both_ways 20 [GConnectNodes 3 7; GGrow 25 100; GConnectNodes 3 24; GReset].
Proof. simpl. lia. Qed.

(** ** C13: attributes.  The record of a point is its length followed by the values. *)
Section Attrib.
  Context {F : Type} `{Num F}.

  (** The record of a point in the tree. *)
  Definition record_of (s : stree F) (i : nat) : option (option (list nat)) :=
    match st_att s with None => None | Some att => nth_error att i end.
  Definition well_formed (rec : list nat) : Prop := rec <> [] /\ hd 0 rec = length rec.

  Theorem C13_get (s : stree F) i k rec :
    record_of s i = Some (Some rec) -> well_formed rec ->
    (S k < length rec -> get_attrib s i k = Ok (Some (nth (S k) rec 0)))
    /\ (length rec <= k -> get_attrib s i k = Ok None).
  Proof.
    unfold record_of, get_attrib, well_formed. intros Hr (Hne & Hh). destruct (st_att s) as [att|]; [|discriminate].
    rewrite (get_some Hr). cbn [bind]. destruct rec as [|m t]; [congruence|]. simpl in Hh. subst m.
    split; intros Hk.
    - cbn [get nth_error bind]. rewrite (proj2 (Nat.leb_gt (S (length t)) k)) by (simpl in Hk; lia).
      destruct (nth_error_lt t (i := k) ltac:(simpl in Hk; lia)) as [v Hv].
      unfold get. cbn [Nat.add nth_error]. rewrite Hv. cbn [bind nth]. now rewrite (nth_error_nth t k 0 Hv).
    - cbn [get nth_error bind]. rewrite (proj2 (Nat.leb_le (S (length t)) k)); auto.
  Qed.

  Theorem C13_get_none (s : stree F) i k : record_of s i = Some None -> get_attrib s i k = Ok None.
  Proof.
    unfold record_of, get_attrib. intros Hr. destruct (st_att s) as [att|]; [|discriminate].
    now rewrite (get_some Hr).
  Qed.

  (** The test accepts one index too many: for every record the index just after the
      last attribute passes it and the read is out of bounds. *)
  Theorem C13_past_end_refuted (s : stree F) i rec :
    record_of s i = Some (Some rec) -> well_formed rec -> get_attrib s i (length rec - 1) = UB.
  Proof.
    unfold record_of, get_attrib, well_formed. intros Hr (Hne & Hh). destruct (st_att s) as [att|]; [|discriminate].
    rewrite (get_some Hr). cbn [bind]. destruct rec as [|m t]; [congruence|]. simpl in Hh. subst m.
    cbn [get nth_error bind length]. rewrite (proj2 (Nat.leb_gt _ _)) by lia.
    unfold get. cbn [Nat.add]. replace (S (length t) - 1) with (length t) by lia.
    rewrite (proj2 (nth_error_None (S (length t) :: t) (S (length t)))); [reflexivity|simpl; lia].
  Qed.

  (** Setting an attribute changes that attribute of that point and nothing else. *)
  Theorem C13_set (s : stree F) i k v rec :
    record_of s i = Some (Some rec) -> well_formed rec -> S k < length rec ->
    exists s', set_attrib s i k v = Ok s'
      /\ get_attrib s' i k = Ok (Some v)
      /\ (forall i' k', (i', k') <> (i, k) -> get_attrib s' i' k' = get_attrib s i' k')
      /\ st_pts s' = st_pts s /\ st_nrm s' = st_nrm s /\ st_lk s' = st_lk s /\ st_org s' = st_org s.
  Proof.
    unfold record_of, set_attrib, well_formed. intros Hr (Hne & Hh) Hk. destruct (st_att s) as [att|] eqn:Ea; [|discriminate].
    rewrite (get_some Hr). cbn [bind]. rewrite set_Ok by exact Hk. cbn [bind].
    assert (Hi : i < length att) by (eapply nth_error_Some_lt; eauto).
    rewrite set_Ok by exact Hi. cbn [bind]. eexists. split; [reflexivity|].
    unfold get_attrib. cbn [st_att]. rewrite Ea.
    destruct rec as [|m t]; [congruence|]. simpl in Hh, Hk. subst m. cbn [Nat.add upd] in *.
    split; [|split; [|auto]].
    - unfold get at 1. rewrite upd_nth_same by auto. cbn [bind get nth_error].
      rewrite (proj2 (Nat.leb_gt _ _)) by lia. unfold get. cbn [nth_error].
      rewrite upd_nth_same by lia. reflexivity.
    - intros i' k' Hd. destruct (Nat.eq_dec i' i) as [->|Hn].
      + rewrite (get_some Hr). unfold get at 1. rewrite upd_nth_same by auto. cbn [bind get nth_error].
        destruct (S (length t) <=? k'); auto. unfold get. cbn [nth_error].
        rewrite upd_nth_other by (intros ->; congruence). reflexivity.
      + unfold get at 1. rewrite upd_nth_other by auto. reflexivity.
  Qed.
End Attrib.

Definition one_point : stree nat := ST 1 100 [[7]] None (Some [Some [3; 20; 30]]) ([0], [0]) 0 1 [] [].
Example C13_hypotheses : record_of one_point 0 = Some (Some [3; 20; 30]) /\ well_formed [3; 20; 30].
Proof. repeat split. discriminate. Qed.

Print Assumptions C12_graph.
Print Assumptions C12_symmetric.
Print Assumptions C12_idempotent.
Print Assumptions C12_missing_point_refuted.
Print Assumptions C13_get.
Print Assumptions C13_past_end_refuted.
Print Assumptions C13_set.
