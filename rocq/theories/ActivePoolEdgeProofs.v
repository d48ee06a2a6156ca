(** Proofs about the active pool of edges. *)
From Verif Require Import Base Num MemoryHandler KdTree SmartTree DenseQR Geometry Spheres Sampling PolyMesh PolyMeshProofs
  ActivePool ActivePoolSpec ActivePoolThreadProofs ActivePoolProofs ActivePoolStartProofs.

Section EdgePool.
  Context {F : Type} `{Num F}.
  Variable points : list (list F).
  Variable edges : list (list nat).
  Hypothesis Hpts : good_points points.
  Hypothesis Hedges : good_edges points edges.

  Definition eelem : Type := nat * list bool.
  Definition ebase (e : nat) : list F * list F * list F := with_mid (edge_end points edges e 0) (edge_end points edges e 1).
  Definition edecode (q : list bool) (s : list F * list F * list F) := fold_left (fun s b => edge_step b s) q s.
  Definition eshape (e : eelem) : list F * list F * list F := edecode (snd e) (ebase (fst e)).
  Definition ends (s : list F * list F * list F) : list F * list F := fst s.
  Definition elength (e : eelem) : F := let '(a, b) := ends (eshape e) in distance 3 (gv a) (gv b).

  Definition edenotes (p : pool F) (els : list eelem) : Prop :=
    p_parent p = map fst els /\ length (p_child p) = length els
    /\ make_cdf (map elength els) = Ok (p_cdf p)
    /\ forall i e, nth_error els i = Some e ->
         fst e < length edges /\ length (snd e) = p_level p
         /\ (0 < p_level p -> nth_error (p_child p) i = Some (Some (snd e))).

  Lemma edge_row f : f < length edges -> exists row, nth_error edges f = Some row /\ row = nth f edges [] /\ 2 <= length row
    /\ forall k, k < 2 -> nth k row 0 < length points.
  Proof.
    intros Hf. destruct (@nth_error_lt _ edges f Hf) as (row & Hr). exists row. split; auto.
    split; [symmetry; now apply nth_error_nth|]. apply Hedges. eapply nth_error_In; eauto.
  Qed.
  Lemma firstn_next {A} (l : list A) k b : nth_error l k = Some b -> firstn (S k) l = firstn k l ++ [b].
  Proof. revert k. induction l as [|x l IH]; intros k Hb; destruct k; cbn in *; try congruence. now rewrite <- IH. Qed.

  Lemma edge_corners_ok p els i e : edenotes p els -> nth_error els i = Some e -> edge_corners points edges p i = Ok (eshape e).
  Proof.
    intros (Dp & Dc & _ & De) He. destruct (De i e He) as (Hf & Hlev & Hbits). unfold edge_corners.
    rewrite Dp. rewrite (get_some (map_nth_error fst _ _ He)). cbn [bind].
    destruct (edge_row Hf) as (row & Hr & Er & Hl & Hk). rewrite (get_some Hr). cbn [bind].
    rewrite (@get_in row 0), (@get_in row 1) by lia. cbn [bind].
    rewrite !(corner_ok Hpts) by (apply Hk; lia). cbn [bind].
    rewrite Er. fold (edge_end points edges (fst e) 0). fold (edge_end points edges (fst e) 1). fold (ebase (fst e)).
    destruct (@for_res_inv _ (fun k s => s = edecode (firstn k (snd e)) (ebase (fst e))) (p_level p) 0
      (fun iref s => bo <- child_bit p i iref ;; Ok (edge_step bo s)) (ebase (fst e))) as (s & Es & Hs); [reflexivity| |].
    - intros k s Hk' ->. destruct (@nth_error_lt _ (snd e) k ltac:(lia)) as (b & Hb).
      assert (C : nth_error (p_child p) i = Some (Some (snd e))) by (apply Hbits; lia).
      unfold child_bit. rewrite (get_some C). cbn [bind]. rewrite (get_some Hb). cbn [bind].
      eexists; split; eauto. unfold edecode. rewrite (firstn_next _ _ Hb), fold_left_app. reflexivity.
    - rewrite Es. f_equal. rewrite Hs. cbn [Nat.add]. rewrite <- Hlev, firstn_all. reflexivity.
  Qed.

  Definition ebit (c : nat) : bool := match c with 0 => false | _ => true end.
  Definition ekid (e : eelem) (c : nat) : eelem := (fst e, snd e ++ [ebit c]).
  Definition ekids (e : eelem) : list eelem := map (ekid e) [0; 1].
  Definition eentry (e : eelem) : entry F := (fst e, snd e, elength e).

  Lemma eshape_kid e c : c < 2 -> eshape (ekid e c) = edge_step (ebit c) (eshape e).
  Proof. intros Hc. unfold eshape, ekid, edecode. cbn [fst snd]. rewrite fold_left_app. reflexivity. Qed.
  Lemma mid_decode q : forall a b, exists a' b', edecode q (with_mid a b) = with_mid a' b'.
  Proof. induction q as [|b0 q IH]; intros a b; cbn [edecode fold_left]; [eauto|]. destruct b0; cbn; apply IH. Qed.
  Lemma eshape_mid e : exists a b, eshape e = with_mid a b.
  Proof. unfold eshape, ebase. apply mid_decode. Qed.
  Lemma ekid_half e c : c < 2 -> ends (eshape (ekid e c)) = half center2 c (ends (eshape e)).
  Proof.
    intros Hc. rewrite eshape_kid by auto. destruct (eshape_mid e) as (x & y & ->).
    destruct c as [|[|]]; try lia; reflexivity.
  Qed.

  Lemma ecopy_path_ok p els i e : edenotes p els -> nth_error els i = Some e -> copy_path p i (p_level p) = Ok (snd e).
  Proof.
    intros (_ & _ & _ & De) He. destruct (De i e He) as (_ & Hlev & Hbits). unfold copy_path.
    destruct (@for_res_inv (list bool) (fun k l => l = firstn k (snd e)) (p_level p) 0
      (fun k l => b <- child_bit p i k ;; Ok (l ++ [b])) []) as (l & El & Hl); [reflexivity| |].
    - intros k l Hk ->. destruct (@nth_error_lt _ (snd e) k ltac:(lia)) as (b & Hb).
      unfold child_bit. rewrite (get_some (Hbits ltac:(lia))). cbn [bind]. rewrite (get_some Hb). cbn [bind].
      eexists; split; eauto. now rewrite (firstn_next _ _ Hb).
    - rewrite El. f_equal. rewrite Hl. cbn [Nat.add]. rewrite <- Hlev. apply firstn_all.
  Qed.

  Lemma refine_edge_ok p els i e buf : edenotes p els -> nth_error els i = Some e ->
    refine_edge p i (eshape e) buf = Ok (buf ++ map eentry (ekids e)).
  Proof.
    intros D He. pose proof (@ecopy_path_ok p els i e D He) as Hp. destruct D as (Dp & _).
    unfold refine_edge. cbn [for_res]. rewrite Hp, Dp, (get_some (map_nth_error fst _ _ He)).
    assert (G : forall c, c < 2 -> exists x y, edge_child (eshape e) c = (x, y, ebit c) /\ ends (eshape (ekid e c)) = (x, y)).
    { intros c Hc. rewrite eshape_kid by auto. destruct (eshape_mid e) as (x & y & ->).
      destruct c as [|[|]]; try lia; cbn; eauto. }
    destruct (G 0 ltac:(lia)) as (x0 & y0 & -> & A0). destruct (G 1 ltac:(lia)) as (x1 & y1 & -> & A1).
    cbn [ebit bind]. f_equal. rewrite <- !app_assoc. f_equal. unfold ekids, eentry, elength. cbn [map app].
    rewrite A0, A1. reflexivity.
  Qed.

  Variables (es cs : stree F) (Lip ratio : F).
  Definition ecov (t : list F * list F) : res bool :=
    let '(a, b) := t in
    covered <- edge_covered cs a b Lip n0 ;;
    (if (covered : bool) then Ok true else edge_covered es a b Lip ratio).
  Let process p := process_edge points edges es cs Lip ratio p.

  Lemma eprocess_ok p els i e buf : edenotes p els -> nth_error els i = Some e ->
    process p i buf = (b <- ecov (ends (eshape e)) ;; Ok (buf ++ if (b : bool) then [] else map eentry (ekids e))).
  Proof.
    intros D He. unfold process, process_edge. rewrite (@edge_corners_ok p els i e D He). cbn [bind].
    pose proof (@refine_edge_ok p els i e buf D He) as Hr. destruct (eshape e) as [[a b] m] eqn:Es. cbn [ends fst]. unfold ecov.
    destruct (edge_covered cs a b Lip n0) as [b1| |]; cbn [bind]; auto.
    destruct b1; cbn [bind]; [now rewrite app_nil_r|].
    destruct (edge_covered es a b Lip ratio) as [b2| |]; cbn [bind]; auto.
    destruct b2; cbn [bind]; [now rewrite app_nil_r|auto].
  Qed.

  Definition esurvivors (els : list eelem) (bs : list bool) : list eelem :=
    flat_map (fun eb : eelem * bool => if snd eb then [] else [fst eb]) (combine els bs).
  Definition erefined (els : list eelem) (bs : list bool) : list eelem := flat_map ekids (esurvivors els bs).
  Definition eanswers (els : list eelem) (bs : list bool) : Prop := Forall2 (fun e b => ecov (ends (eshape e)) = Ok b) els bs.
  Lemma esurvivors_cons e els b bs : esurvivors (e :: els) (b :: bs) = (if b then [] else [e]) ++ esurvivors els bs.
  Proof. reflexivity. Qed.

  Lemma eloop_ok p els : edenotes p els -> forall post pre buf, els = pre ++ post ->
    (forall l, for_res (length post) (length pre) (process p) buf = Ok l ->
       exists bs, eanswers post bs /\ l = buf ++ map eentry (erefined post bs))
    /\ (forall bs, eanswers post bs -> for_res (length post) (length pre) (process p) buf = Ok (buf ++ map eentry (erefined post bs))).
  Proof.
    intros D. induction post as [|e post IH]; intros pre buf El.
    - cbn [length for_res]. split.
      + intros l Hl. injection Hl as <-. exists []. split; [constructor|]. cbn. now rewrite app_nil_r.
      + intros bs Hb. inversion Hb. cbn. now rewrite app_nil_r.
    - cbn [length for_res].
      assert (He : nth_error els (length pre) = Some e) by (rewrite El, nth_error_app2, Nat.sub_diag; auto).
      rewrite (@eprocess_ok p els (length pre) e buf D He).
      assert (El' : els = (pre ++ [e]) ++ post) by (rewrite El, <- app_assoc; reflexivity).
      assert (Ln : length (pre ++ [e]) = S (length pre)) by (rewrite app_length; cbn; lia).
      split.
      + intros l Hl. destruct (ecov (ends (eshape e))) as [b| |] eqn:Ec; cbn [bind] in Hl; try discriminate.
        destruct (IH (pre ++ [e]) (buf ++ (if b then [] else map eentry (ekids e))) El') as (I1 & _).
        rewrite Ln in I1. destruct (I1 l Hl) as (bs & Hbs & ->). exists (b :: bs). split; [constructor; auto|].
        unfold erefined. rewrite esurvivors_cons. rewrite flat_map_app, map_app, app_assoc. f_equal. f_equal.
        destruct b; cbn [flat_map map]; [reflexivity|now rewrite app_nil_r].
      + intros bs Hb. inversion Hb as [|? b ? bs' Eb Hbs']; subst. rewrite Eb. cbn [bind].
        destruct (IH (pre ++ [e]) (buf ++ (if b then [] else map eentry (ekids e))) El') as (_ & I2).
        rewrite Ln in I2. rewrite (I2 bs' Hbs'). f_equal.
        unfold erefined. rewrite esurvivors_cons. rewrite flat_map_app, map_app, app_assoc. f_equal. f_equal.
        destruct b; cbn [flat_map map]; [reflexivity|now rewrite app_nil_r].
  Qed.

  Lemma ein_refined x els bs : In x (erefined els bs) -> exists i e c, nth_error els i = Some e /\ nth_error bs i = Some false /\ c < 2 /\ x = ekid e c.
  Proof.
    unfold erefined, esurvivors. rewrite in_flat_map. intros (e & He & Hx). rewrite in_flat_map in He. destruct He as ([e' b] & Hc & He).
    cbn [fst snd] in He. destruct b; [destruct He|]. destruct He as [<-|[]].
    unfold ekids in Hx. apply in_map_iff in Hx. destruct Hx as (c & <- & Hc4).
    apply In_nth_error in Hc. destruct Hc as (i & Hi). exists i, e', c.
    assert (nth_error els i = Some e' /\ nth_error bs i = Some false).
    { clear - Hi. revert bs i Hi. induction els as [|a l IH]; intros bs i Hi; destruct bs, i; cbn in *; try discriminate.
      - injection Hi as -> ->. auto.
      - eauto. }
    repeat split; try tauto. cbn in Hc4. lia.
  Qed.

  Lemma enew_pool_ok p els bs p' : edenotes p els -> new_pool (p_level p) (map eentry (erefined els bs)) = Ok p' -> edenotes p' (erefined els bs).
  Proof.
    intros D Hn. unfold new_pool in Hn. apply bind_Ok_inv in Hn. destruct Hn as (cdf & Ecdf & Hn).
    rewrite map_map in Ecdf. cbn [eentry snd] in Ecdf.
    destruct (erefined els bs) as [|x xs] eqn:Er.
    - cbn in Hn. injection Hn as <-. unfold edenotes. cbn [p_parent p_child p_cdf map length].
      split; [reflexivity|]. split; [reflexivity|]. split; [reflexivity|].
      intros i e Hi. destruct i; discriminate Hi.
    - remember (x :: xs) as l. assert (Hn' : p' = Pool (map (fun e => fst (fst e)) (map eentry l)) (map (fun e => Some (snd (fst e))) (map eentry l)) cdf (p_level p + 1)).
      { subst l. cbn [map] in Hn |- *. cbv iota in Hn. congruence. }
      clear Hn. subst p'. unfold edenotes. cbn [p_parent p_child p_cdf p_level]. rewrite !map_map, map_length.
      split; [reflexivity|]. split; [reflexivity|]. split; [exact Ecdf|].
      intros i e Hi. assert (Hin : In e (erefined els bs)) by (rewrite Er; eapply nth_error_In; eauto).
      apply ein_refined in Hin. destruct Hin as (j & e' & c & He' & _ & _ & ->).
      destruct D as (_ & _ & _ & De). destruct (De j e' He') as (Hf & Hl & _).
      cbn [ekid fst snd]. split; auto. split; [rewrite app_length; cbn; lia|]. intros _.
      rewrite (map_nth_error _ _ _ Hi). reflexivity.
  Qed.

  Lemma erefine_ok p els : edenotes p els ->
    (forall p', refine_pool_edges points edges es cs Lip ratio p = Ok p' -> exists bs, eanswers els bs /\ edenotes p' (erefined els bs))
    /\ (forall bs, eanswers els bs -> refine_pool_edges points edges es cs Lip ratio p = new_pool (p_level p) (map eentry (erefined els bs))).
  Proof.
    intros D.
    assert (Hs : p_size p = length els) by (destruct D as (Dp & _); unfold p_size; now rewrite Dp, map_length).
    destruct (@eloop_ok p els D els [] [] eq_refl) as (L1 & L2). cbn [length app] in L1, L2. unfold refine_pool_edges. rewrite Hs. split.
    - intros p' Hp'. apply bind_Ok_inv in Hp'. destruct Hp' as (l & El & Hn). destruct (L1 l El) as (bs & Hbs & ->).
      exists bs. split; auto. eapply enew_pool_ok; eauto.
    - intros bs Hbs. unfold process in L2. rewrite (L2 bs Hbs). reflexivity.
  Qed.

  Lemma start_edges_ok : exists p, start_edges points edges = Ok p /\ edenotes p (map (fun e => (e, [])) (seq 0 (length edges))) /\ p_level p = 0.
  Proof using Hpts Hedges.
    clear process es cs Lip ratio.
    unfold start_edges.
    destruct (@for_res_inv (list F) (fun k l => l = map (fun e => elength (e, [])) (seq 0 k)) (length edges) 0
      (fun ied l => ed <- get edges ied ;;
               i0 <- get ed 0 ;; a <- corner points i0 ;;
               i1 <- get ed 1 ;; b <- corner points i1 ;;
               Ok (l ++ [distance 3 (gv a) (gv b)])) []) as (l & El & Hl); [reflexivity| |].
    - intros k l Hk ->. destruct (@edge_row k ltac:(lia)) as (row & Hr & Er & Hlen & Hids).
      rewrite (get_some Hr). cbn [bind]. rewrite (@get_in row 0), (@get_in row 1) by lia. cbn [bind].
      rewrite !(corner_ok Hpts) by (apply Hids; lia). cbn [bind]. eexists; split; eauto.
      rewrite seq_S, map_app. cbn [map Nat.add]. do 2 f_equal. subst row. reflexivity.
    - rewrite El. cbn [bind]. destruct (make_cdf_total l) as (c & Ec & Lc). rewrite Ec. cbn [bind].
      eexists. split; [reflexivity|]. split; [|reflexivity]. unfold edenotes. cbn [p_parent p_child p_cdf p_level].
      rewrite !map_map, repeat_length, map_length, seq_length. cbn [fst]. rewrite map_id.
      split; [reflexivity|]. split; [reflexivity|]. split; [rewrite Hl in Ec; exact Ec|].
      intros i e Hi. pose proof (nth_error_In _ _ Hi) as Hin. apply in_map_iff in Hin. destruct Hin as (f & <- & Hf).
      apply in_seq in Hf. cbn [fst snd length]. split; [lia|]. split; auto. lia.
  Qed.
End EdgePool.
