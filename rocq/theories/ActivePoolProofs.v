(** Proofs about the active pool: its elements. *)
From Verif Require Import Base Num MemoryHandler KdTree SmartTree DenseQR Geometry Spheres Sampling PolyMesh PolyMeshProofs
  ActivePool ActivePoolSpec ActivePoolThreadProofs.

(** ** Elements of a pool of faces *)
Section FacePool.
  Context {F : Type} `{Num F}.
  Variable points : list (list F).
  Variable faces : list (list nat).
  Hypothesis Hpts : good_points points.
  Hypothesis Hfaces : good_faces points faces.

  Definition flat (q : list (bool * bool)) : list bool := flat_map (fun b => [fst b; snd b]) q.
  Lemma flat_app q q' : flat (q ++ q') = flat q ++ flat q'.
  Proof. apply flat_map_app. Qed.
  Lemma flat_length q : length (flat q) = 2 * length q.
  Proof. induction q; cbn; auto. unfold flat in *. lia. Qed.
  Lemma flat_nth q : forall i b, nth_error q i = Some b ->
    nth_error (flat q) (2 * i) = Some (fst b) /\ nth_error (flat q) (2 * i + 1) = Some (snd b).
  Proof.
    induction q as [|a q IH]; intros i b Hi; [destruct i; discriminate|].
    destruct i as [|i].
    - injection Hi as <-. split; reflexivity.
    - destruct (IH i b Hi) as (E0 & E1). change (flat (a :: q)) with (fst a :: snd a :: flat q).
      replace (2 * S i) with (S (S (2 * i))) by lia. cbn [Nat.add nth_error]. auto.
  Qed.

  Definition felem : Type := nat * list (bool * bool).
  Definition fbase (f : nat) : six F :=
    with_mids (face_corner points faces f 0) (face_corner points faces f 1) (face_corner points faces f 2).
  Definition decode (q : list (bool * bool)) (s : six F) : six F := fold_left (fun s b => face_step (fst b) (snd b) s) q s.
  Definition shape (e : felem) : six F := decode (snd e) (fbase (fst e)).
  Definition abc (s : six F) : list F * list F * list F := fst s.
  Definition farea (e : felem) : F := let '(a, b, c) := abc (shape e) in area3 a b c.

  Definition denotes (p : pool F) (els : list felem) : Prop :=
    p_parent p = map fst els /\ length (p_child p) = length els
    /\ make_cdf (map farea els) = Ok (p_cdf p)
    /\ forall i e, nth_error els i = Some e ->
         fst e < length faces /\ length (snd e) = p_level p
         /\ (0 < p_level p -> nth_error (p_child p) i = Some (Some (flat (snd e)))).

  Lemma face_row f : f < length faces -> exists row, nth_error faces f = Some row /\ row = nth f faces [] /\ 4 <= length row
    /\ forall k, 1 <= k <= 3 -> nth k row 0 < length points.
  Proof.
    intros Hf. destruct (@nth_error_lt _ faces f Hf) as (row & Hr). exists row. split; auto.
    split; [symmetry; now apply nth_error_nth|]. apply Hfaces. eapply nth_error_In; eauto.
  Qed.
  Lemma corner_ok ci : ci < length points -> corner points ci = Ok (point3 points ci).
  Proof.
    intros Hc. destruct (@nth_error_lt _ points ci Hc) as (row & Hr). unfold corner. rewrite (get_some Hr). cbn [bind].
    assert (3 <= length row) by (apply Hpts; eapply nth_error_In; eauto).
    rewrite (proj2 (Nat.leb_le _ _)) by auto. unfold point3. now rewrite (nth_error_nth _ _ _ Hr).
  Qed.
  Lemma get_in (l : list nat) i : i < length l -> get l i = Ok (nth i l 0).
  Proof. apply get_nth. Qed.

  Lemma face_corners_ok p els i e : denotes p els -> nth_error els i = Some e -> face_corners points faces p i = Ok (shape e).
  Proof.
    intros (Dp & Dc & _ & De) He. destruct (De i e He) as (Hf & Hlev & Hbits). unfold face_corners.
    rewrite Dp. rewrite (get_some (map_nth_error fst _ _ He)). cbn [bind].
    destruct (face_row Hf) as (row & Hr & Er & Hl & Hk). rewrite (get_some Hr). cbn [bind].
    rewrite (@get_in row 1), (@get_in row 2), (@get_in row 3) by lia. cbn [bind].
    rewrite !corner_ok by (apply Hk; lia). cbn [bind].
    rewrite Er. fold (face_corner points faces (fst e) 0). fold (face_corner points faces (fst e) 1). fold (face_corner points faces (fst e) 2).
    fold (fbase (fst e)).
    destruct (@for_res_inv (six F) (fun k s => s = decode (firstn k (snd e)) (fbase (fst e))) (p_level p) 0
      (fun iref s => bo <- child_bit p i (2 * iref) ;; b1 <- child_bit p i (2 * iref + 1) ;; Ok (face_step bo b1 s))
      (fbase (fst e))) as (s & Es & Hs); [reflexivity| |].
    - intros k s Hk' ->. destruct (@nth_error_lt _ (snd e) k ltac:(lia)) as (b & Hb).
      destruct (flat_nth _ _ Hb) as (B0 & B1).
      assert (C : nth_error (p_child p) i = Some (Some (flat (snd e)))) by (apply Hbits; lia).
      unfold child_bit. rewrite (get_some C). cbn [bind]. rewrite (get_some B0), (get_some B1). cbn [bind].
      eexists; split; eauto. unfold decode.
      assert (G : firstn (S k) (snd e) = firstn k (snd e) ++ [b]).
      { clear - Hb. revert k Hb. induction (snd e) as [|x l IH]; intros k Hb; destruct k; cbn in *; try congruence. now rewrite IH. }
      rewrite G, fold_left_app. reflexivity.
    - rewrite Es. f_equal. rewrite Hs. cbn [Nat.add]. rewrite <- Hlev, firstn_all. reflexivity.
  Qed.

  (** The four children. *)
  Definition bits (c : nat) : bool * bool :=
    match c with 0 => (false, false) | 1 => (false, true) | 2 => (true, false) | _ => (true, true) end.
  Definition kid (e : felem) (c : nat) : felem := (fst e, snd e ++ [bits c]).
  Definition kids (e : felem) : list felem := map (kid e) [0; 1; 2; 3].
  Definition entry_of (e : felem) : entry F := (fst e, flat (snd e), farea e).

  Lemma shape_kid e c : c < 4 -> shape (kid e c) = face_step (fst (bits c)) (snd (bits c)) (shape e).
  Proof. intros Hc. unfold shape, kid, decode. cbn [fst snd]. rewrite fold_left_app. reflexivity. Qed.
  Lemma mids_decode q : forall a b c, exists a' b' c', decode q (with_mids a b c) = with_mids a' b' c'.
  Proof.
    induction q as [|[b0 b1] q IH]; intros a b c; cbn [decode fold_left]; [eauto|].
    destruct b0, b1; cbn; apply IH.
  Qed.
  Lemma shape_mids e : exists a b c, shape e = with_mids a b c.
  Proof. unfold shape, fbase. apply mids_decode. Qed.
  (** A child is a quarter of its parent. *)
  Lemma kid_quarter e c : c < 4 -> abc (shape (kid e c)) = quarter center2 c (abc (shape e)).
  Proof.
    intros Hc. rewrite shape_kid by auto. destruct (shape_mids e) as (x & y & z & ->).
    destruct c as [|[|[|[|]]]]; try lia; reflexivity.
  Qed.

  Lemma copy_path_ok p els i e : denotes p els -> nth_error els i = Some e -> copy_path p i (2 * p_level p) = Ok (flat (snd e)).
  Proof.
    intros (_ & _ & _ & De) He. destruct (De i e He) as (_ & Hlev & Hbits). unfold copy_path.
    destruct (@for_res_inv (list bool) (fun k l => l = firstn k (flat (snd e))) (2 * p_level p) 0
      (fun k l => b <- child_bit p i k ;; Ok (l ++ [b])) []) as (l & El & Hl); [reflexivity| |].
    - intros k l Hk ->. destruct (@nth_error_lt _ (flat (snd e)) k ltac:(rewrite flat_length; lia)) as (b & Hb).
      unfold child_bit. rewrite (get_some (Hbits ltac:(lia))). cbn [bind]. rewrite (get_some Hb). cbn [bind].
      eexists; split; eauto. clear - Hb. revert k Hb.
      induction (flat (snd e)) as [|x l IH]; intros k Hb; destruct k; cbn in *; try congruence. now rewrite <- IH.
    - rewrite El. f_equal. rewrite Hl. cbn [Nat.add]. rewrite <- Hlev, <- flat_length. apply firstn_all.
  Qed.

  Lemma refine_face_ok p els i e buf : denotes p els -> nth_error els i = Some e ->
    refine_face p i (shape e) buf = Ok (buf ++ map entry_of (kids e)).
  Proof.
    intros D He. pose proof (@copy_path_ok p els i e D He) as Hp. destruct D as (Dp & _).
    unfold refine_face. cbn [for_res]. rewrite Hp, Dp, (get_some (map_nth_error fst _ _ He)).
    assert (G : forall c, c < 4 -> exists x y z, face_child (shape e) c = (x, y, z, bits c) /\ abc (shape (kid e c)) = (x, y, z)).
    { intros c Hc. rewrite shape_kid by auto. destruct (shape_mids e) as (x & y & z & ->).
      destruct c as [|[|[|[|]]]]; try lia; cbn; eauto. }
    destruct (G 0 ltac:(lia)) as (x0 & y0 & z0 & -> & A0). destruct (G 1 ltac:(lia)) as (x1 & y1 & z1 & -> & A1).
    destruct (G 2 ltac:(lia)) as (x2 & y2 & z2 & -> & A2). destruct (G 3 ltac:(lia)) as (x3 & y3 & z3 & -> & A3).
    cbn [bits bind]. f_equal. rewrite <- !app_assoc. f_equal. unfold kids, entry_of, farea. cbn [map app].
    rewrite A0, A1, A2, A3. unfold kid. cbn [fst snd bits]. rewrite !flat_app. reflexivity.
  Qed.

  (** The check of one element. *)
  Variables (ss es cs : stree F) (Lip ratio : F).
  Definition cov (t : list F * list F * list F) : res bool :=
    let '(a, b, c) := t in
    covered <- face_covered ss a b c Lip ratio ;;
    covered <- (if (covered : bool) then Ok true else face_covered es a b c Lip n0) ;;
    (if (covered : bool) then Ok true else face_covered cs a b c Lip n0).
  Let process p := process_face points faces ss es cs Lip ratio p.

  Lemma process_ok p els i e buf : denotes p els -> nth_error els i = Some e ->
    process p i buf = (b <- cov (abc (shape e)) ;; Ok (buf ++ if (b : bool) then [] else map entry_of (kids e))).
  Proof.
    intros D He. unfold process, process_face.
    assert (Hi : i < length els) by (eapply nth_error_Some_lt; eauto).
    assert (Hs : p_size p = length els) by (destruct D as (Dp & _); unfold p_size; now rewrite Dp, map_length).
    rewrite Hs. rewrite (proj2 (Nat.leb_gt _ _)) by auto. rewrite (@face_corners_ok p els i e D He). cbn [bind].
    pose proof (@refine_face_ok p els i e buf D He) as Hr. destruct (shape e) as [[[a b] c] m] eqn:Es. cbn [abc fst]. unfold cov.
    destruct (face_covered ss a b c Lip ratio) as [b1| |]; cbn [bind]; auto.
    destruct b1; cbn [bind]; [now rewrite app_nil_r|].
    destruct (face_covered es a b c Lip n0) as [b2| |]; cbn [bind]; auto.
    destruct b2; cbn [bind]; [now rewrite app_nil_r|].
    destruct (face_covered cs a b c Lip n0) as [b3| |]; cbn [bind]; auto.
    destruct b3; [now rewrite app_nil_r|auto].
  Qed.
  Lemma process_end p i buf : p_size p <= i -> process p i buf = Ok buf.
  Proof. intros Hi. unfold process, process_face. now rewrite (proj2 (Nat.leb_le _ _)). Qed.
  Lemma process_app p i buf : process p i buf = (l <- process p i [] ;; Ok (buf ++ l)).
  Proof.
    unfold process, process_face. destruct (Nat.leb (p_size p) i); [cbn [bind]; now rewrite app_nil_r|].
    destruct (face_corners points faces p i) as [[[[a b] c] m]| |]; cbn [bind]; auto.
    destruct (face_covered ss a b c Lip ratio) as [b1| |]; cbn [bind]; auto.
    destruct (if b1 then _ else _) as [b2| |]; cbn [bind]; auto.
    destruct (if b2 then _ else _) as [b3| |]; cbn [bind]; auto.
    destruct b3; [cbn [bind]; now rewrite app_nil_r|].
    unfold refine_face. cbn [for_res].
    destruct (face_child (a, b, c, m) 0) as [[[x0 y0] z0] [u0 v0]]. destruct (face_child (a, b, c, m) 1) as [[[x1 y1] z1] [u1 v1]].
    destruct (face_child (a, b, c, m) 2) as [[[x2 y2] z2] [u2 v2]]. destruct (face_child (a, b, c, m) 3) as [[[x3 y3] z3] [u3 v3]].
    destruct (copy_path p i (2 * p_level p)) as [path| |]; cbn [bind]; auto.
    destruct (get (p_parent p) i) as [par| |]; cbn [bind]; auto.
    now rewrite <- !app_assoc.
  Qed.

  (** The elements that survive, given the answers [bs]. *)
  Definition survivors (els : list felem) (bs : list bool) : list felem :=
    flat_map (fun eb : felem * bool => if snd eb then [] else [fst eb]) (combine els bs).
  Definition refined (els : list felem) (bs : list bool) : list felem := flat_map kids (survivors els bs).
  Definition answers (els : list felem) (bs : list bool) : Prop := Forall2 (fun e b => cov (abc (shape e)) = Ok b) els bs.

  Lemma survivors_cons e els b bs : survivors (e :: els) (b :: bs) = (if b then [] else [e]) ++ survivors els bs.
  Proof. reflexivity. Qed.

  Lemma loop_ok p els : denotes p els -> forall post pre buf, els = pre ++ post ->
    (forall l, for_res (length post) (length pre) (process p) buf = Ok l ->
       exists bs, answers post bs /\ l = buf ++ map entry_of (refined post bs))
    /\ (forall bs, answers post bs -> for_res (length post) (length pre) (process p) buf = Ok (buf ++ map entry_of (refined post bs))).
  Proof.
    intros D. induction post as [|e post IH]; intros pre buf El.
    - cbn [length for_res]. split.
      + intros l Hl. injection Hl as <-. exists []. split; [constructor|]. cbn. now rewrite app_nil_r.
      + intros bs Hb. inversion Hb. cbn. now rewrite app_nil_r.
    - cbn [length for_res].
      assert (He : nth_error els (length pre) = Some e) by (rewrite El, nth_error_app2, Nat.sub_diag; auto).
      rewrite (@process_ok p els (length pre) e buf D He).
      assert (El' : els = (pre ++ [e]) ++ post) by (rewrite El, <- app_assoc; reflexivity).
      assert (Ln : length (pre ++ [e]) = S (length pre)) by (rewrite app_length; cbn; lia).
      split.
      + intros l Hl. destruct (cov (abc (shape e))) as [b| |] eqn:Ec; cbn [bind] in Hl; try discriminate.
        destruct (IH (pre ++ [e]) (buf ++ (if b then [] else map entry_of (kids e))) El') as (I1 & _).
        rewrite Ln in I1. destruct (I1 l Hl) as (bs & Hbs & ->). exists (b :: bs). split; [constructor; auto|].
        unfold refined. rewrite survivors_cons. rewrite flat_map_app, map_app, app_assoc. f_equal. f_equal.
        destruct b; cbn [flat_map map]; [reflexivity|now rewrite app_nil_r].
      + intros bs Hb. inversion Hb as [|? b ? bs' Eb Hbs']; subst. rewrite Eb. cbn [bind].
        destruct (IH (pre ++ [e]) (buf ++ (if b then [] else map entry_of (kids e))) El') as (_ & I2).
        rewrite Ln in I2. rewrite (I2 bs' Hbs'). f_equal.
        unfold refined. rewrite survivors_cons. rewrite flat_map_app, map_app, app_assoc. f_equal. f_equal.
        destruct b; cbn [flat_map map]; [reflexivity|now rewrite app_nil_r].
  Qed.

  Lemma in_refined x els bs : In x (refined els bs) -> exists i e c, nth_error els i = Some e /\ nth_error bs i = Some false /\ c < 4 /\ x = kid e c.
  Proof.
    unfold refined, survivors. rewrite in_flat_map. intros (e & He & Hx). rewrite in_flat_map in He. destruct He as ([e' b] & Hc & He).
    cbn [fst snd] in He. destruct b; [destruct He|]. destruct He as [<-|[]].
    unfold kids in Hx. apply in_map_iff in Hx. destruct Hx as (c & <- & Hc4).
    apply In_nth_error in Hc. destruct Hc as (i & Hi). exists i, e', c.
    assert (nth_error els i = Some e' /\ nth_error bs i = Some false).
    { clear - Hi. revert bs i Hi. induction els as [|a l IH]; intros bs i Hi; destruct bs, i; cbn in *; try discriminate.
      - injection Hi as -> ->. auto.
      - eauto. }
    repeat split; try tauto. cbn in Hc4. lia.
  Qed.

  Lemma new_pool_ok p els bs p' : denotes p els -> new_pool (p_level p) (map entry_of (refined els bs)) = Ok p' -> denotes p' (refined els bs).
  Proof.
    intros D Hn. unfold new_pool in Hn. apply bind_Ok_inv in Hn. destruct Hn as (cdf & Ecdf & Hn).
    rewrite map_map in Ecdf. cbn [entry_of snd] in Ecdf.
    destruct (refined els bs) as [|x xs] eqn:Er.
    - cbn in Hn. injection Hn as <-. unfold denotes. cbn [p_parent p_child p_cdf map length].
      split; [reflexivity|]. split; [reflexivity|]. split; [reflexivity|].
      intros i e Hi. destruct i; discriminate Hi.
    - remember (x :: xs) as l. assert (Hn' : p' = Pool (map (fun e => fst (fst e)) (map entry_of l)) (map (fun e => Some (snd (fst e))) (map entry_of l)) cdf (p_level p + 1)).
      { subst l. cbn [map] in Hn |- *. cbv iota in Hn. congruence. }
      clear Hn. subst p'. unfold denotes. cbn [p_parent p_child p_cdf p_level]. rewrite !map_map, map_length.
      split; [reflexivity|]. split; [reflexivity|]. split; [exact Ecdf|].
      intros i e Hi. assert (Hin : In e (refined els bs)) by (rewrite Er; eapply nth_error_In; eauto).
      apply in_refined in Hin. destruct Hin as (j & e' & c & He' & _ & _ & ->).
      destruct D as (_ & _ & _ & De). destruct (De j e' He') as (Hf & Hl & _).
      cbn [kid fst snd]. split; auto. split; [rewrite app_length; cbn; lia|]. intros _.
      rewrite (map_nth_error _ _ _ Hi). reflexivity.
  Qed.

  Lemma refine_ok p els T sched : denotes p els -> finished (p_size p / T + 1) T sched ->
    (forall p', refine_pool_faces points faces ss es cs Lip ratio T sched p = Ok p' ->
       exists bs, answers els bs /\ denotes p' (refined els bs))
    /\ (1 <= T -> forall bs, answers els bs ->
        refine_pool_faces points faces ss es cs Lip ratio T sched p = new_pool (p_level p) (map entry_of (refined els bs))).
  Proof.
    intros D Hf.
    assert (Hs : p_size p = length els) by (destruct D as (Dp & _); unfold p_size; now rewrite Dp, map_length).
    assert (G : 1 <= T -> refine_pool_faces points faces ss es cs Lip ratio T sched p =
      (l <- for_res (p_size p) 0 (process p) [] ;; new_pool (p_level p) l)).
    { intros HT. unfold refine_pool_faces. destruct T as [|T']; [lia|]. set (T := S T') in *.
      rewrite <- (@threads_ok _ (process p) (p_size p) T sched HT Hf (process_app p) (fun i buf => @process_end p i buf)).
      rewrite bind_assoc. reflexivity. }
    destruct (@loop_ok p els D els [] [] eq_refl) as (L1 & L2). cbn [length app] in L1, L2. split.
    - intros p' Hp'. destruct (Nat.eq_dec T 0) as [->|HT]; [discriminate|]. rewrite G in Hp' by lia.
      apply bind_Ok_inv in Hp'. destruct Hp' as (l & El & Hn). rewrite Hs in El. destruct (L1 l El) as (bs & Hbs & ->).
      exists bs. split; auto. eapply new_pool_ok; eauto.
    - intros HT bs Hbs. rewrite G by auto. rewrite Hs, (L2 bs Hbs). reflexivity.
  Qed.
End FacePool.
