(** Proofs about the readers and writers of files. *)
From Coq Require Import Ascii String Reals Lra.
From Verif Require Import Base Num SmartTree Vec KdSpec SmartTreeSpec SmartTreeProofs Text TextSpec TextProofs.
Local Open Scope list_scope.
Local Open Scope nat_scope.

Lemma skipn_cons_nth {A} (l : list A) : forall i a, nth_error l i = Some a -> skipn i l = a :: skipn (S i) l.
Proof.
  induction l as [|b l IH]; intros [|i] a E; try discriminate.
  - simpl in E. injection E as ->. reflexivity.
  - exact (IH i a E).
Qed.
Lemma parse_from_ok {F} (io : numio F) toks n : forall i, i + n <= List.length toks ->
  parse_from io toks i n = Ok (map (io_parse io) (firstn n (skipn i toks))).
Proof.
  induction n as [|n IH]; intros i H; auto. cbn [parse_from]. unfold token, get.
  destruct (nth_error toks i) as [t|] eqn:E.
  2:{ apply nth_error_None in E. lia. }
  cbn [bind]. rewrite IH by lia. cbn [bind]. do 2 f_equal.
  rewrite (skipn_cons_nth _ _ E). reflexivity.
Qed.
Lemma parse_blanked {F} (io : numio F) l : plain_io io -> map (io_parse io) (blanked l) = map (io_parse io) l.
Proof.
  intros (_ & B). destruct l as [|a l]; auto. cbn [blanked map]. f_equal. rewrite map_map.
  apply map_ext. auto.
Qed.
Lemma blanked_length l : List.length (blanked l) = List.length l.
Proof. destruct l; auto. cbn [blanked List.length]. now rewrite map_length. Qed.
Lemma commas_no_newline l : (forall t, In t l -> free_of newline t) -> free_of newline (commas l).
Proof.
  induction l as [|a l IH]; intros F; [intros []|]. destruct l as [|b l]; [apply F; now left|].
  change (commas (a :: b :: l)) with (a ++ [comma; blank] ++ commas (b :: l)). intros H.
  apply in_app_or in H as [H|H]; [eapply F; [now left|exact H]|].
  destruct H as [H|[H|H]]; [discriminate|discriminate|]. revert H. apply IH. intros t Ht. apply F. now right.
Qed.
Lemma show_ok {F} (io : numio F) v : plain_io io -> free_of comma (io_show io v) /\ free_of newline (io_show io v).
Proof. intros (P & _). destruct (P v) as (W & C & _). split; auto. now apply word_no_newline. Qed.
Lemma in_shows {F} (io : numio F) l t : plain_io io -> In t (map (io_show io) l) ->
  free_of comma t /\ free_of newline t.
Proof. intros P H. apply in_map_iff in H as (v & <- & _). now apply show_ok. Qed.
Lemma nat_ok n : free_of comma (show_nat n) /\ free_of newline (show_nat n).
Proof. destruct (show_nat_word n) as (W & C & _). split; auto. now apply word_no_newline. Qed.
Lemma in_lit c s t : free_of c (lit s) -> free_of c t -> free_of c (lit s ++ t).
Proof. intros A B H. apply in_app_or in H as [H|H]; auto. Qed.
Ltac noc := let H := fresh in intros H; vm_compute in H; intuition discriminate.
Lemma coord_names_ok n t : In t (coord_names n) -> free_of comma t /\ free_of newline t.
Proof.
  intros H. apply in_map_iff in H as (i & <- & _). destruct (nat_ok (N.of_nat (i + 1))).
  split; (apply in_lit; [noc|]); intros H'; apply in_app_or in H' as [H'|H']; auto; revert H'; noc.
Qed.
Lemma numbered_ok s j : (free_of comma (lit s)) -> free_of newline (lit s) ->
  free_of comma (lit s ++ show_nat j) /\ free_of newline (lit s ++ show_nat j).
Proof. intros. destruct (nat_ok j). split; apply in_lit; auto. Qed.

Lemma map_res_ok {A B} (f : A -> res B) g l : (forall a, In a l -> f a = Ok (g a)) -> map_res f l = Ok (map g l).
Proof.
  induction l as [|a l IH]; intros H; auto. cbn [map_res map]. rewrite (H a (or_introl eq_refl)).
  cbn [bind]. rewrite IH; auto. intros b Hb. apply H. now right.
Qed.
Lemma map_res_map {A B C} (f : B -> res C) (h : A -> B) l : map_res f (map h l) = map_res (fun a => f (h a)) l.
Proof. induction l as [|a l IH]; auto. cbn [map map_res]. now rewrite IH. Qed.

(** ** seeds and spheres *)
Lemma seeds_roundtrip {F} (io : numio F) l : plain_io io ->
  (forall s, In s l -> List.length (sd_x s) = 3 /\ (sd_region s < 2 ^ 64)%N) ->
  read_seeds_csv io (save_seeds io 3 l) = Ok (map (reread_seed io) l).
Proof.
  intros P H. unfold read_seeds_csv, save_seeds. rewrite getlines_unlines.
  - cbn [tl]. rewrite map_res_map. apply map_res_ok. intros s Hs. destruct (H s Hs) as (L & Rg).
    unfold read_seed, seed_row. rewrite tokens_commas.
    + destruct s as [x sz rg]. cbn [sd_x sd_size sd_region] in *.
      destruct x as [|a [|b [|c [|? ?]]]]; try discriminate.
      cbn -[show_nat string_to_size_t]. rewrite size_t_blank, size_t_show; auto.
      unfold reread_seed, reread. cbn [map sd_x sd_size sd_region]. now rewrite !(proj2 P).
    + destruct (sd_x s); discriminate.
    + intros t Ht. apply in_app_or in Ht as [Ht|[<-|[<-|[]]]].
      * apply (@in_shows _ io (sd_x s) t P Ht).
      * now apply show_ok.
      * apply nat_ok.
  - intros r [<-|Hr].
    + apply commas_no_newline. intros t Ht. apply in_app_or in Ht as [Ht|[<-|[]]]; [now apply coord_names_ok in Ht|noc].
    + apply in_map_iff in Hr as (s & <- & _). apply commas_no_newline. intros t Ht.
      apply in_app_or in Ht as [Ht|[<-|[<-|[]]]].
      * apply (@in_shows _ io (sd_x s) t P Ht).
      * now apply show_ok.
      * apply nat_ok.
Qed.

Lemma load_rows_ok {F} (io : numio F) nd l : plain_io io -> (forall s, In s l -> List.length s = nd + 1) ->
  load_rows io nd (map (fun s => commas (map (io_show io) s)) l) = Ok (map (map (reread io)) l).
Proof.
  intros P. induction l as [|s l IH]; intros H; auto. cbn [map load_rows].
  assert (L := H s (or_introl eq_refl)).
  rewrite tokens_commas.
  - cbn [bind]. rewrite blanked_length, map_length, L.
    destruct (Nat.leb_spec (nd + 1) nd); [lia|].
    rewrite parse_from_ok by (rewrite blanked_length, map_length; simpl; lia).
    cbn [bind skipn]. rewrite IH by (intros; apply H; now right). cbn [bind].
    rewrite firstn_all2 by (rewrite blanked_length, map_length; lia).
    rewrite parse_blanked, map_map; auto.
  - destruct s; [simpl in L; lia|discriminate].
  - intros t Ht. apply (@in_shows _ io s t P Ht).
Qed.
Lemma spheres_roundtrip {F} (io : numio F) nd l : plain_io io -> (forall s, In s l -> List.length s = nd + 1) ->
  load_spheres_csv io nd (save_spheres io nd l) = Ok (map (map (reread io)) l).
Proof.
  intros P H. unfold load_spheres_csv, save_spheres. rewrite getlines_unlines.
  - cbn [tl]. now apply load_rows_ok.
  - intros r [<-|Hr].
    + apply commas_no_newline. intros t Ht. apply in_app_or in Ht as [Ht|[<-|[]]]; [now apply coord_names_ok in Ht|noc].
    + apply in_map_iff in Hr as (s & <- & _). apply commas_no_newline. intros t Ht. apply (@in_shows _ io s t P Ht).
Qed.

(** ** OBJ *)
Lemma until_slash_free s : free_of "/"%char s -> until_slash s = s.
Proof.
  induction s as [|a s IH]; intros F; auto. cbn [until_slash].
  rewrite (proj2 (ch_false a "/"%char)); [|intros ->; apply F; now left]. f_equal. apply IH.
  intros ?. apply F. now right.
Qed.
Lemma word_get i line : i < List.length (words line) -> get (words line) i = Ok (word i line).
Proof.
  intros H. unfold get, word. destruct (nth_error (words line) i) as [t|] eqn:E.
  - now rewrite (nth_error_nth _ _ _ E).
  - apply nth_error_None in E. lia.
Qed.
Lemma read_obj_lines_ok {F} (io : numio F) ti lines : forall o,
  (forall l, In l lines -> starts "v" l = true \/ starts "f" l = true -> 4 <= List.length (words l)) ->
  read_obj_lines io ti lines o
  = Ok (Obj (ob_pts o ++ map (vertex_of io) (with_first "v" lines))
            (ob_faces o ++ map (face_of io ti) (with_first "f" lines))).
Proof.
  induction lines as [|l lines IH]; intros o H.
  - cbn. rewrite !app_nil_r. now destruct o.
  - assert (Hl := H l (or_introl eq_refl)). assert (Ht : forall k, In k lines -> starts "v" k = true \/ starts "f" k = true -> 4 <= List.length (words k)) by (intros; apply H; auto; now right).
    cbn [read_obj_lines]. unfold with_first. cbn [filter].
    assert (SE : forall k, starts k l = match words l with [] => false | w :: _ => text_eqb w (lit k) end) by reflexivity.
    rewrite !SE. rewrite !SE in Hl. clear SE.
    destruct (words l) as [|w ws] eqn:Ew.
    + rewrite IH; auto.
    + destruct (text_eqb w (lit "v")) eqn:Ev.
      * apply text_eqb_true in Ev. subst w. change (text_eqb (lit "v") (lit "f")) with false. cbv iota.
        assert (L : 4 <= List.length (words l)) by (rewrite Ew; apply Hl; now left).
        rewrite <- Ew. rewrite parse_from_ok by lia. cbn [bind]. rewrite IH; auto. cbn [ob_pts ob_faces map].
        f_equal. f_equal. rewrite <- app_assoc. f_equal. cbn [app]. f_equal.
        unfold vertex_of, word. rewrite Ew in *. destruct ws as [|a [|b [|c ws]]]; simpl in L; try lia. reflexivity.
      * destruct (text_eqb w (lit "f")) eqn:Ef.
        -- apply text_eqb_true in Ef. subst w. cbn [bind].
           assert (L : 4 <= List.length (words l)) by (rewrite Ew; apply Hl; now right).
           rewrite <- Ew. unfold token. rewrite !word_get by lia. cbn [bind]. rewrite IH; auto. cbn [ob_pts ob_faces map].
           f_equal. f_equal. rewrite <- app_assoc. reflexivity.
        -- cbn [bind]. rewrite IH; auto.
Qed.

Lemma obj_roundtrip {F} (io : numio F) ti (o : obj F) : plain_io io -> reads_numbers io ti ->
  (forall p, In p (ob_pts o) -> List.length p = 3) ->
  (forall f, In f (ob_faces o) -> List.length f = 3 /\ forall z, In z f -> (0 <= z < 2 ^ 53)%Z) ->
  exists file, save_obj io o = Ok file
    /\ read_obj io ti file = Ok (Obj (map (map (reread io)) (ob_pts o)) (ob_faces o)).
Proof.
  intros P RN HP HF.
  set (vl := fun p : list F => lit "v " ++ io_show io (nth 0 p (io_parse io [])) ++ [blank] ++ io_show io (nth 1 p (io_parse io [])) ++ [blank] ++ io_show io (nth 2 p (io_parse io []))).
  set (sh := fun z => [blank] ++ show_nat (Z.to_N (z + 1))).
  set (fl := fun f => lit "f " ++ sh (nth 0 f 0%Z) ++ sh (nth 1 f 0%Z) ++ sh (nth 2 f 0%Z)).
  assert (V : map_res (vertex_line io) (ob_pts o) = Ok (map vl (ob_pts o))).
  { apply map_res_ok. intros p Hp. apply HP in Hp. destruct p as [|a [|b [|c [|? ?]]]]; try discriminate. reflexivity. }
  assert (Fc : map_res face_line (ob_faces o) = Ok (map fl (ob_faces o))).
  { apply map_res_ok. intros p Hp. apply HF in Hp as (Hp & _). destruct p as [|a [|b [|c [|? ?]]]]; try discriminate. reflexivity. }
  unfold save_obj. rewrite V, Fc. cbn [bind]. eexists. split; [reflexivity|]. unfold read_obj.
  assert (WV : forall p, words (vl p) = [lit "v"; io_show io (nth 0 p (io_parse io [])); io_show io (nth 1 p (io_parse io [])); io_show io (nth 2 p (io_parse io []))]).
  { intros p. unfold vl. change (lit "v ") with (lit "v" ++ [blank]). rewrite <- app_assoc. cbn [app].
    change (words (lit "v" ++ blank :: ?x)) with (words (lit "v" ++ blank :: x)).
    rewrite words_cons.
    - rewrite words_cons by apply (proj1 P). rewrite words_cons by apply (proj1 P). rewrite words_last by apply (proj1 P). reflexivity.
    - split; [discriminate|]. intros a [<-|[]]. reflexivity. }
  assert (WF : forall f, words (fl f) = [lit "f"; show_nat (Z.to_N (nth 0 f 0 + 1)); show_nat (Z.to_N (nth 1 f 0 + 1)); show_nat (Z.to_N (nth 2 f 0 + 1))]%Z).
  { intros f. unfold fl, sh. change (lit "f ") with (lit "f" ++ [blank]). rewrite <- app_assoc. cbn [app].
    rewrite words_cons.
    - rewrite words_blank. rewrite words_cons by apply show_nat_word. rewrite words_cons by apply show_nat_word.
      rewrite words_last by apply show_nat_word. reflexivity.
    - split; [discriminate|]. intros a [<-|[]]. reflexivity. }
  assert (SVv : forall p, starts "v" (vl p) = true) by (intros; unfold starts; rewrite WV; reflexivity).
  assert (SVf : forall p, starts "f" (vl p) = false) by (intros; unfold starts; rewrite WV; reflexivity).
  assert (SFv : forall p, starts "v" (fl p) = false) by (intros; unfold starts; rewrite WF; reflexivity).
  assert (SFf : forall p, starts "f" (fl p) = true) by (intros; unfold starts; rewrite WF; reflexivity).
  rewrite getlines_unlines.
  - rewrite read_obj_lines_ok.
    + cbn [ob_pts ob_faces app]. unfold with_first. rewrite !filter_app.
      assert (FT : forall A (f : A -> text) k l, (forall a, starts k (f a) = true) -> filter (starts k) (map f l) = map f l).
      { intros A f k l T. induction l as [|a l IH]; auto. cbn [map filter]. now rewrite T, IH. }
      assert (FF : forall A (f : A -> text) k l, (forall a, starts k (f a) = false) -> filter (starts k) (map f l) = []).
      { intros A f k l T. induction l as [|a l IH]; auto. cbn [map filter]. now rewrite T, IH. }
      rewrite (FT _ vl "v"%string), (FF _ fl "v"%string), (FF _ vl "f"%string), (FT _ fl "f"%string) by auto.
      rewrite app_nil_r. cbn [app]. f_equal. rewrite !map_map. f_equal.
      * apply map_ext_in. intros p Hp. apply HP in Hp. unfold vertex_of, word. rewrite WV.
        destruct p as [|a [|b [|c [|? ?]]]]; try discriminate. reflexivity.
      * transitivity (map (fun x => x) (ob_faces o)); [|apply map_id]. apply map_ext_in. intros f Hf. apply HF in Hf as (L & B).
        unfold face_of, word. rewrite WF. destruct f as [|a [|b [|c [|? ?]]]]; try discriminate.
        cbn [map nth]. assert (forall z, In z [a; b; c] -> ti (io_parse io (until_slash (show_nat (Z.to_N (z + 1))))) = z).
        { intros z Hz. specialize (B z Hz). rewrite until_slash_free by apply show_nat_word.
          rewrite RN; [rewrite Z2N.id; lia|]. split; [lia|]. apply N2Z.inj_le. rewrite Z2N.id by lia.
          change (Z.of_N (2 ^ 53)) with (2 ^ 53)%Z. lia. }
        rewrite !H; auto; simpl; auto.
    + intros l Hl _. apply in_app_or in Hl as [Hl|Hl]; apply in_map_iff in Hl as (q & <- & _); [rewrite WV|rewrite WF]; simpl; lia.
  - intros l Hl. apply in_app_or in Hl as [Hl|Hl]; apply in_map_iff in Hl as (q & <- & _).
    + unfold vl. cbn [app]. assert (S : forall v, free_of newline (io_show io v)) by (intros; now apply show_ok).
      intros Hn. apply in_app_or in Hn as [Hn|Hn]; [revert Hn; noc|].
      apply in_app_or in Hn as [Hn|[Hn|Hn]]; [eapply S; exact Hn|discriminate|].
      apply in_app_or in Hn as [Hn|[Hn|Hn]]; [eapply S; exact Hn|discriminate|]. eapply S; exact Hn.
    + unfold fl, sh. cbn [app]. assert (S : forall v, free_of newline (show_nat v)) by (intros; apply nat_ok).
      intros Hn. apply in_app_or in Hn as [Hn|Hn]; [revert Hn; noc|].
      cbn [In] in Hn. destruct Hn as [Hn|Hn]; [discriminate|].
      apply in_app_or in Hn as [Hn|[Hn|Hn]]; [eapply S; exact Hn|discriminate|].
      apply in_app_or in Hn as [Hn|[Hn|Hn]]; [eapply S; exact Hn|discriminate|]. eapply S; exact Hn.
Qed.

(** ** merging *)
Lemma merge_ok {F} (ms : list (obj F)) : forall acc, valid_faces acc -> (forall m, In m ms -> valid_faces m) ->
  ob_pts (merge_from acc ms) = ob_pts acc ++ flat_map (@ob_pts F) ms
  /\ triangles (merge_from acc ms) = triangles acc ++ flat_map triangles ms
  /\ valid_faces (merge_from acc ms).
Proof.
  induction ms as [|m ms IH]; intros acc Ha Hm; cbn [merge_from flat_map].
  - rewrite !app_nil_r. auto.
  - set (k := Z.of_nat (List.length (ob_pts acc))).
    set (acc' := Obj (ob_pts acc ++ ob_pts m) (ob_faces acc ++ map (map (Z.add k)) (ob_faces m))).
    assert (Vm := Hm m (or_introl eq_refl)).
    assert (V : valid_faces acc').
    { intros f Hf z Hz. cbn [ob_pts ob_faces acc'] in *. rewrite app_length.
      apply in_app_or in Hf as [Hf|Hf].
      - specialize (Ha f Hf z Hz). lia.
      - apply in_map_iff in Hf as (g & <- & Hg). apply in_map_iff in Hz as (y & <- & Hy).
        specialize (Vm g Hg y Hy). unfold k. lia. }
    destruct (IH acc' V) as (E1 & E2 & E3); [intros; apply Hm; now right|].
    rewrite E1, E2. split; [|split; auto].
    + cbn [ob_pts acc']. now rewrite <- app_assoc.
    + rewrite app_assoc. f_equal. unfold triangles, acc'. cbn [ob_pts ob_faces]. rewrite map_app. f_equal.
      * apply map_ext_in. intros f Hf. apply map_ext_in. intros z Hz. specialize (Ha f Hf z Hz).
        apply nth_error_app1. lia.
      * rewrite map_map. apply map_ext_in. intros f Hf. rewrite map_map. apply map_ext_in. intros z Hz.
        specialize (Vm f Hf z Hz). rewrite nth_error_app2 by (unfold k; lia). f_equal. unfold k. lia.
Qed.
