(** Proofs about tree files, configuration files and the command line. *)
From Coq Require Import Ascii String Reals Lra.
From Verif Require Import Base Num SmartTree Vec KdSpec SmartTreeSpec SmartTreeProofs Text TextSpec TextProofs TextFilesProofs.
Local Open Scope list_scope.
Local Open Scope nat_scope.

(** ** configuration *)
Lemma setting_cons {A} k a t (d : A) f :
  setting k (a :: t) d f = setting k t (if starts k a then f (word 2 a) else d) f.
Proof.
  unfold setting, with_first. cbn [filter]. destruct (starts k a); auto. cbn [rev].
  destruct (rev (filter (starts k) t)); reflexivity.
Qed.

Lemma complete_dec l : {complete l} + {~ complete l}.
Proof.
  destruct (Forall_dec (fun k => starts k l = true -> 3 <= List.length (words l))) with (l := valued_keys) as [X|X].
  - intros k. destruct (starts k l); [|left; discriminate]. destruct (le_dec 3 (List.length (words l))); auto.
  - left. intros k Hk. rewrite Forall_forall in X. now apply X.
  - right. intros C. apply X. apply Forall_forall. exact C.
Qed.

Section Config.
  Context {F : Type} `{Num F} (io : numio F).
  Definition upd_cfg (c : config F) (l : text) : config F :=
    Cfg (cf_files c ++ (if starts "INPUT_MESH_FILE" l || starts "SEEDS_FILE" l then [word 2 l] else []))
        (if starts "SIZING_FILE" l then word 2 l else cf_sizing c)
        (if starts "R_MIN" l then io_parse io (word 2 l) else cf_rmin c)
        (if starts "R_MAX" l then io_parse io (word 2 l) else cf_rmax c)
        (if starts "LIP_CONST" l then io_parse io (word 2 l) else cf_lip c)
        (if starts "VC_ANGLE" l then io_parse io (word 2 l) else cf_angle c)
        (if starts "NUM_THREADS" l then ntrunc (io_parse io (word 2 l)) else cf_threads c)
        (cf_vcg c || starts "GENERATE_VCG_FILE" l)
        (cf_exodus c || starts "GENERATE_EXODUS_FILE" l)
        (cf_mon c || starts "GENERATE_MONITORING_POINTS" l)
        (cf_imp c || starts "IMPOSE_MONITORING_POINTS" l)
        (cf_seeds c || starts "GENERATE_MESH_FROM_SEEDS" l).

  Lemma cfg_line_ok c l : complete l -> cfg_line io c l = Ok (upd_cfg c l).
  Proof.
    intros C. unfold cfg_line, upd_cfg.
    assert (SE : forall k, starts k l = match words l with [] => false | w :: _ => text_eqb w (lit k) end) by reflexivity.
    assert (CE : forall k, In k valued_keys -> starts k l = true -> 3 <= List.length (words l)) by exact C.
    destruct (words l) as [|w ws] eqn:Ew.
    { rewrite !SE. cbn [orb]. rewrite app_nil_r, !orb_false_r. now destruct c. }
    assert (W2 : forall k, In k valued_keys -> text_eqb w (lit k) = true -> token (w :: ws) 2 = Ok (word 2 l)).
    { intros k Hk E. unfold token. rewrite <- Ew. apply word_get. rewrite Ew. apply (CE k Hk). now rewrite SE. }
    rewrite !SE. unfold key. clear SE CE C.
    Ltac one k := match goal with
      | |- context [text_eqb ?w (lit k)] =>
        destruct (text_eqb w (lit k)) eqn:?E;
        [ match goal with W2 : forall k0, In k0 valued_keys -> _ |- _ =>
            try (rewrite (W2 k) by (solve [simpl; tauto] || assumption)) end;
          match goal with E0 : text_eqb w (lit k) = true |- _ => apply text_eqb_true in E0; subst w end;
          repeat match goal with |- context [text_eqb (lit ?a) (lit ?b)] =>
            let v := eval vm_compute in (text_eqb (lit a) (lit b)) in
            change (text_eqb (lit a) (lit b)) with v end;
          cbn [bind orb cf_files cf_sizing cf_rmin cf_rmax cf_lip cf_angle cf_threads cf_vcg cf_exodus cf_mon cf_imp cf_seeds];
          rewrite ?app_nil_r, ?orb_false_r, ?orb_true_r; reflexivity
        | ]
      end.
    one "INPUT_MESH_FILE"%string. one "SIZING_FILE"%string. one "R_MIN"%string. one "R_MAX"%string. one "LIP_CONST"%string.
    one "VC_ANGLE"%string. one "NUM_THREADS"%string. one "GENERATE_VCG_FILE"%string. one "GENERATE_EXODUS_FILE"%string.
    one "GENERATE_MONITORING_POINTS"%string. one "IMPOSE_MONITORING_POINTS"%string. one "GENERATE_MESH_FROM_SEEDS"%string.
    one "SEEDS_FILE"%string.
    cbn [bind orb]. rewrite ?app_nil_r, ?orb_false_r. now destruct c.
  Qed.

  Lemma cfg_line_bad c l : ~ complete l -> cfg_line io c l = UB.
  Proof.
    intros C. unfold cfg_line.
    assert (SE : forall k, starts k l = match words l with [] => false | w :: _ => text_eqb w (lit k) end) by reflexivity.
    destruct (words l) as [|w ws] eqn:Ew.
    { exfalso. apply C. intros k _ E. now rewrite SE in E. }
    assert (X : exists k, In k valued_keys /\ text_eqb w (lit k) = true /\ List.length (w :: ws) < 3).
    { destruct (existsb (fun k => text_eqb w (lit k)) valued_keys) eqn:Ex.
      - apply existsb_exists in Ex as (k & Hk & Ek). exists k. split; auto. split; auto.
        destruct (Nat.lt_ge_cases (List.length (w :: ws)) 3) as [L|L]; auto.
        exfalso. apply C. intros k' _ _. now rewrite Ew.
      - exfalso. apply C. intros k Hk E. rewrite SE in E.
        assert (existsb (fun k => text_eqb w (lit k)) valued_keys = true) by (apply existsb_exists; eauto). congruence. }
    destruct X as (k & Hk & Ek & L). apply text_eqb_true in Ek. subst w.
    assert (T : token (lit k :: ws) 2 = UB).
    { unfold token, get. destruct (nth_error (lit k :: ws) 2) eqn:E; auto. apply nth_error_Some_lt in E. lia. }
    unfold key. rewrite T. cbn [In valued_keys] in Hk. destruct Hk as [<-|[<-|[<-|[<-|[<-|[<-|[<-|[<-|[]]]]]]]]]; reflexivity.
  Qed.

  Lemma cfg_lines_ok l : forall c, (forall a, In a l -> complete a) -> exists c', cfg_lines io c l = Ok c'
    /\ cf_files c' = cf_files c ++ map (word 2) (filter (fun a => starts "INPUT_MESH_FILE" a || starts "SEEDS_FILE" a) l)
    /\ cf_sizing c' = setting "SIZING_FILE" l (cf_sizing c) (fun t => t)
    /\ cf_rmin c' = setting "R_MIN" l (cf_rmin c) (io_parse io)
    /\ cf_rmax c' = setting "R_MAX" l (cf_rmax c) (io_parse io)
    /\ cf_lip c' = setting "LIP_CONST" l (cf_lip c) (io_parse io)
    /\ cf_angle c' = setting "VC_ANGLE" l (cf_angle c) (io_parse io)
    /\ cf_threads c' = setting "NUM_THREADS" l (cf_threads c) (fun t => ntrunc (io_parse io t))
    /\ cf_vcg c' = cf_vcg c || flag "GENERATE_VCG_FILE" l
    /\ cf_exodus c' = cf_exodus c || flag "GENERATE_EXODUS_FILE" l
    /\ cf_mon c' = cf_mon c || flag "GENERATE_MONITORING_POINTS" l
    /\ cf_imp c' = cf_imp c || flag "IMPOSE_MONITORING_POINTS" l
    /\ cf_seeds c' = cf_seeds c || flag "GENERATE_MESH_FROM_SEEDS" l.
  Proof.
    induction l as [|a l IH]; intros c C.
    - exists c. cbn. rewrite app_nil_r, !orb_false_r. repeat split.
    - cbn [cfg_lines]. rewrite cfg_line_ok by (apply C; now left). cbn [bind].
      destruct (IH (upd_cfg c a)) as (c' & E & H1 & H2 & H3 & H4 & H5 & H6 & H7 & H8 & H9 & H10 & H11 & H12).
      { intros; apply C; now right. }
      exists c'. rewrite !setting_cons. unfold flag in *. cbn [existsb filter]. rewrite !orb_assoc.
      repeat split; auto. rewrite H1. cbn [upd_cfg cf_files]. rewrite <- app_assoc. f_equal.
      destruct (starts "INPUT_MESH_FILE" a || starts "SEEDS_FILE" a); reflexivity.
  Qed.

  Lemma cfg_lines_bad l a : In a l -> ~ complete a -> forall c, cfg_lines io c l = UB.
  Proof.
    induction l as [|b l IH]; intros Hin Ha c; [destruct Hin|]. cbn [cfg_lines].
    destruct Hin as [->|Hin]; [now rewrite cfg_line_bad|].
    destruct (complete_dec b) as [C|C]; [rewrite cfg_line_ok|rewrite cfg_line_bad]; auto.
    cbn [bind]. auto.
  Qed.
End Config.

(** ** command line *)
Lemma option_exists_ok args o : option_exists args o = true <-> In o args.
Proof.
  unfold option_exists. rewrite existsb_exists. split.
  - intros (a & Ha & E). apply text_eqb_true in E. now subst.
  - intros Ho. exists o. split; auto. now apply text_eqb_true.
Qed.
Lemma option_value_ok args o v : option_value args o = Some v <-> option_arg o args v.
Proof.
  induction args as [|a t IH]; cbn [option_value].
  - split; [discriminate|]. intros (b & c & E & _). destruct b; discriminate.
  - destruct (text_eqb a o) eqn:E.
    + apply text_eqb_true in E. subst a. split.
      * destruct t as [|w t]; [discriminate|]. intros X. injection X as ->. exists [], t. split; auto.
      * intros (b & c & X & N). destruct b as [|d b].
        -- simpl in X. injection X as ->. reflexivity.
        -- simpl in X. injection X as -> X. exfalso. apply N. now left.
    + apply text_eqb_false in E. rewrite IH. split.
      * intros (b & c & -> & N). exists (a :: b), c. split; auto. intros [X|X]; congruence || auto.
      * intros (b & c & X & N). destruct b as [|d b].
        -- simpl in X. congruence.
        -- simpl in X. injection X as -> ->. exists b, c. split; auto. intros Y. apply N. now right.
Qed.

(** ** trees *)
Definition reread_item (io : numio R) (num_dim nd : nat) (it : item) : item :=
  It (map (reread io) (firstn num_dim (it_x it))) (map (reread io) (firstn nd (it_n it))) (it_a it).

Section Tree.
  Variables (io : numio R) (need : nat -> nat -> bool) (nd num_dim cap : nat).
  Hypothesis P : plain_io io.
  Hypothesis Hnd : 0 < nd.
  Hypothesis Hdim : nd <= num_dim.

  Definition good_item (it : item) : Prop :=
    num_dim <= List.length (it_x it) /\ List.length (it_n it) = nd /\ uniform_block cap (it_a it).
  Definition fields (it : item) : list text :=
    map (io_show io) (firstn num_dim (it_x it)) ++ map (io_show io) (it_n it)
    ++ match it_a it with None => [] | Some l => map (fun v => show_nat (N.of_nat v)) l end.

  Lemma fields_ok it t : In t (fields it) -> free_of comma t /\ free_of newline t.
  Proof.
    intros H. apply in_app_or in H as [H|H]; [eapply in_shows; eauto|].
    apply in_app_or in H as [H|H]; [eapply in_shows; eauto|].
    destruct (it_a it); [|destruct H]. apply in_map_iff in H as (v & <- & _). apply nat_ok.
  Qed.
  Lemma fields_length it : good_item it -> List.length (fields it) = num_dim + nd + cap.
  Proof.
    intros (A & B & C). unfold fields. rewrite !app_length, !map_length, firstn_length, B, Nat.min_l by lia.
    unfold uniform_block in C. destruct (it_a it); [|simpl; lia]. rewrite map_length. lia.
  Qed.

  Lemma save_row_ok it : good_item it ->
    save_tree_row io num_dim nd (it_x it) (Some (it_n it)) (it_a it) = Ok (commas (fields it)).
  Proof.
    intros (A & B & C). unfold save_tree_row. destruct (Nat.ltb_spec (List.length (it_x it)) num_dim); [lia|].
    rewrite B. destruct (Nat.ltb_spec nd nd); [lia|]. cbn [bind]. rewrite (@firstn_all2 _ nd) by lia.
    unfold fields, uniform_block in *. destruct (it_a it) as [l|]; auto.
    destruct C as (C1 & C2 & C3 & _). destruct l as [|c l]; [simpl in C3; lia|]. cbn [hd] in C2. subst c.
    rewrite C3. destruct (Nat.ltb_spec cap cap); [lia|]. cbn [bind]. rewrite (@firstn_all2 _ cap) by lia. reflexivity.
  Qed.

  Lemma save_rows_ok s items : holds s items -> (forall it, In it items -> good_item it) ->
    forall n i, i + n = List.length items ->
    save_tree_rows io num_dim nd n i s = Ok (map (fun it => commas (fields it)) (skipn i items)).
  Proof.
    intros (E1 & E2 & E3) G. induction n as [|n IH]; intros i Hi.
    - cbn. rewrite skipn_all2 by lia. reflexivity.
    - cbn [save_tree_rows]. destruct (nth_error items i) as [it|] eqn:E.
      2:{ apply nth_error_None in E. lia. }
      rewrite E1, E2, E3. unfold get. rewrite !nth_error_map, E. cbn [option_map bind].
      rewrite save_row_ok by (apply G; eapply nth_error_In; eauto). cbn [bind]. rewrite IH by lia. cbn [bind].
      now rewrite (skipn_cons_nth _ _ E).
  Qed.

  Lemma skipn_blanked_parse l k n : map (io_parse io) (firstn n (skipn k (blanked l))) = map (io_parse io) (firstn n (skipn k l)).
  Proof. rewrite <- !firstn_map, <- !skipn_map. now rewrite (parse_blanked l P). Qed.

  Lemma load_row_ok it : good_item it ->
    load_tree_row io num_dim nd (num_dim + nd + cap) (commas (fields it))
    = Ok (map (reread io) (firstn num_dim (it_x it)), Some (map (reread io) (it_n it)), it_a it).
  Proof.
    intros G. pose proof (@fields_length it G) as L. destruct G as (A & B & C). unfold load_tree_row.
    rewrite tokens_commas.
    2:{ intros X. rewrite X in L. simpl in L. lia. }
    2:{ intros t Ht. now apply fields_ok in Ht. }
    cbn [bind]. rewrite parse_from_ok by (rewrite blanked_length; lia). cbn [bind].
    destruct (Nat.leb_spec (num_dim + nd) (num_dim + nd + cap)); [|lia].
    rewrite parse_from_ok by (rewrite blanked_length; lia). cbn [bind].
    rewrite !skipn_blanked_parse. cbn [skipn].
    assert (L1 : List.length (map (io_show io) (firstn num_dim (it_x it))) = num_dim) by (rewrite map_length, firstn_length; lia).
    assert (L2 : List.length (map (io_show io) (it_n it)) = nd) by (now rewrite map_length).
    assert (F1 : firstn num_dim (fields it) = map (io_show io) (firstn num_dim (it_x it))).
    { unfold fields. rewrite firstn_app, L1, Nat.sub_diag. cbn [firstn]. rewrite app_nil_r. apply firstn_all2. lia. }
    assert (F2 : firstn nd (skipn num_dim (fields it)) = map (io_show io) (it_n it)).
    { unfold fields. rewrite skipn_app, L1, Nat.sub_diag, skipn_all2 by lia. cbn [skipn app].
      rewrite firstn_app, L2, Nat.sub_diag. cbn [firstn]. rewrite app_nil_r. apply firstn_all2. lia. }
    rewrite F1, F2, !map_map.
    destruct (Nat.ltb_spec (num_dim + nd) (num_dim + nd + cap)).
    - unfold uniform_block in C. destruct (it_a it) as [l|] eqn:Ea; [|lia]. destruct C as (C1 & C2 & C3 & C4).
      replace (num_dim + nd + cap - num_dim - nd) with cap by lia.
      rewrite (@map_res_ok _ _ _ (fun i => nth i l 0)).
      + cbn [bind]. rewrite <- C3. do 2 f_equal. f_equal. apply map_nth_seq.
      + intros i Hi. apply in_seq in Hi. unfold token, get.
        assert (X : nth_error (blanked (fields it)) (num_dim + nd + i) = Some (blank :: show_nat (N.of_nat (nth i l 0)))).
        { assert (Y : nth_error (fields it) (num_dim + nd + i) = Some (show_nat (N.of_nat (nth i l 0)))).
          { unfold fields. rewrite Ea. rewrite nth_error_app2 by lia. rewrite nth_error_app2 by lia. rewrite L1, L2.
            replace (num_dim + nd + i - num_dim - nd) with i by lia. rewrite nth_error_map.
            rewrite (nth_error_nth' l 0) by lia. reflexivity. }
          destruct (fields it) as [|f0 fs]; [destruct (num_dim + nd + i); discriminate|].
          destruct (num_dim + nd + i) as [|j] eqn:Ej; [lia|]. cbn [blanked nth_error] in *.
          exact (map_nth_error (cons blank) _ _ Y). }
        rewrite X. cbn [bind]. rewrite size_t_blank, size_t_show; [now rewrite Nat2N.id|].
        apply C4. apply nth_In. lia.
    - cbn [bind]. unfold uniform_block in C. destruct (it_a it); auto. lia.
  Qed.

  Definition adds (items : list item) : list (op R) :=
    map (fun it => OpAdd (map (reread io) (firstn num_dim (it_x it))) (Some (map (reread io) (it_n it))) (it_a it)) items.
  Lemma add_point_nd (s s1 : stree R) x nv av : add_point need s x nv av = Ok s1 -> st_nd s1 = st_nd s.
  Proof.
    unfold add_point. intros E. apply bind_Ok_inv in E as (mn & _ & E). apply bind_Ok_inv in E as (mx & _ & E).
    apply bind_Ok_inv in E as (n' & _ & E). apply bind_Ok_inv in E as (a' & _ & E).
    destruct (st_n s =? 0); [injection E as <-; reflexivity|].
    destruct (st_nrm s), (st_att s); try discriminate. destruct (st_n s <? st_cap s); [|discriminate].
    destruct (st_lk s). apply bind_Ok_inv in E as ((lk & h) & _ & E). destruct (need h (S (st_n s))).
    - unfold st_build in E. apply bind_Ok_inv in E as (((a & b) & c) & _ & E). injection E as <-. reflexivity.
    - injection E as <-. reflexivity.
  Qed.
  Lemma load_rows_run items : (forall it, In it items -> good_item it) -> forall s : stree R, st_nd s = nd ->
    load_tree_rows io need num_dim (num_dim + nd + cap) s (map (fun it => commas (fields it)) items)
    = run need s (adds items).
  Proof.
    induction items as [|it items IH]; intros G s Hs; auto.
    cbn [map load_tree_rows adds run step]. rewrite Hs. rewrite load_row_ok by (apply G; now left). cbn [bind].
    destruct (add_point _ _ _ _ _) as [s1| |] eqn:E; auto. cbn [bind]. apply IH; [intros; apply G; now right|].
    apply add_point_nd in E. congruence.
  Qed.

  Lemma header_tokens att : (match att with Some (Some (c :: _) :: _) => c | _ => 0 end = cap) ->
    get_tokens comma (save_tree_header num_dim nd att) = Ok (blanked (coord_names num_dim
            ++ map (fun i => lit "n" ++ show_nat (N.of_nat (i + 1))) (seq 0 nd)
            ++ map (fun j => lit "attrib" ++ show_nat (N.of_nat (j + 1))) (seq 0 cap)))
    /\ free_of newline (save_tree_header num_dim nd att).
  Proof.
    intros E. assert (X : save_tree_header num_dim nd att = commas (coord_names num_dim
            ++ map (fun i => lit "n" ++ show_nat (N.of_nat (i + 1))) (seq 0 nd)
            ++ map (fun j => lit "attrib" ++ show_nat (N.of_nat (j + 1))) (seq 0 cap))).
    { unfold save_tree_header. do 3 f_equal. subst cap. destruct att as [[|[[|c l]|] r]|]; reflexivity. }
    rewrite X.
    assert (Ok' : forall t, In t (coord_names num_dim
            ++ map (fun i => lit "n" ++ show_nat (N.of_nat (i + 1))) (seq 0 nd)
            ++ map (fun j => lit "attrib" ++ show_nat (N.of_nat (j + 1))) (seq 0 cap)) -> free_of comma t /\ free_of newline t).
    { intros t Ht. apply in_app_or in Ht as [Ht|Ht]; [now apply coord_names_ok in Ht|].
      apply in_app_or in Ht as [Ht|Ht]; apply in_map_iff in Ht as (i & <- & _); apply numbered_ok; noc. }
    split.
    - apply tokens_commas.
      + intros Y. apply (f_equal (@List.length _)) in Y. rewrite !app_length in Y. unfold coord_names in Y.
        rewrite !map_length, !seq_length in Y. simpl in Y. lia.
      + intros t Ht. now apply Ok' in Ht.
    - apply commas_no_newline. intros t Ht. now apply Ok' in Ht.
  Qed.

  Lemma tree_roundtrip (s : stree R) items : items <> [] -> st_nd s = nd -> holds s items ->
    (forall it, In it items -> good_item it) ->
    exists file s', save_tree_csv io num_dim s = Ok file
      /\ load_tree_csv io need num_dim (st_new nd) file = Ok s'
      /\ ready s' /\ st_nd s' = nd /\ holds s' (map (reread_item io num_dim nd) items).
  Proof.
    intros Hne Hs Hh G. pose proof Hh as (E1 & E2 & E3). unfold save_tree_csv. rewrite Hs.
    assert (N : st_n s = List.length items) by (unfold st_n; rewrite E1; apply map_length).
    rewrite N, (@save_rows_ok s items Hh G) by lia. cbn [bind skipn].
    eexists. destruct items as [|it items]; [congruence|].
    assert (Git := G it (or_introl eq_refl)).
    destruct (@header_tokens (st_att s)) as (T & NL).
    { rewrite E3. cbn [map]. destruct Git as (_ & _ & C). unfold uniform_block in C. destruct (it_a it) as [[|c l]|]; auto.
      - simpl in C. lia.
      - simpl in C. lia. }
    assert (GL : forall r, In r (save_tree_header num_dim nd (st_att s) :: map (fun i => commas (fields i)) (it :: items)) -> free_of newline r).
    { intros r [<-|Hr]; auto. apply in_map_iff in Hr as (i & <- & _). apply commas_no_newline.
      intros t Ht. now apply fields_ok in Ht. }
    unfold load_tree_csv. rewrite (getlines_unlines _ GL). rewrite T. cbn [bind].
    rewrite blanked_length, !app_length. unfold coord_names. rewrite !map_length, !seq_length.
    replace (num_dim + (nd + cap)) with (num_dim + nd + cap) by lia.
    assert (GA : forall i, In i (it :: items) -> good_args nd (map (reread io) (firstn num_dim (it_x i))) (Some (map (reread io) (it_n i))) (it_a i)).
    { intros i Hi. destruct (G i Hi) as (A & B & C). split; [rewrite map_length, firstn_length; lia|]. split.
      - intros l X. injection X as <-. rewrite map_length. lia.
      - intros l X. unfold uniform_block in C. rewrite X in C. destruct C as (C1 & C2 & C3 & _). split; [|lia].
        intros ->. simpl in C3. lia. }
    destruct (@history_ok nd Hnd need (map (reread io) (firstn num_dim (it_x it))) (Some (map (reread io) (it_n it))) (it_a it) (adds items)) as (s' & l & E & [I1 I2 I3 I4 I5] & _ & _ & Ex).
    { apply GA. now left. }
    { apply Forall_forall. intros o Ho. apply in_map_iff in Ho as (i & <- & Hi). apply GA. now right. }
    exists s'. split; [reflexivity|]. split.
    - rewrite (@load_rows_run (it :: items) G (st_new nd) eq_refl). exact E.
    - assert (El : l = map (reread_item io num_dim nd) (it :: items)).
      { rewrite Ex.
        - clear - G Hnd. assert (X : forall i, In i (it :: items) -> item_of nd (map (reread io) (firstn num_dim (it_x i))) (Some (map (reread io) (it_n i))) (it_a i) = reread_item io num_dim nd i).
          { intros i Hi. destruct (G i Hi) as (A & B & C). unfold item_of, reread_item. f_equal.
            - rewrite firstn_all2 by (rewrite map_length; lia). rewrite firstn_all2 by lia. reflexivity.
            - unfold uniform_block in C. destruct (it_a i) as [a|]; auto. f_equal. apply firstn_all2. lia. }
          change (OpAdd (map (reread io) (firstn num_dim (it_x it))) (Some (map (reread io) (it_n it))) (it_a it) :: adds items) with (adds (it :: items)).
          revert X. generalize (it :: items) as L. induction L as [|i L IH]; intros X; auto.
          cbn [adds map added]. f_equal; [apply X; now left|]. apply IH. intros; apply X; now right.
        - apply Forall_forall. intros o Ho. apply in_map_iff in Ho as (i & <- & _). exact I. }
      subst l. split; [|split; auto]. split; [rewrite I1; auto|]. split; [|split; [rewrite I1; exact I3|auto]].
      destruct I2 as (-> & _). discriminate.
  Qed.
End Tree.

(** ** files given by their fields *)
Lemma join_no_newline r : good_fields r -> free_of newline (join comma r).
Proof.
  intros (_ & F). induction r as [|a r IH]; [intros []|]. destruct r as [|b r]; [apply F; now left|].
  change (join comma (a :: b :: r)) with (a ++ comma :: join comma (b :: r)). intros H.
  apply in_app_or in H as [H|[H|H]]; [eapply F; [now left|exact H]|discriminate|].
  revert H. apply IH. intros t Ht. apply F. now right.
Qed.
Lemma csv_lines header rows : free_of newline header -> (forall r, In r rows -> good_fields r) ->
  getlines (csv header rows) = header :: map (join comma) rows.
Proof.
  intros Hh Hr. apply getlines_unlines. intros l [<-|Hl]; auto. apply in_map_iff in Hl as (r & <- & Hl).
  apply join_no_newline. auto.
Qed.
Lemma tokens_join r : good_fields r -> get_tokens comma (join comma r) = Ok r.
Proof. intros (N & F). rewrite get_tokens_split, split_join; auto. intros t Ht. now apply F. Qed.

Lemma read_seed_fields {F} (io : numio F) r : good_fields r ->
  read_seed io (join comma r) = if 5 <=? List.length r
    then Ok (Seed [io_parse io (field 0 r); io_parse io (field 1 r); io_parse io (field 2 r)] (io_parse io (field 3 r))
                  (string_to_size_t (field 4 r))) else UB.
Proof.
  intros G. unfold read_seed. rewrite tokens_join by auto. cbn [bind].
  destruct r as [|a [|b [|c [|d [|e r]]]]]; reflexivity.
Qed.
Lemma map_res_bad {A B} (f : A -> res B) l a : (forall b, In b l -> f b <> Fuel) -> In a l -> f a = UB -> map_res f l = UB.
Proof.
  induction l as [|b l IH]; intros NF Hin E; [destruct Hin|]. cbn [map_res]. destruct Hin as [->|Hin]; [now rewrite E|].
  pose proof (NF b (or_introl eq_refl)). destruct (f b); cbn [bind]; auto; [|congruence].
  rewrite IH; auto. intros; apply NF; now right.
Qed.
Lemma read_seeds_fields {F} (io : numio F) header rows : free_of newline header -> (forall r, In r rows -> good_fields r) ->
  read_seeds_csv io (csv header rows) = if forallb (fun r => 5 <=? List.length r) rows
    then Ok (map (fun r => Seed [io_parse io (field 0 r); io_parse io (field 1 r); io_parse io (field 2 r)]
                             (io_parse io (field 3 r)) (string_to_size_t (field 4 r))) rows) else UB.
Proof.
  intros Hh Hr. unfold read_seeds_csv. rewrite csv_lines by auto. cbn [tl]. rewrite map_res_map.
  destruct (forallb _ rows) eqn:E.
  - apply map_res_ok. intros r Hin. rewrite read_seed_fields by auto. rewrite forallb_forall in E. now rewrite (E r Hin).
  - assert (X : existsb (fun r => negb (5 <=? List.length r)) rows = true).
    { clear - E. induction rows as [|r rows IH]; [discriminate|]. cbn [forallb existsb] in *.
      destruct (5 <=? List.length r); auto. }
    apply existsb_exists in X as (r & Hin & Hx). apply map_res_bad with r; auto.
    + intros q Hq. rewrite read_seed_fields by auto. destruct (5 <=? List.length q); intros X; discriminate X.
    + rewrite read_seed_fields by auto. revert Hx. destruct (5 <=? List.length r); [discriminate|auto].
Qed.
Lemma load_spheres_fields {F} (io : numio F) nd header rows : free_of newline header -> (forall r, In r rows -> good_fields r) ->
  load_spheres_csv io nd (csv header rows)
  = Ok (map (fun r => map (io_parse io) (firstn (nd + 1) r)) (filter (fun r => nd <? List.length r) rows)).
Proof.
  intros Hh Hr. unfold load_spheres_csv. rewrite csv_lines by auto. cbn [tl]. clear Hh.
  induction rows as [|r rows IH]; auto. cbn [map load_rows filter]. rewrite tokens_join by (apply Hr; now left).
  cbn [bind]. rewrite Nat.leb_antisym. destruct (Nat.ltb_spec nd (List.length r)); cbn [negb].
  - rewrite parse_from_ok by lia. cbn [bind skipn]. rewrite IH by (intros; apply Hr; now right). reflexivity.
  - apply IH. intros; apply Hr; now right.
Qed.

(** A file of points without normals, such as a sizing file. *)
Lemma load_points (io : numio R) need nd num_dim header hf rows :
  0 < nd <= num_dim -> header = join comma hf -> good_fields hf -> List.length hf < num_dim + nd ->
  rows <> [] -> (forall r, In r rows -> good_fields r /\ num_dim <= List.length r) ->
  exists s, load_tree_csv io need num_dim (st_new nd) (csv header rows) = Ok s /\ ready s /\ st_nd s = nd
    /\ holds s (map (fun r => It (map (io_parse io) (firstn num_dim r)) (repeat 0%R nd) None) rows).
Proof.
  intros Hnd -> Hf Hl Hne Hr. unfold load_tree_csv.
  rewrite csv_lines; [|now apply join_no_newline|intros; now apply Hr].
  rewrite tokens_join by auto. cbn [bind].
  set (mk := fun r => OpAdd (map (io_parse io) (firstn num_dim r)) None None).
  assert (X : forall s : stree R, st_nd s = nd ->
     load_tree_rows io need num_dim (List.length hf) s (map (join comma) rows) = run need s (map mk rows)).
  { clear Hne. induction rows as [|r rows IH]; intros s Hs; auto. cbn [map load_tree_rows run step mk].
    destruct (Hr r (or_introl eq_refl)) as (G & L). unfold load_tree_row. rewrite tokens_join by auto. cbn [bind].
    rewrite Hs, parse_from_ok by lia. cbn [bind skipn].
    destruct (Nat.leb_spec (num_dim + nd) (List.length hf)); [lia|].
    destruct (Nat.ltb_spec (num_dim + nd) (List.length hf)); [lia|]. cbn [bind].
    destruct (add_point _ _ _ _ _) as [s1| |] eqn:E; auto. cbn [bind]. apply IH; [intros; apply Hr; now right|].
    apply add_point_nd in E. congruence. }
  rewrite X by reflexivity. destruct rows as [|r rows]; [congruence|].
  assert (GA : forall i, In i (r :: rows) -> good_args nd (map (io_parse io) (firstn num_dim i)) None None).
  { intros i Hi. destruct (Hr i Hi). split; [rewrite map_length, firstn_length; lia|]. split; discriminate. }
  destruct (@history_ok nd (proj1 Hnd) need (map (io_parse io) (firstn num_dim r)) None None (map mk rows)) as (s' & l & E & [I1 I2 I3 I4 I5] & _ & _ & Ex).
  { apply GA. now left. }
  { apply Forall_forall. intros o Ho. apply in_map_iff in Ho as (i & <- & Hi). apply GA. now right. }
  assert (El : l = map (fun r => It (map (io_parse io) (firstn num_dim r)) (repeat 0%R nd) None) (r :: rows)).
  { rewrite Ex.
    - change (OpAdd (map (io_parse io) (firstn num_dim r)) None None :: map mk rows) with (map mk (r :: rows)).
      generalize (r :: rows) as L. induction L as [|i L IH]; auto. cbn [mk map added]. now rewrite IH.
    - apply Forall_forall. intros o Ho. apply in_map_iff in Ho as (i & <- & _). exact I. }
  subst l. exists s'. split; [exact E|]. split; [|split; auto]. split; [rewrite I1; lia|].
  split; [|split; [rewrite I1; exact I3|auto]]. destruct I2 as (-> & _). discriminate.
Qed.

(** A concrete way to print and read: whole numbers. *)
Definition io_N : numio N := IO show_nat string_to_size_t.
Definition io_R : numio R := IO (fun v => show_nat (Z.to_N (Int_part v))) (fun s => IZR (Z.of_N (string_to_size_t s))).
Lemma io_N_plain : plain_io io_N.
Proof. split; [intros; apply show_nat_word|]. reflexivity. Qed.
Lemma io_R_plain : plain_io io_R.
Proof. split; [intros; apply show_nat_word|]. reflexivity. Qed.
Lemma io_N_numbers : reads_numbers io_N (fun n => Z.of_N n - 1)%Z.
Proof. intros n Hn. cbn [io_N io_parse]. rewrite size_t_show; auto. transitivity (2 ^ 53 + 1)%N; [lia|reflexivity]. Qed.
