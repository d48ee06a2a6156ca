(** C14, C21, C48, C49: text files and the command line. *)
From Coq Require Import Ascii String Reals Lra.
From Verif Require Import Base Num SmartTree Vec KdSpec SmartTreeSpec Text TextSpec TextProofs TextFilesProofs TextTreeProofs.
Local Open Scope list_scope.
Local Open Scope nat_scope.

(** ** C14: comma separated files *)
(** Splitting a line: the tokens joined again are the line, none contains the
    separator; and a line joined from such tokens is split into them. *)
Theorem C14_split_join sep line :
  exists toks, get_tokens sep line = Ok toks /\ toks <> [] /\ join sep toks = line
    /\ forall t, In t toks -> free_of sep t.
Proof.
  exists (split_on sep line). split; [apply get_tokens_split|]. split; [apply split_nonempty|].
  split; [apply join_split|]. apply split_free.
Qed.
Theorem C14_join_split sep toks :
  toks <> [] -> (forall t, In t toks -> free_of sep t) -> get_tokens sep (join sep toks) = Ok toks.
Proof. intros N F. rewrite get_tokens_split, split_join; auto. Qed.
(** In particular a blank line has one (empty) token: tests for "no token" never hold. *)
Theorem C14_blank_line_has_token sep : get_tokens sep [] = Ok [[]].
Proof. reflexivity. Qed.

(** Whole numbers are read back, leading blanks or not. *)
Theorem C14_numbers n : (n < 2 ^ 64)%N ->
  string_to_size_t (show_nat n) = n /\ string_to_size_t (blank :: show_nat n) = n.
Proof. intros H. rewrite size_t_blank, size_t_show; auto. Qed.

(** seeds.csv: every record comes back, in order. *)
Theorem C14_seeds_roundtrip {F} (io : numio F) (l : list (seed F)) :
  plain_io io -> (forall s, In s l -> List.length (sd_x s) = 3 /\ (sd_region s < 2 ^ 64)%N) ->
  read_seeds_csv io (save_seeds io 3 l) = Ok (map (reread_seed io) l).
Proof. intros. now apply seeds_roundtrip. Qed.
(** Exactly the same records if the numbers survive printing. *)
Theorem C14_seeds_identical {F} (io : numio F) (l : list (seed F)) :
  plain_io io -> (forall s, In s l -> List.length (sd_x s) = 3 /\ (sd_region s < 2 ^ 64)%N) ->
  (forall s v, In s l -> In v (sd_size s :: sd_x s) -> reread io v = v) ->
  read_seeds_csv io (save_seeds io 3 l) = Ok l.
Proof.
  intros P H E. rewrite seeds_roundtrip; auto. f_equal. transitivity (map (fun s => s) l); [|apply map_id].
  apply map_ext_in. intros [x sz rg] Hs. unfold reread_seed. cbn [sd_x sd_size sd_region]. f_equal.
  - transitivity (map (fun v => v) x); [|apply map_id]. apply map_ext_in. intros v Hv. eapply E; eauto. now right.
  - eapply E; eauto. now left.
Qed.
Example C14_seeds_example :
  let l := [Seed [1; 20; 300]%N 7%N 4%N; Seed [5; 0; 18446744073709551615]%N 1%N 0%N] in
  read_seeds_csv io_N (save_seeds io_N 3 l) = Ok l
  /\ (forall s, In s l -> List.length (sd_x s) = 3 /\ (sd_region s < 2 ^ 64)%N) /\ plain_io io_N.
Proof.
  intros l. split; [vm_compute; reflexivity|]. split; [|apply io_N_plain].
  intros s [<-|[<-|[]]]; split; reflexivity.
Qed.

(** Sphere files. *)
Theorem C14_spheres_roundtrip {F} (io : numio F) num_dim l :
  plain_io io -> (forall s, In s l -> List.length s = num_dim + 1) ->
  load_spheres_csv io num_dim (save_spheres io num_dim l) = Ok (map (map (reread io)) l).
Proof. intros. now apply spheres_roundtrip. Qed.
Example C14_spheres_example :
  load_spheres_csv io_N 2 (save_spheres io_N 2 [[1; 2; 3]; [40; 50; 60]]%N) = Ok [[1; 2; 3]; [40; 50; 60]]%N.
Proof. vm_compute. reflexivity. Qed.

(** Any file at all: which rows are read, which are skipped, which run off the row. *)
Theorem C14_seeds_any_file {F} (io : numio F) header rows :
  free_of newline header -> (forall r, In r rows -> good_fields r) ->
  read_seeds_csv io (csv header rows) =
    if forallb (fun r => 5 <=? List.length r) rows
    then Ok (map (fun r => Seed [io_parse io (field 0 r); io_parse io (field 1 r); io_parse io (field 2 r)]
                             (io_parse io (field 3 r)) (string_to_size_t (field 4 r))) rows)
    else UB.
Proof. apply read_seeds_fields. Qed.
Theorem C14_spheres_any_file {F} (io : numio F) num_dim header rows :
  free_of newline header -> (forall r, In r rows -> good_fields r) ->
  load_spheres_csv io num_dim (csv header rows)
  = Ok (map (fun r => map (io_parse io) (firstn (num_dim + 1) r)) (filter (fun r => num_dim <? List.length r) rows)).
Proof. apply load_spheres_fields. Qed.
Example C14_any_file_example :
  read_seeds_csv io_N (csv (lit "x,y,z,r,id") [[lit "1"; lit " 2"; lit "3"; lit "4"; lit "5"; lit "more"]])
  = Ok [Seed [1; 2; 3]%N 4%N 5%N]
  /\ load_spheres_csv io_N 1 (csv (lit "x,r") [[lit "1"; lit " 2"]; [lit ""]; [lit "3"; lit "4"; lit "5"]])
     = Ok [[1; 2]; [3; 4]]%N.
Proof. vm_compute. split; reflexivity. Qed.

(** A blank line in a seeds file or a tree file is read out of bounds. *)
Theorem C14_blank_line_refuted (io : numio R) need num_dim nd header hf (s : stree R) :
  free_of newline header -> 0 < num_dim -> get_tokens comma header = Ok hf ->
  read_seeds_csv io (unlines [header; []]) = UB
  /\ (1 < num_dim \/ num_dim + nd <= List.length hf /\ 0 < nd -> st_nd s = nd ->
      load_tree_csv io need num_dim s (unlines [header; []]) = UB).
Proof.
  intros Hh Hd Ht. split.
  - unfold read_seeds_csv. rewrite getlines_unlines; [reflexivity|]. intros l [<-|[<-|[]]]; auto. intros [].
  - intros Hc Hs. unfold load_tree_csv. rewrite getlines_unlines.
    2:{ intros l [<-|[<-|[]]]; auto. intros []. }
    rewrite Ht. cbn [bind load_tree_rows]. unfold load_tree_row. change (get_tokens comma []) with (Ok [[]] : res (list text)).
    cbn [bind]. rewrite Hs. destruct num_dim as [|[|d]]; [lia| |reflexivity].
    cbn [parse_from token get nth_error bind]. destruct Hc as [Hc|(Hc & Hn)]; [lia|].
    destruct (Nat.leb_spec (1 + nd) (List.length hf)); [|lia]. destruct nd; [lia|]. reflexivity.
Qed.

(** Tree files: points, normals and attribute blocks come back, in a valid tree. *)
Theorem C14_tree_roundtrip (io : numio R) need nd num_dim cap (s : stree R) items :
  plain_io io -> 0 < nd <= num_dim -> items <> [] -> st_nd s = nd -> holds s items ->
  (forall it, In it items -> num_dim <= List.length (it_x it) /\ List.length (it_n it) = nd /\ uniform_block cap (it_a it)) ->
  exists file s', save_tree_csv io num_dim s = Ok file
    /\ load_tree_csv io need num_dim (st_new nd) file = Ok s'
    /\ ready s' /\ st_nd s' = nd
    /\ holds s' (map (fun it => It (map (reread io) (firstn num_dim (it_x it)))
                                   (map (reread io) (firstn nd (it_n it))) (it_a it)) items).
Proof. intros P (A & B) Hne Hs Hh G. exact (@tree_roundtrip io need nd num_dim cap P A B s items Hne Hs Hh G). Qed.
(** A file of points only (the sizing file: num_dim = 4, nd = 3). *)
Theorem C14_sizing_file (io : numio R) need nd num_dim hf rows :
  0 < nd <= num_dim -> good_fields hf -> List.length hf < num_dim + nd ->
  rows <> [] -> (forall r, In r rows -> good_fields r /\ num_dim <= List.length r) ->
  exists s, load_tree_csv io need num_dim (st_new nd) (csv (join comma hf) rows) = Ok s /\ ready s /\ st_nd s = nd
    /\ holds s (map (fun r => It (map (io_parse io) (firstn num_dim r)) (repeat 0%R nd) None) rows).
Proof. intros. now apply (@load_points io need nd num_dim (join comma hf) hf rows). Qed.
Example C14_tree_example :
  exists (s : stree R) items, items <> [] /\ holds s items /\ st_nd s = 2
    /\ (forall it, In it items -> 3 <= List.length (it_x it) /\ List.length (it_n it) = 2 /\ uniform_block 3 (it_a it))
    /\ plain_io io_R.
Proof.
  exists (ST 2 100 [[1; 2; 3]; [4; 5; 6]]%R (Some [[1; 0]; [0; 1]]%R) (Some [Some [3; 3; 7]; Some [3; 3; 8]]) ([0; 1], [1; 1]) 0 2 [] []).
  exists [It [1; 2; 3]%R [1; 0]%R (Some [3; 3; 7]); It [4; 5; 6]%R [0; 1]%R (Some [3; 3; 8])].
  split; [discriminate|]. split; [repeat split|]. split; [reflexivity|]. split; [|apply io_R_plain].
  intros it [<-|[<-|[]]]; (split; [simpl; lia|split; [reflexivity|split; [lia|split; [reflexivity|split; [reflexivity|]]]]]);
    intros v [<-|[<-|[<-|[]]]]; reflexivity.
Qed.

(** Sixteen significant digits do not identify a double: 1 and the next double. *)
Theorem C14_sixteen_digits_refuted (io : numio R) :
  (forall v w, same16 v w -> io_show io v = io_show io w) ->
  exists v w : R, is_double v /\ is_double w /\ v <> w /\ reread io v = reread io w.
Proof.
  intros H. exists 1%R, (1 + / 4503599627370496)%R. split; [|split; [|split]].
  - exists 1%Z, 0%Z. split; [reflexivity|]. split; [lia|]. simpl. lra.
  - exists 4503599627370497%Z, (-52)%Z. split; [reflexivity|]. split; [lia|].
    change (powerRZ 2 (-52)) with (/ 2 ^ 52)%R. replace (2 ^ 52)%R with 4503599627370496%R by (rewrite pow_IZR; reflexivity). lra.
  - lra.
  - unfold reread. f_equal. apply H. exists 1000000000000000%Z, (-15)%Z. split; [split; reflexivity || discriminate|].
    change (powerRZ 10 (-15)) with (/ 10 ^ 15)%R. replace (10 ^ 15)%R with 1000000000000000%R by (rewrite pow_IZR; reflexivity).
    split; apply Rabs_def1; lra.
Qed.

(** ** C21: surface files *)
(** Vertices are the v lines and faces the f lines, in order; other lines are ignored. *)
Theorem C21_read {F} (io : numio F) to_index lines :
  (forall l, In l lines -> free_of newline l) ->
  (forall l, In l lines -> starts "v" l = true \/ starts "f" l = true -> 4 <= List.length (words l)) ->
  read_obj io to_index (unlines lines)
  = Ok (Obj (map (vertex_of io) (with_first "v" lines)) (map (face_of io to_index) (with_first "f" lines))).
Proof. intros N H. unfold read_obj. rewrite getlines_unlines by auto. now rewrite read_obj_lines_ok. Qed.
Example C21_read_example :
  read_obj io_N (fun n => Z.of_N n - 1)%Z
    (unlines [lit "# comment"; lit ""; lit "v 1 2  3"; lit "v 4 5 6 9"; lit "v 7 8 9"; lit "vn 0 0 1"; lit "f 1/1 2//3 3"])
  = Ok (Obj [[1; 2; 3]; [4; 5; 6]; [7; 8; 9]]%N [[0; 1; 2]%Z]).
Proof. vm_compute. reflexivity. Qed.
(** A saved mesh is read back. *)
Theorem C21_roundtrip {F} (io : numio F) to_index (o : obj F) :
  plain_io io -> reads_numbers io to_index ->
  (forall p, In p (ob_pts o) -> List.length p = 3) ->
  (forall f, In f (ob_faces o) -> List.length f = 3 /\ forall z, In z f -> (0 <= z < 2 ^ 53)%Z) ->
  exists file, save_obj io o = Ok file
    /\ read_obj io to_index file = Ok (Obj (map (map (reread io)) (ob_pts o)) (ob_faces o)).
Proof. intros. now apply obj_roundtrip. Qed.
Example C21_roundtrip_hypotheses : plain_io io_N /\ reads_numbers io_N (fun n => Z.of_N n - 1)%Z.
Proof. split; [apply io_N_plain|apply io_N_numbers]. Qed.
(** The triangles of merged models are those of the models, in order. *)
Theorem C21_merge {F} (ms : list (obj F)) :
  (forall m, In m ms -> valid_faces m) ->
  ob_pts (merge_models ms) = flat_map (@ob_pts F) ms
  /\ triangles (merge_models ms) = flat_map triangles ms
  /\ valid_faces (merge_models ms).
Proof.
  intros H. unfold merge_models. destruct (@merge_ok F ms (Obj [] [])) as (A & B & C); auto. intros f [].
Qed.
Example C21_merge_example :
  let m := Obj [[0]; [1]; [2]]%N [[0; 1; 2]]%Z in
  valid_faces m /\ ob_faces (merge_models [m; m]) = [[0; 1; 2]; [3; 4; 5]]%Z.
Proof.
  split; [|reflexivity]. intros f [<-|[]] z Hz. simpl in Hz. simpl. lia.
Qed.
(** A face with four corners loses the fourth, and a short line is read out of bounds. *)
Theorem C21_quads_truncated_refuted {F} (io : numio F) to_index a b c d l :
  words l = [lit "f"; a; b; c; d] -> free_of newline l ->
  exists f, read_obj io to_index (unlines [l]) = Ok (Obj [] [f]) /\ List.length f = 3.
Proof.
  intros W N. exists (face_of io to_index l). split; [|reflexivity].
  assert (S1 : starts "v" l = false) by (unfold starts; rewrite W; reflexivity).
  assert (S2 : starts "f" l = true) by (unfold starts; rewrite W; reflexivity).
  rewrite C21_read.
  - unfold with_first. cbn [filter]. rewrite S1, S2. reflexivity.
  - intros k [<-|[]]; auto.
  - intros k [<-|[]] _. rewrite W. simpl. lia.
Qed.
Theorem C21_short_line_refuted {F} (io : numio F) to_index l a b :
  words l = [lit "v"; a; b] \/ words l = [lit "f"; a; b] -> free_of newline l ->
  read_obj io to_index (unlines [l]) = UB.
Proof.
  intros W N. unfold read_obj. rewrite getlines_unlines by (intros k [<-|[]]; auto). cbn [read_obj_lines].
  destruct W as [W|W]; rewrite W; reflexivity.
Qed.

(** ** C48: configuration files *)
(** When every line that needs a value has one, each parameter has the value of the
    last line that sets it (or its default), and input files are listed in order. *)
Theorem C48_configuration {F} `{Num F} (io : numio F) lines :
  (forall l, In l lines -> free_of newline l) -> (forall l, In l lines -> complete l) ->
  exists c, read_config io (unlines lines) = Ok c
    /\ cf_files c = map (word 2) (filter (fun l => starts "INPUT_MESH_FILE" l || starts "SEEDS_FILE" l) lines)
    /\ cf_sizing c = setting "SIZING_FILE" lines [] (fun t => t)
    /\ cf_rmin c = setting "R_MIN" lines n0 (io_parse io)
    /\ cf_rmax c = setting "R_MAX" lines dbl_max (io_parse io)
    /\ cf_lip c = setting "LIP_CONST" lines (nlit 1 1) (io_parse io)
    /\ cf_angle c = setting "VC_ANGLE" lines (nofZ 20) (io_parse io)
    /\ cf_threads c = setting "NUM_THREADS" lines 1%Z (fun t => ntrunc (io_parse io t))
    /\ cf_vcg c = flag "GENERATE_VCG_FILE" lines
    /\ cf_exodus c = flag "GENERATE_EXODUS_FILE" lines
    /\ cf_mon c = flag "GENERATE_MONITORING_POINTS" lines
    /\ cf_imp c = flag "IMPOSE_MONITORING_POINTS" lines
    /\ cf_seeds c = flag "GENERATE_MESH_FROM_SEEDS" lines.
Proof.
  intros N C. unfold read_config. rewrite getlines_unlines by auto.
  exact (@cfg_lines_ok F _ io lines cfg_default C).
Qed.
(** Otherwise the value is read out of bounds. *)
Theorem C48_missing_value_refuted {F} `{Num F} (io : numio F) lines l :
  (forall l, In l lines -> free_of newline l) -> In l lines -> ~ complete l ->
  read_config io (unlines lines) = UB.
Proof. intros N Hl C. unfold read_config. rewrite getlines_unlines by auto. eapply cfg_lines_bad; eauto. Qed.
(** A setting written without blanks around the equal sign is ignored. *)
Theorem C48_no_blanks_ignored_refuted {F} `{Num F} (io : numio F) v :
  is_word v -> read_config io (unlines [lit "R_MIN=" ++ v]) = Ok cfg_default.
Proof.
  intros V. assert (W : is_word (lit "R_MIN=" ++ v)).
  { split; [discriminate|]. intros a Ha. apply in_app_or in Ha as [Ha|Ha]; [|now apply V].
    cbn in Ha. intuition (subst; reflexivity). }
  unfold read_config. rewrite getlines_unlines by (intros k [<-|[]]; now apply word_no_newline).
  cbn [cfg_lines]. unfold cfg_line. rewrite (words_last W). reflexivity.
Qed.
Example C48_example :
  let lines := [lit "INPUT_MESH_FILE = a.obj"; lit ""; lit "R_MAX = 5"; lit "GENERATE_VCG_FILE";
                lit "SOMETHING"; lit "INPUT_MESH_FILE = b.obj"; lit "R_MAX = 7"] in
  (forall l, In l lines -> complete l) /\ setting "R_MAX" lines 0%N string_to_size_t = 7%N
  /\ map (word 2) (with_first "INPUT_MESH_FILE" lines) = [lit "a.obj"; lit "b.obj"].
Proof.
  intros lines. split; [|split; vm_compute; reflexivity].
  intros l Hl k Hk Es. cbn [In valued_keys lines] in *.
  repeat (destruct Hl as [<-|Hl]; [vm_compute; repeat (destruct Hk as [<-|Hk]; [revert Es; vm_compute; try discriminate; lia|]); destruct Hk|]). destruct Hl.
Qed.
(** Which job runs.  Without an input file the first name is read out of bounds; and
    with seeds, the first file of either kind is taken for the seeds. *)
Theorem C48_job {F} `{Num F} (c : config F) :
  choose_job c = match cf_files c with
                 | [] => UB
                 | f :: _ => Ok (if cf_seeds c then MeshFromSeeds f else MeshModels (cf_files c))
                 end.
Proof. unfold choose_job. destruct (cf_files c) as [|f [|g r]], (cf_seeds c); reflexivity. Qed.
Theorem C48_seeds_file_shadowed_refuted {F} `{Num F} (io : numio F) :
  exists c, read_config io (unlines [lit "INPUT_MESH_FILE = a.obj"; lit "SEEDS_FILE = seeds.csv"; lit "GENERATE_MESH_FROM_SEEDS"]) = Ok c
    /\ choose_job c = Ok (MeshFromSeeds (lit "a.obj")).
Proof. eexists. split; reflexivity. Qed.

(** ** C49: the command line *)
Theorem C49_command_line args :
  match run_cli args with
  | Usage code => (code = 0 /\ (args = [] \/ In (lit "-h") args))
                  \/ (code = 1 /\ args <> [] /\ ~ In (lit "-h") args /\ ~ In (lit "-vc") args
                      /\ ~ In (lit "-subdivision_smooth") args)
  | RunVC f => ~ In (lit "-h") args /\ option_arg (lit "-vc") args f
  | Throw => ~ In (lit "-h") args /\
             ((In (lit "-vc") args /\ forall f, ~ option_arg (lit "-vc") args f)
              \/ (~ In (lit "-vc") args /\ In (lit "-subdivision_smooth") args
                  /\ forall f, ~ option_arg (lit "-subdivision_smooth") args f))
  | RunNothing => ~ In (lit "-h") args /\ ~ In (lit "-vc") args
                  /\ exists f, option_arg (lit "-subdivision_smooth") args f
  end.
Proof.
  unfold run_cli.
  assert (NX : forall o, option_exists args o = false -> ~ In o args).
  { intros o E Hin. apply option_exists_ok in Hin. congruence. }
  assert (NV : forall o, option_value args o = None -> forall f, ~ option_arg o args f).
  { intros o E f Hf. apply option_value_ok in Hf. congruence. }
  destruct (Nat.eqb_spec (List.length args) 0) as [E0|E0]; cbn [orb].
  { left. split; auto. left. destruct args; [auto|discriminate]. }
  assert (args <> []) by (intros ->; now apply E0).
  destruct (option_exists args (lit "-h")) eqn:Eh.
  { left. split; auto. right. now apply option_exists_ok. }
  apply NX in Eh. destruct (option_exists args (lit "-vc")) eqn:Ev.
  - apply option_exists_ok in Ev. destruct (option_value args (lit "-vc")) as [f|] eqn:Eo.
    + split; auto. now apply option_value_ok.
    + split; auto.
  - apply NX in Ev. destruct (option_exists args (lit "-subdivision_smooth")) eqn:Es.
    + apply option_exists_ok in Es. destruct (option_value args (lit "-subdivision_smooth")) as [f|] eqn:Eo.
      * split; auto. split; auto. exists f. now apply option_value_ok.
      * split; auto.
    + right. auto 10.
Qed.
(** The mesher runs, on f, exactly when -h is absent and f follows the first -vc. *)
Theorem C49_runs_exactly args f :
  run_cli args = RunVC f <-> ~ In (lit "-h") args /\ option_arg (lit "-vc") args f.
Proof.
  split.
  - intros E. pose proof (C49_command_line args) as X. now rewrite E in X.
  - intros (Nh & Hf). unfold run_cli. apply option_value_ok in Hf as Hv.
    destruct Hf as (b & c & -> & Nb).
    destruct (Nat.eqb_spec (List.length (b ++ lit "-vc" :: f :: c)) 0) as [E|E]; [rewrite app_length in E; simpl in E; lia|].
    destruct (option_exists _ (lit "-h")) eqn:Eh; [apply option_exists_ok in Eh; contradiction|]. cbn [orb].
    rewrite (proj2 (option_exists_ok _ (lit "-vc"))); [|apply in_or_app; right; now left]. now rewrite Hv.
Qed.
Example C49_example :
  run_cli [lit "-x"; lit "-vc"; lit "vc.in"; lit "-vc"] = RunVC (lit "vc.in") /\ run_cli [lit "-vc"] = Throw
  /\ run_cli [lit "file"] = Usage 1 /\ run_cli [lit "-vc"; lit "-h"] = Usage 0.
Proof. vm_compute. repeat split. Qed.

Print Assumptions C14_split_join.
Print Assumptions C14_join_split.
Print Assumptions C14_numbers.
Print Assumptions C14_seeds_roundtrip.
Print Assumptions C14_seeds_identical.
Print Assumptions C14_spheres_roundtrip.
Print Assumptions C14_seeds_any_file.
Print Assumptions C14_spheres_any_file.
Print Assumptions C14_blank_line_refuted.
Print Assumptions C14_tree_roundtrip.
Print Assumptions C14_sizing_file.
Print Assumptions C14_sixteen_digits_refuted.
Print Assumptions C21_read.
Print Assumptions C21_roundtrip.
Print Assumptions C21_merge.
Print Assumptions C48_configuration.
Print Assumptions C48_missing_value_refuted.
Print Assumptions C49_command_line.
Print Assumptions C49_runs_exactly.
