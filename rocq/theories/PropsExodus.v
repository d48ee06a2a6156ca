(** C50: the Exodus writer as a protocol over an arbitrary library. *)
From Coq Require Import String QArith Qround.
From Verif Require Import Base Exodus ExodusSpec ExodusProofs.
Local Open Scope Z_scope.

(** Whatever methods are called, with whatever arguments and whatever the library
    answers, every library call carries an identifier that is open at that moment,
    or -1; and after the destructor the same holds of the whole history. *)
Theorem C50_identifiers :
  forall lib ops wh wh',
    run lib ops (new_writer, []) = Ok wh -> destroy lib wh = Ok wh' ->
    forall later c r earlier i,
      snd wh' = (later ++ (c, r) :: earlier)%list -> call_id c = Some i ->
      i = -1 \/ is_open earlier i.
Proof.
  intros lib ops wh wh' E D later c r earlier i Es Hi.
  assert (HA : all_open (snd (new_writer, @nil (call * reply)))).
  { intros h2 c0 r0 h1 j Ej. destruct h2; discriminate Ej. }
  pose proof (@run_inv _ _ _ _ inv_new E) as HI.
  pose proof (@run_all_open _ _ _ _ inv_new HA E) as HA'.
  exact (@destroy_all_open _ _ _ HI HA' D _ _ _ _ _ Es Hi).
Qed.
Print Assumptions C50_identifiers.

(** On a writer that has an open file, every call of every method except the
    creation of a further file carries the identifier that getExodusFileIdentifier
    reports, and that identifier is open. *)
Theorem C50_open_writer :
  forall lib ops wh o e wh',
    run lib ops (new_writer, []) = Ok wh -> has_open_file (fst wh) = true ->
    exec lib o wh = Ok (e, wh') ->
    is_open (snd wh) (exoid (fst wh)) /\
    exists new, snd wh' = (new ++ snd wh)%list /\
      forall c r i, In (c, r) new -> call_id c = Some i -> i = exoid (fst wh).
Proof.
  intros lib ops [w h] o e [w' h'] E Ho Ex. cbn [fst snd] in *.
  pose proof (@run_inv _ _ _ _ inv_new E) as [HI | [_ HI]]; cbn [fst snd] in HI.
  - unfold has_open_file in Ho. lia.
  - split; auto. destruct (@exec_shape _ _ _ _ _ _ _ Ex) as (new & En & Hn). exists new. split; auto.
    intros c r i Hin Hi. destruct (Hn _ _ Hin) as [Hc | Hc]; congruence.
Qed.
Print Assumptions C50_open_writer.

(** On a writer without an open file, the four guarded methods throw before any
    call; a second closeFile is such a case. *)
Theorem C50_closed_writer :
  forall lib o w h,
    has_open_file w = false -> guarded o = true ->
    exec lib o (w, h) = Ok (Throws, (w, h)).
Proof.
  intros lib o w h Ho Hg.
  assert (Hn : (exoid w <? 0) = true) by (unfold has_open_file in Ho; lia).
  destruct o; try discriminate Hg; cbn; unfold set_map, close_file;
    rewrite ?Ho, ?Hn; cbn; reflexivity.
Qed.
Print Assumptions C50_closed_writer.

(** A method that throws leaves the writer as it was. *)
Theorem C50_exceptions_keep_the_writer :
  forall lib o w h w' h', exec lib o (w, h) = Ok (Throws, (w', h')) -> w' = w.
Proof. exact throws_keeps. Qed.
Print Assumptions C50_exceptions_keep_the_writer.

(** If openFile is never called on a writer that has an open file, then after the
    destructor no file is left open. *)
Theorem C50_all_closed :
  forall lib ops wh wh',
    no_double_open lib ops (new_writer, []) ->
    run lib ops (new_writer, []) = Ok wh -> destroy lib wh = Ok wh' ->
    forall i, ~ is_open (snd wh') i.
Proof.
  intros lib ops wh wh' HN E D.
  destruct (@run_only _ _ _ _ inv_new (fun i (H : False) => match H with end) HN E) as [HI HA].
  exact (@destroy_closed _ _ _ HI HA D).
Qed.
Print Assumptions C50_all_closed.

(** A method that returns had no failing library call except the ones whose code
    is dropped; a method that throws had a failing one, or wrote nothing. *)
Theorem C50_failures_are_reported :
  forall lib o w h e w' h',
    exec lib o (w, h) = Ok (e, (w', h')) ->
    exists new, h' = (new ++ h)%list /\
      match e with
      | Returns => forall c r, In (c, r) new -> rc r < 0 -> unchecked c = true
      | Throws => (exists c r, In (c, r) new /\ unchecked c = false /\ rc r < 0) \/
                  (forall c r, In (c, r) new -> read_only c = true)
      end.
Proof. intros lib o w h [|] w' h' E; [apply returns_codes in E | apply throws_codes in E]; exact E. Qed.
Print Assumptions C50_failures_are_reported.

(** What is written: opening. *)
Theorem C50_open :
  forall lib p w h w' h',
    exec lib (OpenFile p) (w, h) = Ok (Returns, (w', h')) ->
    active_path w' = p /\ has_open_file w' = true /\
    exists r t, h' = (CCreate p, r) :: t /\ exoid w' = rc r /\
      (t = (CExists p, lib h (CExists p)) :: h /\ rc (lib h (CExists p)) <= 0 \/
       exists r', t = (CRemove p, r') :: (CExists p, lib h (CExists p)) :: h /\
                  0 < rc (lib h (CExists p))).
Proof.
  intros lib p w h w' h' E. open_exec E; cbn; (split; [reflexivity|]); (split; [unfold has_open_file; cbn; lia|]);
    eexists _, _; (split; [reflexivity|]); (split; [reflexivity|]).
  - right. eexists. split; [reflexivity | lia].
  - left. split; [reflexivity | lia].
Qed.
Print Assumptions C50_open.

(** What is written: closing. *)
Theorem C50_close :
  forall lib w h,
    has_open_file w = true ->
    exists r, exec lib CloseFile (w, h) = Ok (Returns, (new_writer, (CClose (exoid w), r) :: h)).
Proof. intros lib w h Ho. eexists. cbn. unfold close_file. rewrite Ho. cbn. reflexivity. Qed.
Print Assumptions C50_close.

(** What is written: initialisation and coordinates of one axis.  The values given,
    all of them, in order, as doubles, for the axis named and no other. *)
Theorem C50_initialize :
  forall lib par w h w' h',
    exec lib (InitializeFile par) (w, h) = Ok (Returns, (w', h')) ->
    w' = w /\ (String.length (ip_title par) <= 80)%nat /\ exists r, h' = (CInit (exoid w) par, r) :: h.
Proof.
  intros lib par w h w' h' E. open_exec E. split; auto. split; [| eexists; reflexivity].
  unfold title_room in *. lia.
Qed.
Print Assumptions C50_initialize.

Theorem C50_axis_coordinates :
  forall lib coords dim w h w' h',
    exec lib (SetCoordinatesOnAxis coords dim) (w, h) = Ok (Returns, (w', h')) ->
    exists l r, coords = Some l /\ 0 <= dim <= 2 /\ w' = w /\
      h' = (CCoord (exoid w) (if dim =? 0 then BDouble l else BNull)
                             (if dim =? 1 then BDouble l else BNull)
                             (if dim =? 2 then BDouble l else BNull), r) :: h.
Proof.
  intros lib coords dim w h w' h' E. open_exec E; eexists _, _; (split; [reflexivity|]); (split; [lia|]); split; auto.
  - replace (dim =? 1) with false by lia. replace (dim =? 2) with false by lia. reflexivity.
  - replace (dim =? 2) with false by lia. reflexivity.
Qed.
Print Assumptions C50_axis_coordinates.

(** What is written: blocks, connectivity, maps and node sets. *)
Theorem C50_blocks :
  forall lib ty blk descr en no ed fa at_ w h w' h',
    exec lib (DefineBlock ty blk descr en no ed fa at_) (w, h) = Ok (Returns, (w', h')) ->
    exists t r, ty = entity_name t /\ w' = w /\
      h' = (CPutBlock (exoid w) t blk descr en no ed fa at_, r) :: h.
Proof.
  intros lib ty blk descr en no ed fa at_ w h w' h' E. open_exec E.
  match goal with H : find_type _ = Some ?t |- _ => exists t; apply find_type_In in H end.
  eexists. split; [assumption|]. split; reflexivity.
Qed.
Print Assumptions C50_blocks.

Theorem C50_connectivity :
  forall lib ty blk nodes edges faces w h w' h',
    exec lib (SetBlockConnectivity ty blk nodes edges faces) (w, h) = Ok (Returns, (w', h')) ->
    exists t r q, ty = entity_name t /\ w' = w /\
      h' = (CConn (exoid w) t blk (list_buffer nodes) (list_buffer edges) (list_buffer faces), r)
           :: (CGetBlock (exoid w) t blk, q) :: h /\
      (0 <= r_entries q -> 0 <= r_nodes q -> fits nodes (r_entries q * r_nodes q)) /\
      (0 <= r_entries q -> 0 <= r_edges q -> fits edges (r_entries q * r_edges q)) /\
      (0 <= r_entries q -> 0 <= r_faces q -> fits faces (r_entries q * r_faces q)).
Proof.
  intros lib ty blk nodes edges faces w h w' h' E.
  assert (F : forall l a b t, int_mul a b = Ok t -> too_long l t = false -> 0 <= a -> 0 <= b -> fits l (a * b)).
  { intros l a b t Em Et Ha Hb. unfold int_mul in Em. destruct (in_int _); inversion Em; subst t.
    destruct l; cbn in *; auto. assert (0 <= a * b) by (apply Z.mul_nonneg_nonneg; auto).
    replace (a * b <? 0) with false in Et by lia. lia. }
  cbn in E. unfold set_block_connectivity, check, ask in E. cbn in E.
  destruct (find_type ty) as [t|] eqn:Ef; [|discriminate E]. cbn in E. apply find_type_In in Ef.
  destruct (rc _ <? 0); [discriminate E|].
  apply bind_Ok_inv in E as (tn & E1 & E). destruct (too_long nodes tn) eqn:E1'; [discriminate E|].
  apply bind_Ok_inv in E as (te & E2 & E). destruct (too_long edges te) eqn:E2'; [discriminate E|].
  apply bind_Ok_inv in E as (tf & E3 & E). destruct (too_long faces tf) eqn:E3'; [discriminate E|].
  destruct (rc _ <? 0); inversion E; subst.
  exists t. do 2 eexists. split; [reflexivity|]. split; [reflexivity|]. split; [reflexivity|].
  split; [|split]; intros; eapply F; eauto.
Qed.
Print Assumptions C50_connectivity.

Theorem C50_maps :
  forall lib node m w h w' h',
    exec lib (if node : bool then SetNodeMap m else SetElementMap m) (w, h) = Ok (Returns, (w', h')) ->
    exists l r, m = Some l /\ l <> [] /\ has_open_file w = true /\ w' = w /\
      h' = (CIdMap (exoid w) (if node then NODE_MAP else ELEM_MAP) l, r) :: h.
Proof.
  intros lib node m w h w' h' E.
  assert (Ho : has_open_file w = true).
  { destruct (has_open_file w) eqn:Ho; auto.
    destruct node; cbn in E; unfold set_map in E; rewrite Ho in E; discriminate E. }
  destruct node; open_exec E; eexists _, _; (split; [reflexivity|]); (split; [discriminate|]); auto.
Qed.
Print Assumptions C50_maps.

Theorem C50_node_sets :
  forall lib ent name l w h w' h',
    exec lib (DefineNodeSet ent name l) (w, h) = Ok (Returns, (w', h')) ->
    exists ns r1 r2 r3, l = Some ns /\ ns <> [] /\ w' = w /\
      h' = [ (CName (exoid w) NODE_SET ent name, r3);
             (CSet (exoid w) NODE_SET ent (BInt ns) BNull, r2);
             (CSetParam (exoid w) NODE_SET ent (Z.of_nat (List.length ns)) 0, r1) ] ++ h.
Proof.
  intros lib ent name l w h w' h' E. open_exec E.
  match goal with |- exists ns _ _ _, Some ?l = _ /\ _ => exists l end.
  do 3 eexists. split; [reflexivity|]. split; [|split; reflexivity].
  intros ->. discriminate.
Qed.
Print Assumptions C50_node_sets.

(* ------------------------------------------------------------------ *)
(** What the full statement wants and the code does not do. *)

(** A library that accepts everything and hands out 7 as identifier, and one that
    numbers the files it creates. *)
Definition ok_reply : reply := mk_reply 0 1 4 0 0.
Definition yes_lib : history -> call -> reply :=
  fun _ c => match c with CCreate _ => mk_reply 7 0 0 0 0 | _ => ok_reply end.
Definition creations (h : history) : Z :=
  Z.of_nat (List.length (filter (fun e => match fst e with CCreate _ => true | _ => false end) h)).
Definition counting_lib : history -> call -> reply :=
  fun h c => match c with CCreate _ => mk_reply (creations h) 0 0 0 0 | _ => ok_reply end.

(** Coordinates, blocks, names and sets reach the library with the identifier -1
    when no file is open, and are not refused. *)
Theorem C50_write_without_file_refuted :
  ~ (forall lib ops wh, run lib ops (new_writer, []) = Ok wh ->
     forall later c r earlier i,
       snd wh = (later ++ (c, r) :: earlier)%list -> call_id c = Some i -> is_open earlier i).
Proof.
  intros C.
  refine (C yes_lib [SetCoordinatesOnAxis (Some [1%Q]) 0] _ eq_refl [] _ _ _ (-1) eq_refl eq_refl).
Qed.
Print Assumptions C50_write_without_file_refuted.

(** openFile on a writer that has an open file is accepted, and the first file is
    never closed, not even by the destructor. *)
Theorem C50_double_open_refuted :
  ~ (forall lib ops wh wh',
     run lib ops (new_writer, []) = Ok wh -> destroy lib wh = Ok wh' ->
     forall i, ~ is_open (snd wh') i).
Proof.
  intros C.
  refine (C counting_lib [OpenFile "a"; OpenFile "b"] _ _ eq_refl eq_refl 0 _).
  cbn. split; [discriminate|]. right. left. split; [lia | reflexivity].
Qed.
Print Assumptions C50_double_open_refuted.

(** setCoordinates never passes the coordinates given: whatever is in the lists,
    what reaches a library that was told to expect doubles is an array of ints, the
    truncations; a coordinate that does not fit an int is undefined behaviour. *)
Theorem C50_set_coordinates_refuted :
  forall lib x y z w h e w' h',
    exec lib (SetCoordinates x y z) (w, h) = Ok (e, (w', h')) ->
    ~ (x = None /\ y = None /\ z = None) ->
    let ints := fun l => match l with None => BNull | Some l => BInt (map trunc l) end in
    exists r, h' = (CCoord (exoid w) (ints x) (ints y) (ints z), r) :: h.
Proof.
  intros lib x y z w h e w' h' E Hn ints.
  assert (B : forall l b, int_buffer l = Ok b -> b = ints l).
  { intros [l|] b Eb; cbn in Eb; [|inversion Eb; reflexivity].
    apply bind_Ok_inv in Eb as (zs & Ez & Eb). inversion Eb; subst. cbn.
    destruct (@to_ints_trunc _ _ Ez) as [-> _]. reflexivity. }
  cbn in E. unfold set_coordinates in E.
  assert (E' : (bx <- int_buffer x ;; by_ <- int_buffer y ;; bz <- int_buffer z ;;
                check w (ask lib h (CCoord (exoid w) bx by_ bz))) = Ok (e, (w', h'))).
  { destruct x, y, z; try exact E. exfalso. auto. }
  apply bind_Ok_inv in E' as (bx & Ex & E'). apply bind_Ok_inv in E' as (by_ & Ey & E').
  apply bind_Ok_inv in E' as (bz & Ez & E').
  rewrite (B _ _ Ex), (B _ _ Ey), (B _ _ Ez) in E'.
  unfold check, ask in E'. cbn in E'. destruct (rc _ <? 0); inversion E'; subst; eexists; reflexivity.
Qed.
Print Assumptions C50_set_coordinates_refuted.

(** Two different point sets are written as the same array, and a large coordinate
    is undefined behaviour. *)
Theorem C50_set_coordinates_not_injective_refuted :
  exec yes_lib (SetCoordinates (Some [1 # 2]%Q) (Some [0]%Q) (Some [0]%Q)) (mk_writer 7 "a", []) =
  exec yes_lib (SetCoordinates (Some [1 # 4]%Q) (Some [0]%Q) (Some [0]%Q)) (mk_writer 7 "a", []) /\
  exec yes_lib (SetCoordinates (Some [4000000000]%Q) None None) (mk_writer 7 "a", []) = UB.
Proof. split; reflexivity. Qed.
Print Assumptions C50_set_coordinates_not_injective_refuted.

(** The library wants the elements of a side set as entry list and their sides as
    extra list; defineSideSet passes them the other way round. *)
Theorem C50_side_set_swapped_refuted :
  forall lib ent name els sides w h w' h',
    exec lib (DefineSideSet ent name (Some els) (Some sides)) (w, h) = Ok (Returns, (w', h')) ->
    exists r1 r2 r3 r4,
      h' = [ (CName (exoid w) SIDE_SET ent name, r4);
             (CSet (exoid w) SIDE_SET ent (BInt sides) (BInt els), r3);
             (CSetParam (exoid w) SIDE_SET ent (Z.of_nat (List.length sides)) 0, r2);
             (CSetParam (exoid w) SIDE_SET ent (Z.of_nat (List.length els)) 0, r1) ] ++ h.
Proof. intros lib ent name els sides w h w' h' E. open_exec E. do 4 eexists. reflexivity. Qed.
Print Assumptions C50_side_set_swapped_refuted.

(** A failure to name a set is not reported. *)
Theorem C50_name_failure_refuted :
  ~ (forall lib o w h w' h',
     exec lib o (w, h) = Ok (Returns, (w', h')) ->
     exists new, h' = (new ++ h)%list /\ forall c r, In (c, r) new -> 0 <= rc r).
Proof.
  intros C.
  set (lib := fun (_ : history) c => match c with CName _ _ _ _ => mk_reply (-1) 0 0 0 0 | _ => ok_reply end).
  destruct (C lib (DefineNodeSet 1 "s" (Some [1])) (mk_writer 7 "a") [] _ _ eq_refl) as (new & En & Hn).
  rewrite app_nil_r in En. subst new. specialize (Hn _ _ (or_introl eq_refl)). cbn in Hn. lia.
Qed.
Print Assumptions C50_name_failure_refuted.

(** The documented type name EX_ASSEMBLY is refused. *)
Theorem C50_assembly_refuted :
  forall lib blk descr en no ed fa at_ w h,
    exec lib (DefineBlock "EX_ASSEMBLY" blk descr en no ed fa at_) (w, h) = Ok (Throws, (w, h)).
Proof. reflexivity. Qed.
Print Assumptions C50_assembly_refuted.

(** A block with a negative count accepts any list; a title of more than 80
    characters overruns its array. *)
Theorem C50_negative_count_refuted :
  exists lib nodes w' h',
    exec lib (SetBlockConnectivity "EX_ELEM_BLOCK" 1 (Some nodes) None None) (mk_writer 7 "a", []) =
      Ok (Returns, (w', h')) /\
    exists q r, h' = [(CConn 7 ELEM_BLOCK 1 (BInt nodes) BNull BNull, r); (CGetBlock 7 ELEM_BLOCK 1, q)] /\
      r_entries q * r_nodes q < Z.of_nat (List.length nodes).
Proof.
  exists (fun _ _ => mk_reply 0 (-1) 4 0 0), [1; 2; 3]. do 2 eexists. split; [reflexivity|].
  do 2 eexists. split; [reflexivity|]. cbn. lia.
Qed.
Print Assumptions C50_negative_count_refuted.

Theorem C50_title_overrun_refuted :
  forall lib par w h,
    has_open_file w = true -> (80 < String.length (ip_title par))%nat ->
    exec lib (InitializeFile par) (w, h) = UB.
Proof.
  intros lib par w h Ho Hl. cbn. unfold has_open_file in Ho. unfold title_room.
  replace (exoid w <? 0) with false by lia.
  destruct (Z.ltb_spec 80 (Z.of_nat (String.length (ip_title par)))); [reflexivity | lia].
Qed.
Print Assumptions C50_title_overrun_refuted.

(* ------------------------------------------------------------------ *)
(** A whole session meets the hypotheses and writes what it should. *)
Definition session : list op :=
  [ CloseFile;
    OpenFile "tet.exo";
    InitializeFile (mk_init "one tetrahedron" 3 4 0 0 1 1 1 0);
    SetCoordinatesOnAxis (Some [0; 1 # 2; 0; 0])%Q 0;
    SetCoordinatesOnAxis (Some [0; 0; 1 # 2; 0])%Q 1;
    SetCoordinatesOnAxis (Some [0; 0; 0; 1 # 2])%Q 2;
    SetCoordinatesOnAxis (Some [0])%Q 3;
    DefineBlock "EX_ELEM_BLOCK" 10 "TETRA" 1 4 0 0 0;
    SetBlockConnectivity "EX_ELEM_BLOCK" 10 (Some [1; 2; 3; 4]) None None;
    SetBlockConnectivity "EX_ELEM_BLOCK" 10 (Some [1; 2; 3; 4; 5]) None None;
    SetNodeMap (Some [1; 2; 3; 4]);
    DefineNodeSet 1 "base" (Some [1; 2; 3]) ].

Example C50_hypotheses :
  no_double_open counting_lib session (new_writer, []) /\
  exists wh wh', run counting_lib session (new_writer, []) = Ok wh /\
    has_open_file (fst wh) = true /\ destroy counting_lib wh = Ok wh'.
Proof.
  split.
  - cbn. repeat split; intros; congruence.
  - do 2 eexists. repeat split; reflexivity.
Qed.

Example C50_run :
  match run counting_lib session (new_writer, []) with
  | Ok wh =>
      exoid (fst wh) = 0 /\ active_path (fst wh) = "tet.exo"%string /\
      map fst (rev (snd wh)) =
      [ CExists "tet.exo"; CCreate "tet.exo";
        CInit 0 (mk_init "one tetrahedron" 3 4 0 0 1 1 1 0);
        CCoord 0 (BDouble [0; 1 # 2; 0; 0])%Q BNull BNull;
        CCoord 0 BNull (BDouble [0; 0; 1 # 2; 0])%Q BNull;
        CCoord 0 BNull BNull (BDouble [0; 0; 0; 1 # 2])%Q;
        CPutBlock 0 ELEM_BLOCK 10 "TETRA" 1 4 0 0 0;
        CGetBlock 0 ELEM_BLOCK 10;
        CConn 0 ELEM_BLOCK 10 (BInt [1; 2; 3; 4]) BNull BNull;
        CGetBlock 0 ELEM_BLOCK 10;
        CIdMap 0 NODE_MAP [1; 2; 3; 4];
        CSetParam 0 NODE_SET 1 3 0; CSet 0 NODE_SET 1 (BInt [1; 2; 3]) BNull;
        CName 0 NODE_SET 1 "base" ]
  | _ => False
  end.
Proof. repeat split; reflexivity. Qed.
