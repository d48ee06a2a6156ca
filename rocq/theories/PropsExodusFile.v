(** C73: the Exodus file contains the mesh. *)
From Coq Require Import String.
From Verif Require Import Base PolyMesh Exodus ExodusSave ExodusSaveSpec ExodusSaveProofs.
Local Open Scope Z_scope.

(** For every mesh whose counts fit an int: the function does not leave its arrays,
    and if it returns, exactly these calls were made, in this order, all with the
    identifier of the file created and all answered by 0; the coordinates are the
    converted coordinates of the vertices, and a reader that cuts the two
    connectivity arrays by the two arrays of counts gets the corners of every face
    and the faces of every cell that is not a ghost, in order. *)
Theorem C73_content :
  forall (D F : Type) (tofloat : D -> F) lib name (m : mesh (D := D)),
    fits_in_file m ->
    exists v h, save_exodus_file tofloat lib name m = Ok (v, h) /\
    (v = Saved ->
     exists id x y z fcounts fentries ccounts centries,
       let nf := Z.of_nat (m_num_faces m) in
       let nc := Z.of_nat (List.length (live_cells m)) in
       map fst (rev h) =
       [ SCreate name;
         SInit id 3 (Z.of_nat (m_num_vertices m)) nf 1 nc 1 0;
         SCoord id x y z;
         SCoordNames id ["x"; "y"; "z"];
         SBlock id FACE_BLOCK 10 "nsided" nf (Z.of_nat (List.length fentries)) 0 0 0;
         SNames id FACE_BLOCK ["face_block_1"];
         SConn id FACE_BLOCK 10 (Some fentries) None None;
         SCounts id FACE_BLOCK 10 fcounts;
         SBlock id ELEM_BLOCK 10 "nfaced" nc 0 0 (Z.of_nat (List.length centries)) 0;
         SNames id ELEM_BLOCK ["nfaced_1"];
         SConn id ELEM_BLOCK 10 None None (Some centries);
         SCounts id ELEM_BLOCK 10 ccounts;
         SQa id 2; SInfo id 3; SClose id ]%string /\
       nth_error (rev h) 0 = Some (SCreate name, id) /\
       (forall c r, In (c, r) (tl (rev h)) -> r = 0) /\
       holds_coordinate tofloat m 0 x /\ holds_coordinate tofloat m 1 y /\ holds_coordinate tofloat m 2 z /\
       decode fcounts fentries = map (fun i => map Z.of_nat (corners_of m i)) (seq 0 (m_num_faces m)) /\
       decode ccounts centries = map (fun i => map Z.of_nat (faces_of_cell m i)) (live_cells m) /\
       List.length fentries = List.length (flat_map (corners_of m) (seq 0 (m_num_faces m))) /\
       List.length centries = List.length (flat_map (faces_of_cell m) (live_cells m))).
Proof.
  intros D F tofloat lib name m ok. unfold save_exodus_file, prepare.
  destruct (@coordinate_array_go D F tofloat m ok 0%nat ltac:(lia)) as (x & Ex & Hx).
  destruct (@coordinate_array_go D F tofloat m ok 1%nat ltac:(lia)) as (y & Ey & Hy).
  destruct (@coordinate_array_go D F tofloat m ok 2%nat ltac:(lia)) as (z & Ez & Hz).
  rewrite Ex, Ey, Ez, (@face_arrays_go D m ok), (@cell_arrays_go D m ok). cbn [bind].
  set (a := mk_arrays _ _ _ _ _ _ _).
  set (id := lib [] (SCreate name)).
  destruct (steps lib id _ _) as [v h] eqn:E. exists v, h. split; [reflexivity|]. intros ->.
  apply steps_saved in E.
  exists id, x, y, z, (a_corners a), (a_face_entries a), (a_cell_counts a), (a_cell_entries a).
  assert (Hr : rev h = (SCreate name, id) :: map (fun c => (c, 0)) (file_calls m a id ++ [SClose id])).
  { rewrite E, rev_app_distr, rev_involutive. reflexivity. }
  rewrite Hr. cbn zeta. split; [|split; [reflexivity|split; [|split; [exact Hx|split; [exact Hy|split; [exact Hz|]]]]]].
  - cbn [map fst]. rewrite map_map. cbn [fst]. rewrite map_id. unfold file_calls. cbn [app].
    rewrite (@int_of_size_small (m_num_faces m)) by apply (ff_num_faces ok).
    rewrite (@int_of_size_small (m_num_vertices m)) by apply (ff_num_vertices ok).
    cbn [a_cell_counts a_face_entries a_cell_entries a_corners a_x a_y a_z a].
    rewrite !map_length, !succs_length.
    rewrite (@int_of_size_small (List.length (live_cells m))) by apply (ff_num_cells ok).
    rewrite (@int_of_size_small (List.length (flat_map (corners_of m) _))) by apply (ff_total_corners ok).
    rewrite (@int_of_size_small (List.length (flat_map (faces_of_cell m) _))) by apply (ff_total_cells ok).
    reflexivity.
  - intros c r Hin. cbn [tl] in Hin. apply in_map_iff in Hin as (c0 & Hc & _). congruence.
  - cbn [a a_corners a_face_entries a_cell_counts a_cell_entries].
    rewrite !succs_length, !flat_map_concat_map.
    split; [|split; [|split; reflexivity]].
    + rewrite <- (map_map (corners_of m) (fun l => Z.of_nat (List.length l))), decode_encode, map_map. reflexivity.
    + rewrite <- (map_map (faces_of_cell m) (fun l => Z.of_nat (List.length l))), decode_encode, map_map. reflexivity.
Qed.
Print Assumptions C73_content.

(** The function returns exactly when no call after the creation fails. *)
Theorem C73_returns :
  forall (D F : Type) (tofloat : D -> F) lib name (m : mesh (D := D)),
    fits_in_file m -> (forall h c, (forall n, c <> SCreate n) -> lib h c = 0) ->
    exists h, save_exodus_file tofloat lib name m = Ok (Saved, h).
Proof.
  intros D F tofloat lib name m ok Hl. destruct (@C73_content D F tofloat lib name m ok) as (v & h & E & _).
  rewrite E. unfold save_exodus_file in E. apply bind_Ok_inv in E as (a & _ & E).
  rewrite steps_all_ok in E.
  - inversion E; subst. eexists. reflexivity.
  - intros h0 c Hc. apply Hl. intros n ->. apply in_app_or in Hc as [Hc|[Hc|[]]]; [|discriminate Hc].
    repeat (destruct Hc as [Hc|Hc]; [discriminate Hc|]). destruct Hc.
Qed.
Print Assumptions C73_returns.

(** Whatever the mesh and the library: the last call closes the file that was
    created, and a first failing call is followed only by that. *)
Theorem C73_always_closed :
  forall (D F : Type) (tofloat : D -> F) lib name (m : mesh (D := D)) v h,
    save_exodus_file tofloat lib name m = Ok (v, h) ->
    exists id r t, h = (SClose id, r) :: t /\ nth_error (rev h) 0 = Some (SCreate name, id) /\
      match v with
      | Saved => r = 0 /\ forall c q, In (c, q) (tl (rev h)) -> q = 0
      | Exited => exists c q earlier, t = (c, q) :: earlier /\ q <> 0 /\
                    forall c' q', In (c', q') (tl (rev earlier)) -> q' = 0
      end.
Proof.
  intros D F tofloat lib name m v h E. unfold save_exodus_file in E. apply bind_Ok_inv in E as (a & _ & E).
  set (id := lib [] (SCreate name)) in *. apply (f_equal (fun x => match x with Ok y => y | _ => (Saved, []) end)) in E.
  cbv beta iota in E. exists id.
  destruct (@steps_end F lib id (file_calls m a id) _ _ _ E) as (t & r & Eh). exists r, t. split; [exact Eh|].
  destruct v.
  - apply steps_saved in E.
    assert (Hr : rev h = (SCreate name, id) :: map (fun c => (c, 0)) (file_calls m a id ++ [SClose id])).
    { rewrite E, rev_app_distr, rev_involutive. reflexivity. }
    rewrite Hr. split; [reflexivity|]. cbn [tl]. split.
    + rewrite map_app, rev_app_distr in E. cbn in E. rewrite Eh in E. inversion E. reflexivity.
    + intros c q Hin. apply in_map_iff in Hin as (c0 & Hc & _). congruence.
  - apply steps_exited in E as (dn & c & q & rc & td & _ & Hq & E). rewrite Eh in E. inversion E. subst rc t.
    rewrite Eh. cbn [rev]. rewrite rev_app_distr, rev_involutive. cbn [rev app].
    split; [reflexivity|]. exists c, q. eexists. split; [reflexivity|]. split; [exact Hq|].
    rewrite rev_app_distr, rev_involutive. cbn [rev app tl]. intros c' q' Hin.
    apply in_map_iff in Hin as (c0 & Hc & _). congruence.
Qed.
Print Assumptions C73_always_closed.

(** The regions are not in the file: two meshes that differ only in the regions of
    their cells make the same calls. *)
Theorem C73_regions_refuted :
  forall (D F : Type) (tofloat : D -> F) lib name ns r1 r2 nv vs nf fs cn cf,
    Forall2 (fun a b => (a = 0 <-> b = 0)%nat) r1 r2 ->
    save_exodus_file tofloat lib name (mk_mesh ns r1 nv vs nf fs cn cf) =
    save_exodus_file tofloat lib name (mk_mesh (D := D) ns r2 nv vs nf fs cn cf).
Proof.
  intros D F tofloat lib name ns r1 r2 nv vs nf fs cn cf HF.
  assert (G : forall i, match get r1 i, get r2 i with
                        | Ok a, Ok b => (a =? 0)%nat = (b =? 0)%nat
                        | UB, UB => True
                        | _, _ => False
                        end).
  { induction HF as [| a b t1 t2 Hab HF IH]; intros [|i]; cbn; auto; [|apply IH].
    destruct a, b; cbn; auto; exfalso; lia. }
  assert (FE : forall (St : Type) n lo (b1 b2 : nat -> St -> res St) s,
             (forall i s, b1 i s = b2 i s) -> for_res n lo b1 s = for_res n lo b2 s).
  { intros St n. induction n as [|n IH]; intros lo b1 b2 s Hb; cbn; auto. rewrite Hb.
    destruct (b2 lo s); cbn; auto. }
  assert (EC : cell_arrays (mk_mesh ns r1 nv vs nf fs cn cf) = cell_arrays (mk_mesh (D := D) ns r2 nv vs nf fs cn cf)).
  { unfold cell_arrays, total_cells. cbn [m_num_seeds m_region m_cell_num_faces m_cell_faces].
    rewrite (FE _ ns 0%nat _ (fun i '(nc, ne) =>
       r <- get r2 i ;; if (r =? 0)%nat then Ok (nc, ne) else k <- get cn i ;; Ok (S nc, (ne + k)%nat))).
    2:{ intros i [nc ne]. specialize (G i). destruct (get r1 i), (get r2 i); cbn; try contradiction; auto.
        rewrite G. reflexivity. }
    destruct (for_res _ _ _ (0, 0)%nat) as [[nc ne]| |]; cbn [bind]; auto.
    match goal with |- bind ?x _ = bind ?y _ => assert (HX : x = y); [|rewrite HX; reflexivity] end.
    apply FE. intros i [[cs nv0] s]. specialize (G i).
    destruct (get r1 i), (get r2 i); cbn [bind]; try contradiction; auto. rewrite G. reflexivity. }
  unfold save_exodus_file, prepare. rewrite EC. reflexivity.
Qed.
Print Assumptions C73_regions_refuted.

(** The code of the creation is not looked at: writing goes on with the identifier
    that ex_create returned, even a negative one, and 0 is returned. *)
Theorem C73_create_failure_refuted :
  exists lib (m : mesh (D := Z)) h,
    fits_in_file m /\ save_exodus_file (fun x => x) lib "mesh.exo" m = Ok (Saved, h) /\
    nth_error (rev h) 0 = Some (SCreate "mesh.exo", -1).
Proof.
  exists (fun _ c => match c with SCreate _ => -1 | _ => 0 end), (mk_mesh 0 [] 0 [] 0 [] [] []).
  eexists. split; [|split; [reflexivity | reflexivity]].
  split; cbn; try (intros; lia); try reflexivity; intros ? [].
Qed.
Print Assumptions C73_create_failure_refuted.

(** Two cells that share a face, and a ghost. *)
Definition two_cells : mesh (D := Z) :=
  mk_mesh 3 [4; 0; 9]%nat
    4 [0; 0; 0; 1; 0; 0; 0; 1; 0; 0; 0; 1]
    3 [[3; 0; 1; 2; 0; 2]; [3; 0; 1; 3; 0; 2]; [4; 0; 1; 2; 3; 2; 1]]%nat
    [2; 0; 3]%nat [[0; 1]; []; [0; 1; 2]]%nat.

Example C73_hypotheses : fits_in_file two_cells.
Proof.
  split; try (cbn; lia).
  - intros i Hi. cbn in Hi. destruct i as [|[|[|i]]]; [| | |lia]; cbn; do 2 eexists; (split; [reflexivity|cbn; lia]).
  - intros i v Hi Hv. cbn in Hi. destruct i as [|[|[|i]]]; [| | |lia]; cbn in Hv; intuition (subst; cbn; lia).
  - intros i Hi. cbn in Hi. destruct Hi as [<-|[<-|[]]]; cbn; do 2 eexists; (split; [reflexivity|split; [reflexivity|cbn; lia]]).
  - intros i v Hi Hv. cbn in Hi. destruct Hi as [<-|[<-|[]]]; cbn in Hv; intuition (subst; cbn; lia).
Qed.

Example C73_run :
  match save_exodus_file (fun x => x) (fun _ c => match c with SCreate _ => 5 | _ => 0 end) "mesh.exo" two_cells with
  | Ok (v, h) =>
      v = Saved /\ List.length h = 15%nat /\
      nth_error (rev h) 2 = Some (SCoord 5 [0; 1; 0; 0] [0; 0; 1; 0] [0; 0; 0; 1], 0) /\
      nth_error (rev h) 6 = Some (SConn 5 FACE_BLOCK 10 (Some [1; 2; 3; 1; 2; 4; 1; 2; 3; 4]) None None, 0) /\
      nth_error (rev h) 7 = Some (SCounts 5 FACE_BLOCK 10 [3; 3; 4], 0) /\
      nth_error (rev h) 10 = Some (SConn 5 ELEM_BLOCK 10 None None (Some [1; 2; 1; 2; 3]), 0) /\
      nth_error (rev h) 11 = Some (SCounts 5 ELEM_BLOCK 10 [2; 3], 0)
  | _ => False
  end.
Proof. repeat split; reflexivity. Qed.
