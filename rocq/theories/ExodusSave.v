(** Model of MeshingVoronoiMesher::save_exodus_file
    (src/Meshing/MeshingVoronoiMesher.cpp 3155-3420) in a build with USE_EXODUS;
    without it the function returns 1 and does nothing (3418-3419).

    As in Exodus.v the library is an arbitrary function of the history.  ex_opts
    (3230) and the messages are left out; memory that is never freed is not
    modelled.  [tofloat] is the conversion of a double to float (3167-3169). *)
From Coq Require Import String.
From Verif Require Import Base PolyMesh Exodus.
Local Open Scope Z_scope.

Section Save.
Context {D F : Type}.
Variable tofloat : D -> F.

(** Calls of the library, in the order of their first use; the identifier comes first. *)
Inductive scall :=
| SCreate (name : string)
| SInit (id dim nodes face face_blk elem elem_blk node_sets : Z)
| SCoord (id : Z) (x y z : list F)
| SCoordNames (id : Z) (names : list string)
| SBlock (id : Z) (ty : entity) (blk : Z) (descr : string) (entries nodes edges faces attrs : Z)
| SNames (id : Z) (ty : entity) (names : list string)
| SConn (id : Z) (ty : entity) (blk : Z) (nodes edges faces : option (list Z))
| SCounts (id : Z) (ty : entity) (blk : Z) (counts : list Z)
| SQa (id : Z) (records : Z)
| SInfo (id : Z) (records : Z)
| SClose (id : Z).

(** What the function is given: seeds with their regions, vertices, faces (each
    face stores its number of corners first) and the faces of every cell. *)
Record mesh := mk_mesh
  { m_num_seeds : nat; m_region : list nat;
    m_num_vertices : nat; m_vertices : list D;
    m_num_faces : nat; m_faces : list (list nat);
    m_cell_num_faces : list nat; m_cell_faces : list (list nat) }.

(** The arrays and counters that the first half computes (3161-3211). *)
Record arrays := mk_arrays
  { a_x : list F; a_y : list F; a_z : list F;
    a_corners : list Z; a_face_entries : list Z;
    a_cell_counts : list Z; a_cell_entries : list Z }.

(** [int(s) + 1] of a size (3184, 3205): undefined when the sum overflows. *)
Definition int_succ (s : nat) : res Z :=
  if int_of_size s =? 2 ^ 31 - 1 then UB else Ok (int_of_size s + 1).

(** The coordinate arrays, 3161-3170.  They have int(num_vertices) elements and
    num_vertices are written, which stays in bounds when the two agree. *)
Definition coordinate_array (m : mesh) (c : nat) : res (list F) :=
  if int_of_size (m_num_vertices m) =? Z.of_nat (m_num_vertices m) then
    for_res (m_num_vertices m) 0
      (fun i acc => v <- get (m_vertices m) (i * 3 + c) ;; Ok (acc ++ [tofloat v]))%nat []
  else UB.

(** Total number of corners, 3172-3173. *)
Definition total_corners (m : mesh) : res nat :=
  for_res (m_num_faces m) 0
    (fun i n => f <- get (m_faces m) i ;; k <- get f 0 ;; Ok (n + k)%nat) 0%nat.

(** [entries[n++] = int(id) + 1] for a list of ids (3182-3185, 3203-3206). *)
Definition push_entries (ids : nat -> res nat) (lo cnt : nat) (s : list Z * nat) : res (list Z * nat) :=
  for_res cnt lo
    (fun k '(a, n) => v <- ids k ;; e <- int_succ v ;; a' <- set a n e ;; Ok (a', S n)) s.

(** The two arrays of the faces, 3175-3187. *)
Definition face_arrays (m : mesh) : res (list Z * list Z) :=
  total <- total_corners m ;;
  '(cs, s) <- for_res (m_num_faces m) 0
    (fun i '(cs, s) =>
       f <- get (m_faces m) i ;; k <- get f 0 ;;
       cs' <- set cs i (int_of_size k) ;;
       s' <- push_entries (get f) 1 k s ;;
       Ok (cs', s'))
    (repeat 0 (m_num_faces m), (repeat 0 total, 0%nat)) ;;
  Ok (cs, fst s).

(** Number of cells that are not ghosts and of their faces, 3189-3196. *)
Definition total_cells (m : mesh) : res (nat * nat) :=
  for_res (m_num_seeds m) 0
    (fun i '(nc, ne) =>
       r <- get (m_region m) i ;;
       if (r =? 0)%nat then Ok (nc, ne)
       else k <- get (m_cell_num_faces m) i ;; Ok (S nc, (ne + k)%nat))
    (0, 0)%nat.

(** The two arrays of the cells, 3197-3211. *)
Definition cell_arrays (m : mesh) : res (list Z * list Z) :=
  '(nc, ne) <- total_cells m ;;
  '(cs, nv, s) <- for_res (m_num_seeds m) 0
    (fun i '(cs, nv, s) =>
       r <- get (m_region m) i ;;
       if (r =? 0)%nat then Ok (cs, nv, s)
       else
         k <- get (m_cell_num_faces m) i ;;
         s' <- push_entries (fun j => fs <- get (m_cell_faces m) i ;; get fs j) 0 k s ;;
         cs' <- set cs nv (int_of_size k) ;;
         Ok (cs', S nv, s'))
    (repeat 0 nc, 0%nat, (repeat 0 ne, 0%nat)) ;;
  Ok (cs, fst s).

(** All of them, 3161-3211. *)
Definition prepare (m : mesh) : res arrays :=
  x <- coordinate_array m 0 ;; y <- coordinate_array m 1 ;; z <- coordinate_array m 2 ;;
  '(corners, fe) <- face_arrays m ;;
  '(counts, ce) <- cell_arrays m ;;
  Ok (mk_arrays x y z corners fe counts ce).

(** The calls made between the creation and the closing of the file when nothing
    fails, 3246-3410. *)
Definition file_calls (m : mesh) (a : arrays) (id : Z) : list scall :=
  let nf := int_of_size (m_num_faces m) in
  let nc := int_of_size (List.length (a_cell_counts a)) in
  [ SInit id 3 (int_of_size (m_num_vertices m)) nf 1 nc 1 0;
    SCoord id (a_x a) (a_y a) (a_z a);
    SCoordNames id ["x"; "y"; "z"];
    SBlock id FACE_BLOCK 10 "nsided" nf (int_of_size (List.length (a_face_entries a))) 0 0 0;
    SNames id FACE_BLOCK ["face_block_1"];
    SConn id FACE_BLOCK 10 (Some (a_face_entries a)) None None;
    SCounts id FACE_BLOCK 10 (a_corners a);
    SBlock id ELEM_BLOCK 10 "nfaced" nc 0 0 (int_of_size (List.length (a_cell_entries a))) 0;
    SNames id ELEM_BLOCK ["nfaced_1"];
    SConn id ELEM_BLOCK 10 None None (Some (a_cell_entries a));
    SCounts id ELEM_BLOCK 10 (a_cell_counts a);
    SQa id 2;
    SInfo id 3 ]%string.

(** How the function ends: it returns 0, or the program exits (exit(-1)). *)
Inductive verdict := Saved | Exited.

Variable lib : list (scall * Z) -> scall -> Z.

(** [error = call; if (error) { ex_close(exoid); exit(-1); }], 3270-3417. *)
Fixpoint steps (id : Z) (cs : list scall) (h : list (scall * Z)) : verdict * list (scall * Z) :=
  match cs with
  | [] => (Saved, h)
  | c :: t =>
      let r := lib h c in
      let h := (c, r) :: h in
      if r =? 0 then steps id t h
      else (Exited, (SClose id, lib h (SClose id)) :: h)
  end.

(** save_exodus_file, 3155-3420.  The code of ex_create (3238) is not tested. *)
Definition save_exodus_file (name : string) (m : mesh) : res (verdict * list (scall * Z)) :=
  a <- prepare m ;;
  let id := lib [] (SCreate name) in
  Ok (steps id (file_calls m a id ++ [SClose id]) [(SCreate name, id)]).

End Save.
