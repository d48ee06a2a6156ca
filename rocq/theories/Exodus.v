(** Model of the Exodus file writer class (src/Meshing/MeshingExodusIO.h 66-103,
    src/Meshing/MeshingExodusIO.cpp 41-466).

    The Exodus library itself and the file system are outside the repository.
    They are represented by an arbitrary function [lib] that answers each call
    from the history of all earlier calls, so every behaviour of a library that
    is deterministic in its history is covered.  What is recorded for every call
    is exactly what the writer passes to it.  Doubles are rationals (finite
    doubles are; NaN and infinities are not represented).  Exhausting the stack
    with a long variable-length array is not modelled. *)
From Coq Require Import String QArith Qround.
From Verif Require Import Base.
Local Open Scope Z_scope.

(** Entity types of the library, as used in MeshingExodusIO.cpp 46-64. *)
Inductive entity :=
| NODAL | NODE_BLOCK | NODE_SET | EDGE_BLOCK | EDGE_SET | FACE_BLOCK | FACE_SET
| ELEM_BLOCK | ELEM_SET | SIDE_SET | ELEM_MAP | NODE_MAP | EDGE_MAP | FACE_MAP
| GLOBAL | COORDINATE | ASSEMBLY | BLOB | INVALID.

(** blockTypeMap, MeshingExodusIO.cpp 46-64 (the key of line 62 ends in a blank). *)
Definition block_type_map : list (string * entity) :=
  [ ("EX_NODAL", NODAL); ("EX_NODE_BLOCK", NODE_BLOCK); ("EX_NODE_SET", NODE_SET);
    ("EX_EDGE_BLOCK", EDGE_BLOCK); ("EX_EDGE_SET", EDGE_SET);
    ("EX_FACE_BLOCK", FACE_BLOCK); ("EX_FACE_SET", FACE_SET);
    ("EX_ELEM_BLOCK", ELEM_BLOCK); ("EX_ELEM_SET", ELEM_SET);
    ("EX_SIDE_SET", SIDE_SET); ("EX_ELEM_MAP", ELEM_MAP); ("EX_NODE_MAP", NODE_MAP);
    ("EX_EDGE_MAP", EDGE_MAP); ("EX_FACE_MAP", FACE_MAP); ("EX_GLOBAL", GLOBAL);
    ("EX_COORDINATE", COORDINATE); ("EX_ASSEMBLY ", ASSEMBLY); ("EX_BLOB", BLOB);
    ("EX_INVALID", INVALID) ]%string.

(** blockTypeMap.find(name), MeshingExodusIO.cpp 252, 291. *)
Definition find_type (name : string) : option entity :=
  match find (fun kv => String.eqb (fst kv) name) block_type_map with
  | Some kv => Some (snd kv)
  | None => None
  end.

(** An array argument of a library call: a null pointer, an array of doubles or
    an array of ints. *)
Inductive buffer := BNull | BDouble (l : list Q) | BInt (l : list Z).

(** The fields of ex_init_params that initializeFile sets from its arguments
    (MeshingExodusIO.cpp 125-142); the others are set to 0. *)
Record init_params := mk_init
  { ip_title : string; ip_dim : Z; ip_nodes : Z; ip_face : Z; ip_face_blk : Z;
    ip_elem : Z; ip_elem_blk : Z; ip_node_sets : Z; ip_side_sets : Z }.

(** Calls out of the writer, in the order of their first use in the file; the
    first argument of the ones of the library is the file identifier. *)
Inductive call :=
| CExists (path : string)
| CRemove (path : string)
| CCreate (path : string)
| CInit (id : Z) (par : init_params)
| CCoord (id : Z) (x y z : buffer)
| CCoordNames (id : Z) (names : list string)
| CPutBlock (id : Z) (ty : entity) (blk : Z) (descr : string) (entries nodes edges faces attrs : Z)
| CName (id : Z) (ty : entity) (ent : Z) (name : string)
| CGetBlock (id : Z) (ty : entity) (blk : Z)
| CConn (id : Z) (ty : entity) (blk : Z) (nodes edges faces : buffer)
| CIdMap (id : Z) (ty : entity) (map : list Z)
| CSetParam (id : Z) (ty : entity) (ent : Z) (entries dist : Z)
| CSet (id : Z) (ty : entity) (ent : Z) (entry extra : buffer)
| CClose (id : Z).

(** What comes back: the return code and, for ex_get_block, the four counts. *)
Record reply := mk_reply { rc : Z; r_entries : Z; r_nodes : Z; r_edges : Z; r_faces : Z }.

(** History of calls and replies, newest first. *)
Definition history := list (call * reply).

(** The two data members of the writer (MeshingExodusIO.h 100-101). *)
Record writer := mk_writer { exoid : Z; active_path : string }.

(** How a method ends: it returns, or it throws. *)
Inductive ending := Returns | Throws.

(** State threaded through a method, and its result. *)
Definition world := (writer * history)%type.
Definition done := res (ending * world).

(** MeshingExodusFileWriter(), MeshingExodusIO.cpp 41-44. *)
Definition new_writer : writer := mk_writer (-1) "".

(** hasOpenFile, MeshingExodusIO.cpp 440-443. *)
Definition has_open_file (w : writer) : bool := 0 <=? exoid w.

Section Writer.
Variable lib : history -> call -> reply.

(** One call: its reply and the longer history. *)
Definition ask (h : history) (c : call) : reply * history :=
  let r := lib h c in (r, (c, r) :: h).

(** [if (result < 0) throw ...] at the end of a method. *)
Definition check (w : writer) (rh : reply * history) : done :=
  if rc (fst rh) <? 0 then Ok (Throws, (w, snd rh)) else Ok (Returns, (w, snd rh)).

(** openFile, MeshingExodusIO.cpp 75-111.  fileExists (457-465) is a call whose
    code is positive when the file can be read. *)
Definition open_file (path : string) (wh : world) : done :=
  let '(w, h) := wh in
  let '(e, h) := ask h (CExists path) in
  let h := if 0 <? rc e then snd (ask h (CRemove path)) else h in
  let '(r, h) := ask h (CCreate path) in
  if rc r <? 0 then Ok (Throws, (w, h))
  else Ok (Returns, (mk_writer (rc r) path, h)).

(** Room in ex_init_params::title without its final 0: MAX_LINE_LENGTH of exodusII.h. *)
Definition title_room : Z := 80.

(** initializeFile, MeshingExodusIO.cpp 113-149.  The strcpy of line 126 writes
    past the array when the title is longer than the room. *)
Definition initialize_file (par : init_params) (wh : world) : done :=
  let '(w, h) := wh in
  if exoid w <? 0 then Ok (Throws, wh)
  else if title_room <? Z.of_nat (String.length (ip_title par)) then UB
  else check w (ask h (CInit (exoid w) par)).

(** setCoordinatesOnAxis, MeshingExodusIO.cpp 151-181. *)
Definition set_coordinates_on_axis (coords : option (list Q)) (dim : Z) (wh : world) : done :=
  let '(w, h) := wh in
  match coords with
  | None => Ok (Throws, wh)
  | Some l =>
      if dim =? 0 then check w (ask h (CCoord (exoid w) (BDouble l) BNull BNull))
      else if dim =? 1 then check w (ask h (CCoord (exoid w) BNull (BDouble l) BNull))
      else if dim =? 2 then check w (ask h (CCoord (exoid w) BNull BNull (BDouble l)))
      else Ok (Throws, wh)
  end.

(** Range of int. *)
Definition in_int (z : Z) : bool := (- 2 ^ 31 <=? z) && (z <? 2 ^ 31).

(** Conversion of a double to int: towards zero; undefined out of range. *)
Definition trunc (q : Q) : Z := if Qle_bool 0 q then Qfloor q else Qceiling q.
Definition to_int (q : Q) : res Z := if in_int (trunc q) then Ok (trunc q) else UB.

(** std::copy of doubles into an array of ints, MeshingExodusIO.cpp 206-216. *)
Fixpoint to_ints (l : list Q) : res (list Z) :=
  match l with
  | [] => Ok []
  | q :: t => z <- to_int q ;; zs <- to_ints t ;; Ok (z :: zs)
  end.

(** The array passed for one axis, null for a null list. *)
Definition int_buffer (l : option (list Q)) : res buffer :=
  match l with
  | None => Ok BNull
  | Some l => zs <- to_ints l ;; Ok (BInt zs)
  end.

(** setCoordinates, MeshingExodusIO.cpp 183-224. *)
Definition set_coordinates (x y z : option (list Q)) (wh : world) : done :=
  let '(w, h) := wh in
  match x, y, z with
  | None, None, None => Ok (Throws, wh)
  | _, _, _ =>
      bx <- int_buffer x ;; by_ <- int_buffer y ;; bz <- int_buffer z ;;
      check w (ask h (CCoord (exoid w) bx by_ bz))
  end.

(** setCoordinateNames, MeshingExodusIO.cpp 226-244. *)
Definition set_coordinate_names (names : list string) (wh : world) : done :=
  let '(w, h) := wh in check w (ask h (CCoordNames (exoid w) names)).

(** defineBlock, MeshingExodusIO.cpp 246-265. *)
Definition define_block (ty : string) (blk : Z) (descr : string)
    (entries nodes edges faces attrs : Z) (wh : world) : done :=
  let '(w, h) := wh in
  match find_type ty with
  | None => Ok (Throws, wh)
  | Some t => check w (ask h (CPutBlock (exoid w) t blk descr entries nodes edges faces attrs))
  end.

(** setBlockName, MeshingExodusIO.cpp 267-273. *)
Definition set_block_name (blk : Z) (name : string) (wh : world) : done :=
  let '(w, h) := wh in check w (ask h (CName (exoid w) ELEM_BLOCK blk name)).

(** Multiplication of ints, undefined on overflow. *)
Definition int_mul (a b : Z) : res Z := if in_int (a * b) then Ok (a * b) else UB.

(** [list->size() > total] with an int total converted to size_t
    (MeshingExodusIO.cpp 304, 307, 310): a negative total becomes huge. *)
Definition too_long (l : option (list Z)) (total : Z) : bool :=
  match l with
  | None => false
  | Some l => (if total <? 0 then total + 2 ^ 64 else total) <? Z.of_nat (List.length l)
  end.

(** An int list as an array, null for a null list. *)
Definition list_buffer (l : option (list Z)) : buffer :=
  match l with None => BNull | Some l => BInt l end.

(** setBlockConnectivity, MeshingExodusIO.cpp 275-337. *)
Definition set_block_connectivity (ty : string) (blk : Z)
    (nodes edges faces : option (list Z)) (wh : world) : done :=
  let '(w, h) := wh in
  match find_type ty with
  | None => Ok (Throws, wh)
  | Some t =>
      let '(r, h) := ask h (CGetBlock (exoid w) t blk) in
      if rc r <? 0 then Ok (Throws, (w, h))
      else
        tn <- int_mul (r_entries r) (r_nodes r) ;;
        if too_long nodes tn then Ok (Throws, (w, h))
        else
          te <- int_mul (r_entries r) (r_edges r) ;;
          if too_long edges te then Ok (Throws, (w, h))
          else
            tf <- int_mul (r_entries r) (r_faces r) ;;
            if too_long faces tf then Ok (Throws, (w, h))
            else check w (ask h (CConn (exoid w) t blk
                                   (list_buffer nodes) (list_buffer edges) (list_buffer faces)))
  end.

(** setNodeMap and setElementMap, MeshingExodusIO.cpp 339-360 and 362-383: the
    pointer is dereferenced after the test for an open file. *)
Definition set_map (ty : entity) (m : option (list Z)) (wh : world) : done :=
  let '(w, h) := wh in
  if negb (has_open_file w) then Ok (Throws, wh)
  else match m with
       | None => UB
       | Some [] => Ok (Throws, wh)
       | Some l => check w (ask h (CIdMap (exoid w) ty l))
       end.

(** Conversion of a size to int (MeshingExodusIO.cpp 387, 407): modulo 2^32. *)
Definition int_of_size (n : nat) : Z := (Z.of_nat n + 2 ^ 31) mod 2 ^ 32 - 2 ^ 31.

(** defineNodeSet, MeshingExodusIO.cpp 386-403.  The code of ex_put_set_param is
    dropped, and line 401 tests the code of ex_put_set again instead of the one
    of ex_put_name. *)
Definition define_node_set (ent : Z) (name : string) (l : option (list Z)) (wh : world) : done :=
  let '(w, h) := wh in
  match l with
  | None => UB
  | Some l =>
      if int_of_size (List.length l) =? 0 then Ok (Throws, wh)
      else
        let '(_, h) := ask h (CSetParam (exoid w) NODE_SET ent (Z.of_nat (List.length l)) 0) in
        let '(r, h) := ask h (CSet (exoid w) NODE_SET ent (BInt l) BNull) in
        if rc r <? 0 then Ok (Throws, (w, h))
        else
          let '(_, h) := ask h (CName (exoid w) NODE_SET ent name) in
          if rc r <? 0 then Ok (Throws, (w, h)) else Ok (Returns, (w, h))
  end.

(** defineSideSet, MeshingExodusIO.cpp 406-428: the sides are passed as entry
    list and the elements as extra list. *)
Definition define_side_set (ent : Z) (name : string) (els sides : option (list Z)) (wh : world) : done :=
  let '(w, h) := wh in
  match sides with
  | None => UB
  | Some sides =>
      if int_of_size (List.length sides) =? 0 then Ok (Throws, wh)
      else match els with
           | None => UB
           | Some els =>
               let '(_, h) := ask h (CSetParam (exoid w) SIDE_SET ent (Z.of_nat (List.length els)) 0) in
               let '(_, h) := ask h (CSetParam (exoid w) SIDE_SET ent (Z.of_nat (List.length sides)) 0) in
               let '(r, h) := ask h (CSet (exoid w) SIDE_SET ent (BInt sides) (BInt els)) in
               if rc r <? 0 then Ok (Throws, (w, h))
               else
                 let '(_, h) := ask h (CName (exoid w) SIDE_SET ent name) in
                 if rc r <? 0 then Ok (Throws, (w, h)) else Ok (Returns, (w, h))
           end
  end.

(** closeFile, MeshingExodusIO.cpp 430-438. *)
Definition close_file (wh : world) : done :=
  let '(w, h) := wh in
  if negb (has_open_file w) then Ok (Throws, wh)
  else let '(_, h) := ask h (CClose (exoid w)) in
       Ok (Returns, (mk_writer (-1) "", h)).

(** The public methods that do something (MeshingExodusIO.h 68-97); getActiveFilePath
    and getExodusFileIdentifier read the two members. *)
Inductive op :=
| OpenFile (path : string)
| InitializeFile (par : init_params)
| SetCoordinatesOnAxis (coords : option (list Q)) (dim : Z)
| SetCoordinates (x y z : option (list Q))
| SetCoordinateNames (names : list string)
| DefineBlock (ty : string) (blk : Z) (descr : string) (entries nodes edges faces attrs : Z)
| SetBlockName (blk : Z) (name : string)
| SetBlockConnectivity (ty : string) (blk : Z) (nodes edges faces : option (list Z))
| SetNodeMap (m : option (list Z))
| SetElementMap (m : option (list Z))
| DefineNodeSet (ent : Z) (name : string) (l : option (list Z))
| DefineSideSet (ent : Z) (name : string) (els sides : option (list Z))
| CloseFile.

(** Calling one of them. *)
Definition exec (o : op) (wh : world) : done :=
  match o with
  | OpenFile p => open_file p wh
  | InitializeFile par => initialize_file par wh
  | SetCoordinatesOnAxis c d => set_coordinates_on_axis c d wh
  | SetCoordinates x y z => set_coordinates x y z wh
  | SetCoordinateNames n => set_coordinate_names n wh
  | DefineBlock ty b d e n ed f a => define_block ty b d e n ed f a wh
  | SetBlockName b n => set_block_name b n wh
  | SetBlockConnectivity ty b n e f => set_block_connectivity ty b n e f wh
  | SetNodeMap m => set_map NODE_MAP m wh
  | SetElementMap m => set_map ELEM_MAP m wh
  | DefineNodeSet i n l => define_node_set i n l wh
  | DefineSideSet i n e s => define_side_set i n e s wh
  | CloseFile => close_file wh
  end.

(** A client that calls methods one after the other, going on after exceptions. *)
Fixpoint run (ops : list op) (wh : world) : res world :=
  match ops with
  | [] => Ok wh
  | o :: t => e <- exec o wh ;; run t (snd e)
  end.

(** ~MeshingExodusFileWriter, MeshingExodusIO.cpp 67-73. *)
Definition destroy (wh : world) : res world :=
  if has_open_file (fst wh) then e <- close_file wh ;; Ok (snd e) else Ok wh.

End Writer.
