(** Vocabulary to state what the Exodus writer does, about the history of calls only. *)
From Coq Require Import String QArith.
From Verif Require Import Base Exodus.
Local Open Scope Z_scope.

(** The file identifier a call of the library carries. *)
Definition call_id (c : call) : option Z :=
  match c with
  | CExists _ | CRemove _ | CCreate _ => None
  | CInit i _ | CCoord i _ _ _ | CCoordNames i _ | CPutBlock i _ _ _ _ _ _ _ _
  | CName i _ _ _ | CGetBlock i _ _ | CConn i _ _ _ _ _ | CIdMap i _ _
  | CSetParam i _ _ _ _ | CSet i _ _ _ _ | CClose i => Some i
  end.

(** Identifier [i] is open after [h] (newest first): the last call that concerns
    it is the creation that returned it, not its closing. *)
Fixpoint is_open (h : history) (i : Z) : Prop :=
  match h with
  | [] => False
  | (CCreate _, r) :: t => (0 <= i /\ rc r = i) \/ is_open t i
  | (CClose j, _) :: t => j <> i /\ is_open t i
  | _ :: t => is_open t i
  end.

(** The methods that test for an open file before anything else. *)
Definition guarded (o : op) : bool :=
  match o with
  | InitializeFile _ | SetNodeMap _ | SetElementMap _ | CloseFile => true
  | _ => false
  end.

(** The library calls whose code the writer drops: set parameters, the name of a
    set, closing, and the two calls of the file system. *)
Definition unchecked (c : call) : bool :=
  match c with
  | CSetParam _ _ _ _ _ | CClose _ | CExists _ | CRemove _ => true
  | CName _ NODE_SET _ _ | CName _ SIDE_SET _ _ => true
  | _ => false
  end.

(** Calls that change nothing in the file. *)
Definition read_only (c : call) : bool :=
  match c with CExists _ | CGetBlock _ _ _ => true | _ => false end.

(** No method call of the sequence is an openFile on a writer with an open file. *)
Fixpoint no_double_open (lib : history -> call -> reply) (ops : list op) (wh : world) : Prop :=
  match ops with
  | [] => True
  | o :: t =>
      (forall p, o = OpenFile p -> has_open_file (fst wh) = false) /\
      match exec lib o wh with
      | Ok (_, wh') => no_double_open lib t wh'
      | _ => True
      end
  end.

(** A block fits when the declared totals are not exceeded. *)
Definition fits (l : option (list Z)) (total : Z) : Prop :=
  match l with None => True | Some l => Z.of_nat (List.length l) <= total end.

(** The name of a type in the library.  EX_ASSEMBLY stands with the blank that the program
    has in it. *)
Definition entity_name (t : entity) : string :=
  match t with
  | NODAL => "EX_NODAL" | NODE_BLOCK => "EX_NODE_BLOCK" | NODE_SET => "EX_NODE_SET"
  | EDGE_BLOCK => "EX_EDGE_BLOCK" | EDGE_SET => "EX_EDGE_SET"
  | FACE_BLOCK => "EX_FACE_BLOCK" | FACE_SET => "EX_FACE_SET"
  | ELEM_BLOCK => "EX_ELEM_BLOCK" | ELEM_SET => "EX_ELEM_SET" | SIDE_SET => "EX_SIDE_SET"
  | ELEM_MAP => "EX_ELEM_MAP" | NODE_MAP => "EX_NODE_MAP" | EDGE_MAP => "EX_EDGE_MAP" | FACE_MAP => "EX_FACE_MAP"
  | GLOBAL => "EX_GLOBAL" | COORDINATE => "EX_COORDINATE" | ASSEMBLY => "EX_ASSEMBLY " | BLOB => "EX_BLOB"
  | INVALID => "EX_INVALID"
  end%string.
