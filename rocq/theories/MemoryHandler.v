(** Model of MeshingMemoryHandler.cpp (and of the private copies of its
    sorting routine in MeshingRandomSampler.cpp and MeshingSmartTree.cpp). *)
From Verif Require Import Base.

(* ------------------------------------------------------------------ *)
(** ** quicksort

    The three overloads at MeshingMemoryHandler.cpp:155-188, 190-228 and
    230-267, MeshingRandomSampler.cpp:266-299 and MeshingSmartTree.cpp:3192-3229
    are the same code up to the arrays that are swapped along.  The body is
    written once over a state [St] with "read the key x[i]" and "swap entries i
    and j of all arrays"; the overloads below instantiate it with separate
    arrays.  [size_t] is [nat]; [j--] at j = 0 wraps in C++ and the next read
    x[SIZE_MAX] is out of bounds, so it is [UB] here. *)
Section QuickSort.
  Context {K St : Type}.
  Variable ltb : K -> K -> bool.              (* x[a] < x[b] *)
  Variable key : St -> nat -> res K.          (* x[i] *)
  Variable swap : St -> nat -> nat -> res St. (* exchange entries i and j *)

  (** MeshingMemoryHandler.cpp:164-165  while (x[i] < pivot) i++; *)
  Fixpoint scan_up (fuel : nat) (s : St) (pivot : K) (i : nat) : res nat :=
    match fuel with
    | O => Fuel
    | S f => xi <- key s i ;;
             if ltb xi pivot then scan_up f s pivot (i + 1) else Ok i
    end.

  (** MeshingMemoryHandler.cpp:166-167  while (x[j] > pivot) j--; *)
  Fixpoint scan_down (fuel : nat) (s : St) (pivot : K) (j : nat) : res nat :=
    match fuel with
    | O => Fuel
    | S f => xj <- key s j ;;
             if ltb pivot xj
             then if j =? 0 then UB else scan_down f s pivot (j - 1)
             else Ok j
    end.

  (** MeshingMemoryHandler.cpp:162-177, the loop  while (i <= j) { ... } *)
  Fixpoint partition (fuel bound : nat) (s : St) (pivot : K) (i j : nat)
    : res (St * nat * nat) :=
    match fuel with
    | O => Fuel
    | S f =>
      if i <=? j then
        i1 <- scan_up bound s pivot i ;;
        j1 <- scan_down bound s pivot j ;;
        if i1 <=? j1 then
          s1 <- swap s i1 j1 ;;
          partition f bound s1 pivot (i1 + 1) (if 0 <? j1 then j1 - 1 else j1)
        else partition f bound s pivot i1 j1
      else Ok (s, i, j)
    end.

  (** MeshingMemoryHandler.cpp:155-188, recursion on explicit fuel. *)
  Fixpoint qs (fuel : nat) (s : St) (left right : nat) : res St :=
    match fuel with
    | O => Fuel
    | S f =>
      pivot <- key s ((left + right) / 2) ;;
      '(s1, i, j) <- partition (right + 2) (right + 2) s pivot left right ;;
      s2 <- (if (0 <? j) && (left <? j) then qs f s1 left j else Ok s1) ;;
      if i <? right then qs f s2 i right else Ok s2
    end.

  (** The call: recursion depth is at most the range length. *)
  Definition qsort (s : St) (left right : nat) : res St :=
    qs (S (right - left)) s left right.
End QuickSort.

(** MeshingMemoryHandler.cpp:155-188 and MeshingRandomSampler.cpp:266-299:
    one array. *)
Definition quicksort {K} (ltb : K -> K -> bool) (x : list K) (left right : nat)
  : res (list K) :=
  qsort ltb (@get K) (@aswap K) x left right.

(** MeshingMemoryHandler.cpp:190-228 and 230-267: keys [x] with a companion
    array [I]. *)
Definition swap2 {K P} (s : list K * list P) (i j : nat) : res (list K * list P) :=
  x' <- aswap (fst s) i j ;; ix' <- aswap (snd s) i j ;; Ok (x', ix').
Definition quicksort2 {K P} (ltb : K -> K -> bool) (x : list K) (ix : list P)
  (left right : nat) : res (list K * list P) :=
  qsort ltb (fun s i => get (fst s) i) swap2 (x, ix) left right.

(** MeshingSmartTree.cpp:3192-3229: keys [x] with three companions. *)
Definition swap4 {K P Q V} (s : list K * list P * list Q * list V) (i j : nat)
  : res (list K * list P * list Q * list V) :=
  let '(x, y1, y2, ix) := s in
  x' <- aswap x i j ;; y1' <- aswap y1 i j ;; y2' <- aswap y2 i j ;;
  ix' <- aswap ix i j ;; Ok (x', y1', y2', ix').
Definition quicksort4 {K P Q V} (ltb : K -> K -> bool)
  (x : list K) (y1 : list P) (y2 : list Q) (ix : list V) (left right : nat)
  : res (list K * list P * list Q * list V) :=
  qsort ltb (fun s i => get (fst (fst (fst s))) i) swap4 (x, y1, y2, ix) left right.

(* ------------------------------------------------------------------ *)
(** ** add_entry

    MeshingMemoryHandler.cpp:50-141 (five overloads), MeshingSmartTree.cpp:
    3147-3181 (two more): the same code for different element types.  A heap
    block is the list of its cells; a cell that was never written is [None]. *)
Record buffer (A : Type) := Buf {
  bnum : nat;                   (* num_entries *)
  bcells : list (option A);     (* the block I *)
  bcap : nat                    (* capacity *)
}.
Arguments Buf {A}.

(** MeshingMemoryHandler.cpp:59  for i < num_entries: tmp[i] = I[i]
    (reading an unwritten cell just copies it). *)
Definition copy_prefix {A} (n : nat) (src dst : list (option A)) : res (list (option A)) :=
  for_res n 0 (fun i d => v <- get src i ;; set d i v) dst.

(** MeshingMemoryHandler.cpp:50-66. *)
Definition add_entry {A} (entry : A) (b : buffer A) : res (buffer A) :=
  I1 <- set (bcells b) (bnum b) (Some entry) ;;
  let n1 := bnum b + 1 in
  if n1 =? bcap b then
    let cap1 := bcap b * 2 in
    tmp <- copy_prefix n1 I1 (repeat None cap1) ;;
    Ok (Buf n1 tmp cap1)
  else Ok (Buf n1 I1 (bcap b)).

(** How every caller creates a block: capacity c, no entries. *)
Definition new_buffer {A} (c : nat) : buffer A := Buf 0 (repeat None c) c.

Fixpoint add_entries {A} (es : list A) (b : buffer A) : res (buffer A) :=
  match es with
  | [] => Ok b
  | e :: t => b1 <- add_entry e b ;; add_entries t b1
  end.

(** MeshingSmartTree.cpp:3183-3189 find_brute. *)
Fixpoint find_brute (n : nat) (entry : nat) (ix : list nat) (i : nat) : res bool :=
  match n with
  | O => Ok false
  | S m => v <- get ix i ;; if v =? entry then Ok true else find_brute m entry ix (i + 1)
  end.
