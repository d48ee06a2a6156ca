(** C01, C02: sorting and growable arrays (MeshingMemoryHandler.cpp). *)
From Verif Require Import Base MemoryHandler SortSpec MemoryHandlerProofs Num.
From Coq Require Import Reals.

(** ** C01 *)
Theorem C01_quicksort {K} (ltb : K -> K -> bool) (SW : strict_weak ltb) x left right :
  left <= right -> right < length x ->
  exists x', quicksort ltb x left right = Ok x'
    /\ Permutation x x'
    /\ sorted_range ltb x' left right
    /\ same_outside x x' left right.
Proof. exact (@quicksort_correct _ _ SW x left right). Qed.

Theorem C01_quicksort_companion {K P} (ltb : K -> K -> bool) (SW : strict_weak ltb)
  (x : list K) (ix : list P) left right :
  left <= right -> right < length x -> length ix = length x ->
  exists x' ix', quicksort2 ltb x ix left right = Ok (x', ix')
    /\ length x' = length x /\ length ix' = length x
    /\ Permutation (combine x ix) (combine x' ix')
    /\ sorted_range ltb x' left right
    /\ same_outside x x' left right /\ same_outside ix ix' left right.
Proof. exact (@quicksort2_correct _ _ _ SW x ix left right). Qed.

Theorem C01_quicksort_three_companions {K P Q V} (ltb : K -> K -> bool) (SW : strict_weak ltb)
  (x : list K) (y1 : list P) (y2 : list Q) (ix : list V) left right :
  left <= right -> right < length x ->
  length y1 = length x -> length y2 = length x -> length ix = length x ->
  exists x' y1' y2' ix', quicksort4 ltb x y1 y2 ix left right = Ok (x', y1', y2', ix')
    /\ length x' = length x /\ length y1' = length x /\ length y2' = length x /\ length ix' = length x
    /\ Permutation (combine x (combine y1 (combine y2 ix))) (combine x' (combine y1' (combine y2' ix')))
    /\ sorted_range ltb x' left right
    /\ same_outside x x' left right /\ same_outside y1 y1' left right
    /\ same_outside y2 y2' left right /\ same_outside ix ix' left right.
Proof. exact (@quicksort4_correct _ _ _ _ _ SW x y1 y2 ix left right). Qed.

(** The two orders the callers use satisfy the hypothesis. *)
Example C01_nat_order : strict_weak Nat.ltb.
Proof.
  split; intros; rewrite ?Nat.ltb_lt, ?Nat.ltb_ge in *; lia.
Qed.
Example C01_real_order : strict_weak Rltb.
Proof. exact Rltb_sw. Qed.
Example C01_run : quicksort2 Nat.ltb [9; 5; 2; 5; 1; 7] [0; 1; 2; 3; 4; 5] 1 4
                  = Ok ([9; 1; 2; 5; 5; 7], [0; 4; 2; 1; 3; 5]).
Proof. reflexivity. Qed.

(** ** C02 *)
Theorem C02_growable_array {A} (es : list A) c :
  1 <= c ->
  exists b, add_entries es (new_buffer c) = Ok b
    /\ bnum b = length es
    /\ bnum b < bcap b /\ length (bcells b) = bcap b
    /\ firstn (bnum b) (bcells b) = map Some es.
Proof. exact (@add_entries_correct _ es c). Qed.

Theorem C02_zero_capacity_overflows {A} (e : A) : add_entry e (new_buffer 0) = UB.
Proof. exact (add_entry_zero_capacity e). Qed.

Example C02_run : add_entries [7; 8; 9] (new_buffer 1)
  = Ok (Buf 3 [Some 7; Some 8; Some 9; None] 4).
Proof. reflexivity. Qed.

Print Assumptions C01_quicksort.
Print Assumptions C01_quicksort_companion.
Print Assumptions C01_quicksort_three_companions.
Print Assumptions C02_growable_array.
Print Assumptions C02_zero_capacity_overflows.
