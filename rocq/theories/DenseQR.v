(** Model of the dense least-squares solver of src/Meshing/MeshingLinearSolver.cpp.
    Dense arrays with consistent dimensions are functions of their indices. *)
From Verif Require Import Base Num.

Section QR.
  Context {F : Type} `{Num F}.
  Local Open Scope num_scope.
  Definition mat := nat -> nat -> F.

  (** double s(0.0); for (i = lo; i < lo + n; i++) s += f(i). *)
  Fixpoint loop_sum (n lo : nat) (f : nat -> F) (s : F) : F :=
    match n with O => s | S m => loop_sum m (S lo) f (s + f lo) end.
  Definition range_sum (lo hi : nat) (f : nat -> F) : F := loop_sum (hi - lo)%nat lo f n0.

  (** MeshingLinearSolver.cpp:120-171, one pass of the main loop of householder: the
      reflection vector x, then R and Q (the loops over disjoint cells of R and of Q
      are written as functions of the old contents). *)
  Definition hh_vector (nrow k : nat) (R : mat) : nat -> F :=
    let x := fun i => R i k in
    let a := nsqrt (range_sum k nrow (fun i => x i * x i)) in
    let alpha := if n0 <? x k then - a else a in
    let x1 := fun i => if Nat.eqb i k then x k - alpha else x i in
    let norm := nsqrt (range_sum k nrow (fun i => x1 i * x1 i)) in
    fun i => x1 i / norm.
  Definition hh_step (nrow ncol k : nat) (QR : mat * mat) : mat * mat :=
    let '(Q, R) := QR in
    let x := hh_vector nrow k R in
    let xR := fun j => range_sum k nrow (fun i => x i * R i j) in
    let xQ := fun j => range_sum k nrow (fun i => x i * Q i j) in
    (fun i j => if Nat.leb k i then Q i j + nopp n2 * x i * xQ j else Q i j,
     fun i j => if Nat.leb k i && Nat.leb k j then R i j - n2 * x i * xR j else R i j).
  Fixpoint hh_loop (n k nrow ncol : nat) (QR : mat * mat) : mat * mat :=
    match n with O => QR | S m => hh_loop m (S k) nrow ncol (hh_step nrow ncol k QR) end.

  (** MeshingLinearSolver.cpp:101-208 householder; [UB]: with more columns than rows it
      returns with Q and R unset, and its callers read them. *)
  Definition householder (nrow ncol : nat) (A : mat) : res (mat * mat) :=
    if Nat.ltb nrow ncol then UB
    else
      let '(Q, R) := hh_loop ncol 0 nrow ncol ((fun i j => if Nat.eqb i j then n1 else n0), A) in
      Ok ((fun i j => Q j i), R).

  (** MeshingLinearSolver.cpp:71-92, the backward solve (rows n-1 .. 0); the inner sum
      runs from the last column down. *)
  Fixpoint down_sum (n hi : nat) (f : nat -> F) (s : F) : F :=
    match n with O => s | S m => down_sum m (hi - 1)%nat f (s + f hi) end.
  Fixpoint back_solve (n ncol : nat) (R : mat) (bmod x : nat -> F) : nat -> F :=
    match n with
    | O => x
    | S j =>
      let v := if nlit 1 10 <? nabs (R j j)
               then (bmod j - down_sum (ncol - 1 - j)%nat (ncol - 1)%nat (fun c => R j c * x c) n0) / R j j
               else n0 in
      back_solve j ncol R bmod (fun c => if Nat.eqb c j then v else x c)
    end.
  (** MeshingLinearSolver.cpp:52-99 LS_QR_Solver; [x] holds the caller's array.  With no
      column the first row index underflows. *)
  Definition ls_qr (nrow ncol : nat) (A : mat) (b x : nat -> F) : res (nat -> F) :=
    if Nat.eqb ncol 0 then UB
    else
      '(Q, R) <- householder nrow ncol A ;;
      let bmod := fun r => range_sum 0 nrow (fun c => Q c r * b c) in
      Ok (back_solve ncol ncol R bmod x).

  (** MeshingSmartTree.cpp:1925-1953 get_Voronoi_vertex; [p i] are the coordinates of the
      i-th seed of the list, [vertex] the caller's array; [None]: false is returned. *)
  Definition voronoi_vertex (num_dim num_seeds : nat) (p : nat -> nat -> F) (vertex : nat -> F) : res (option (nat -> F)) :=
    if negb (Nat.eqb num_seeds (num_dim + 1)) then Ok None
    else
      let A := fun i d => p (i + 1)%nat d - p 0%nat d in
      let b := fun i => range_sum 0 num_dim (fun d => A i d * (nlit 5 1 * (p (i + 1)%nat d + p 0%nat d))) in
      v <- ls_qr num_dim num_dim A b vertex ;;
      Ok (Some v).
End QR.
