(** What the seeds of the volume should be, without the functions of the model. *)
From Coq Require Import Reals Lra.
From Verif Require Import Base Num Vec KdSpec InteriorSpec.
Local Open Scope R_scope.

(** The seeds [l0] with regions [regs0] are the first seeds of [l], at the same places and
    with the same regions. *)
Definition keeps (l0 : list (list R)) (regs0 : list nat) (l : list (list R)) (regs : list nat) : Prop :=
  length regs = length l /\ (length l0 <= length l)%nat
  /\ forall i, (i < length l0)%nat ->
       (forall d, (d < 3)%nat -> nth d (nth i l []) 0 = nth d (nth i l0 []) 0) /\ nth i regs 0%nat = nth i regs0 0%nat.
(** The seeds from number n on are inside the model, in a region of [regs0], and outside
    every surface sphere. *)
Definition fresh (surf : list (list R)) (regs0 : list nat) (n : nat) (l : list (list R)) (regs : list nat) : Prop :=
  forall k, (n <= k < length l)%nat ->
    nth k regs 0%nat <> 0%nat /\ In (nth k regs 0%nat) regs0 /\ outside (1 / 10 ^ 10) (nth k l []) surf.
