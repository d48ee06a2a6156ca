(** What the regions, cells and monitoring points of the volume mesh should be, without
    the functions of the model. *)
From Coq Require Import Relations.
From Verif Require Import Base Num.

(** The row of a face between the cells i and j. *)
Definition face_between (f : list nat) (i j : nat) : Prop :=
  exists corners, f = length corners :: corners ++ [i; j].
(** A mesh of n cells. *)
Definition mesh_of (n : nat) (faces : list (list nat)) : Prop :=
  forall f, In f faces -> exists i j, face_between f i j /\ i < n /\ j < n.

(** Two regions meet when some face separates an interior seed of one from an interior
    seed of the other; interior seeds are those from number nss on. *)
Definition meet (nss : nat) (regs : list nat) (faces : list (list nat)) (a b : nat) : Prop :=
  exists f i j, In f faces /\ face_between f i j /\ nss <= i /\ nss <= j
    /\ nth_error regs i = Some a /\ nth_error regs j = Some b.
Definition linked nss regs faces : nat -> nat -> Prop := clos_refl_sym_trans nat (meet nss regs faces).

(** Every region meets at most one region with a smaller number. *)
Definition one_smaller nss regs faces : Prop :=
  forall r a b, (meet nss regs faces r a \/ meet nss regs faces a r) ->
    (meet nss regs faces r b \/ meet nss regs faces b r) -> a < r -> b < r -> a = b.

(** The sides of a face. *)
Definition sides (f : list nat) : list nat := skipn (S (hd 0 f)) f.
(** The faces around cell c, in increasing order, once per side. *)
Definition faces_around (faces : list (list nat)) (c : nat) : list nat :=
  flat_map (fun k => repeat k (count_occ Nat.eq_dec (sides (nth k faces [])) c)) (seq 0 (length faces)).
