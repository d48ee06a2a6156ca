(** What an Exodus file of a polyhedral mesh should contain. *)
From Coq Require Import String.
From Verif Require Import Base Exodus ExodusSave.
Local Open Scope Z_scope.

(** Corners of face [i], cells that are not ghosts, faces of cell [i]. *)
Definition corners_of {D} (m : mesh (D := D)) (i : nat) : list nat :=
  match nth_error (m_faces m) i with Some (k :: t) => firstn k t | _ => [] end.
Definition live_cells {D} (m : mesh (D := D)) : list nat :=
  filter (fun i => negb (nth i (m_region m) 0 =? 0)%nat) (seq 0 (m_num_seeds m)).
Definition faces_of_cell {D} (m : mesh (D := D)) (i : nat) : list nat :=
  firstn (nth i (m_cell_num_faces m) 0%nat) (nth i (m_cell_faces m) []).

(** A list of lists as an Exodus reader gets it: the entries cut into pieces of
    the given counts, ids counted from 1. *)
Fixpoint decode (counts entries : list Z) : list (list Z) :=
  match counts with
  | [] => []
  | c :: t => map (fun e => e - 1) (firstn (Z.to_nat c) entries) :: decode t (skipn (Z.to_nat c) entries)
  end.

(** [l] holds coordinate [c] of every vertex, converted. *)
Definition holds_coordinate {D F} (tofloat : D -> F) (m : mesh (D := D)) (c : nat) (l : list F) : Prop :=
  List.length l = m_num_vertices m /\
  forall i v, (i < m_num_vertices m)%nat -> nth_error (m_vertices m) (3 * i + c) = Some v ->
    nth_error l i = Some (tofloat v).

(** The arrays are as long as their counts say, and everything that has to be an
    int fits one (with room for the shift by 1). *)
Record fits_in_file {D} (m : mesh (D := D)) : Prop := {
  ff_vertices : (3 * m_num_vertices m <= List.length (m_vertices m))%nat;
  ff_num_vertices : Z.of_nat (m_num_vertices m) < 2 ^ 31;
  ff_faces : forall i, (i < m_num_faces m)%nat ->
    exists k t, nth_error (m_faces m) i = Some (k :: t) /\ (k <= List.length t)%nat;
  ff_num_faces : Z.of_nat (m_num_faces m) < 2 ^ 31;
  ff_corners : forall i v, (i < m_num_faces m)%nat -> In v (corners_of m i) -> Z.of_nat v < 2 ^ 31 - 1;
  ff_total_corners : Z.of_nat (List.length (flat_map (corners_of m) (seq 0 (m_num_faces m)))) < 2 ^ 31;
  ff_region : (m_num_seeds m <= List.length (m_region m))%nat;
  ff_cells : forall i, In i (live_cells m) ->
    exists k fs, nth_error (m_cell_num_faces m) i = Some k /\ nth_error (m_cell_faces m) i = Some fs /\
                 (k <= List.length fs)%nat;
  ff_cell_ids : forall i v, In i (live_cells m) -> In v (faces_of_cell m i) -> Z.of_nat v < 2 ^ 31 - 1;
  ff_num_cells : Z.of_nat (List.length (live_cells m)) < 2 ^ 31;
  ff_total_cells : Z.of_nat (List.length (flat_map (faces_of_cell m) (live_cells m))) < 2 ^ 31
}.
