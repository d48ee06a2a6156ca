(** The graph a user has in mind: a number of points and a list of directed edges,
    in the order they were made, without repetition. *)
From Verif Require Import Base Graph.

Definition edge_mem (E : list (nat * nat)) (i j : nat) : bool :=
  existsb (fun e => (fst e =? i) && (snd e =? j)) E.
(** Make the edge i -> j if i is a point and the edge is new. *)
Definition make_edge (n : nat) (E : list (nat * nat)) (i j : nat) : list (nat * nat) :=
  if (i <? n) && negb (edge_mem E i j) then E ++ [(i, j)] else E.
Definition spec_step (s : nat * list (nat * nat)) (o : gop) : nat * list (nat * nat) :=
  let '(n, E) := s in
  match o with
  | GConnect i j => (n, make_edge n E i j)
  | GConnectNodes i j => (n, make_edge n (make_edge n E i j) j i)
  | GGrow n' _ => (n', E)
  | GReset => (n, [])
  end.
Definition spec_run (n : nat) (l : list gop) : nat * list (nat * nat) := fold_left spec_step l (n, []).

(** The neighbours of i, in the order the edges were made. *)
Definition successors (E : list (nat * nat)) (i : nat) : list nat :=
  map snd (filter (fun e => fst e =? i) E).

(** Histories in which points are only added, and the capacity always has room. *)
Fixpoint grows (n cap : nat) (l : list gop) : Prop :=
  n <= cap /\
  match l with
  | [] => True
  | GGrow n' cap' :: t => n <= n' /\ cap <= cap' /\ grows n' cap' t
  | _ :: t => grows n cap t
  end.
