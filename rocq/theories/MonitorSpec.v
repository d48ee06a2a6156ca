(** Monitoring points: what the imposed ones do to the list of seeds. *)
From Coq Require Import Reals Lra.
From Verif Require Import Base Num KdSpec.
Local Open Scope R_scope.

(** The entries of a list that a mask keeps, in order. *)
Definition keep {A} (mask : list bool) (l : list A) : list A := map snd (filter fst (combine mask l)).

(** Distance of seed number j to x; x is a seed up to 1e-10. *)
Definition seed_dist (seeds : list (list R)) (x : list R) (j : nat) : R := edist 3 (coord seeds) x j.
Definition is_seed (seeds : list (list R)) (x : list R) : Prop :=
  exists j, (j < length seeds)%nat /\ seed_dist seeds x j < 1 / 10 ^ 10.

Definition good_imposed (seeds : list (list R)) (q : list R * R) : Prop :=
  (3 <= length (fst q))%nat /\ exists j, (j < length seeds)%nat /\ seed_dist seeds (fst q) j < @dbl_max R _.

(** The seeds that leave: only seeds from number kept on, which lie in the sphere of an
    imposed point that is a seed; all of those strictly inside leave, and none that is
    outside by more than one part in a million does. *)
Definition right_mask (kept : nat) (seeds : list (list R)) (imposed : list (list R * R)) (mask : list bool) : Prop :=
  length mask = length seeds
  /\ (forall i, nth_error mask i = Some false ->
        (kept <= i)%nat /\ exists x r, In (x, r) imposed /\ is_seed seeds x
          /\ seed_dist seeds x i * seed_dist seeds x i < (1 + 2 / 10 ^ 6) * r * r)
  /\ (forall i x r, (kept <= i < length seeds)%nat -> In (x, r) imposed -> is_seed seeds x ->
        seed_dist seeds x i < r -> nth_error mask i = Some false).
(** The sizes: that of a closest seed of an imposed point that is a seed becomes the
    radius of such a point; all others stay. *)
Definition right_sizes (seeds : list (list R)) (imposed : list (list R * R)) (sizing sizing' : list R) : Prop :=
  length sizing' = length sizing
  /\ (forall i, nth_error sizing' i = nth_error sizing i
        \/ exists x r, In (x, r) imposed /\ seed_dist seeds x i < 1 / 10 ^ 10 /\ nth_error sizing' i = Some r)
  /\ (forall x r, In (x, r) imposed -> is_seed seeds x -> exists i x' r',
        (i < length seeds)%nat /\ (forall j, (j < length seeds)%nat -> seed_dist seeds x i <= seed_dist seeds x j)
        /\ In (x', r') imposed /\ seed_dist seeds x' i < 1 / 10 ^ 10 /\ nth_error sizing' i = Some r').
(** The imposed points that are not seeds become a closest seed with its size. *)
Definition right_points (seeds : list (list R)) (sizing : list R) (q q' : list R * R) : Prop :=
  (is_seed seeds (fst q) /\ q' = q)
  \/ (~ is_seed seeds (fst q) /\ exists j, (j < length seeds)%nat
        /\ (forall k, (k < length seeds)%nat -> seed_dist seeds (fst q) j <= seed_dist seeds (fst q) k)
        /\ nth_error seeds j = Some (fst q') /\ nth_error sizing j = Some (snd q')).
