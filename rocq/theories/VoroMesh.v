(** Model of the second part of generate_3d_voronoi_mesh, src/Meshing/MeshingVoronoiMesher.cpp
    1671-1945: welding of the corners of the cells, numbering of the vertices, faces.

    [cells] is what the first part has made (Voro.v): the corners of the cell of every seed
    that is not a ghost, in the order of the seeds. *)
From Verif Require Import Base Num KdTree SmartTree DenseQR Geometry Spheres PolyMesh Regions Interior Voro.

Definition pair_eqb (a b : nat * nat) : bool := (fst a =? fst b) && (snd a =? snd b).
(** cell_corner_indices[s][3 c], [3 c + 1]: the corner to which corner c of cell s points.
    The row of a ghost is empty (it is not allocated). *)
Definition link_table := list (list (nat * nat)).
Definition link (t : link_table) (a : nat * nat) : res (nat * nat) := row <- get t (fst a) ;; get row (snd a).
Definition set_link (t : link_table) (a b : nat * nat) : res link_table :=
  row <- get t (fst a) ;; row' <- set row (snd a) b ;; set t (fst a) row'.
(** All (seed, corner) of the loops over seeds and corners, in their order. *)
Definition places (t : link_table) : list (nat * nat) :=
  flat_map (fun '(s, row) => map (pair s) (seq 0 (length (row : list (nat * nat))))) (numbered t).
(** 1716-1722: until a corner that points to itself. *)
Fixpoint follow (fuel : nat) (t : link_table) (a : nat * nat) : res (nat * nat) :=
  match fuel with
  | O => Fuel
  | S f => b <- link t a ;; if pair_eqb b a then Ok a else follow f t b
  end.
(** 1708-1726. *)
Definition resolve (fuel : nat) (t : link_table) : res link_table :=
  fold_res (fun a t => b <- link t a ;; c <- follow fuel t b ;; set_link t a c) (places t) t.
(** 1729-1742 and 1744-1762: the corners that point to themselves are the vertices; entry
    [3 c + 2] of such a corner, its number, is its position in this list. *)
Definition chosen_corners (t : link_table) : res (list (nat * nat)) :=
  l <- mapr (fun a => b <- link t a ;; Ok (a, pair_eqb b a)) (places t) ;;
  Ok (map fst (filter snd l)).
(** cell_corner_indices[a][.. + 2]; not set for a corner that does not point to itself. *)
Definition number_of (chosen : list (nat * nat)) (a : nat * nat) : res nat := known (position (pair_eqb a) chosen).
(** 1809-1811 (1886-1888): the number of the vertex to which corner c of cell s points. *)
Definition vertex_number (t : link_table) (chosen : list (nat * nat)) (s c : nat) : res nat :=
  a <- link t (s, c) ;; number_of chosen a.

(** std::set<size_t>::insert. *)
Fixpoint set_insert (k : nat) (l : list nat) : list nat :=
  match l with
  | [] => [k]
  | h :: t => if k <? h then k :: l else if k =? h then l else h :: set_insert k t
  end.

Section VoroMesh.
  Context {F : Type} `{Num F}.
  Local Open Scope num_scope.
  Definition cell := option (list (vertex F)).
  (** The rows of a ghost are not allocated. *)
  Definition cell_of (cells : list cell) (s : nat) : res (list (vertex F)) :=
    o <- get cells s ;; match o with Some vs => Ok vs | None => UB end.

  (** 1684-1696: the nearest corner of the cell, the first one among equals. *)
  Definition nearest_corner (vs : list (vertex F)) (x : list F) : option nat * F :=
    fold_left (fun st '(j, v) =>
      let dst := nsqrt (sq_dist x (v_pt v)) in
      if dst <? snd st then (Some j, dst) else st) (numbered vs) (None, dbl_max).
  (** 1676-1703: one corner. *)
  Definition tag (cells : list cell) (iseed : nat) (icorner : nat) (v : vertex F) : res (nat * nat) :=
    o <- known (v_own v) ;;
    vs <- cell_of cells o ;;
    let '(j, h) := nearest_corner vs (v_pt v) in
    if nlit 1 6 <? h then Ok (iseed, icorner) else j <- known j ;; Ok (o, j).
  (** 1671-1705. *)
  Definition tags (cells : list cell) : res link_table :=
    mapr (fun '(s, o) => match o with
                         | None => Ok []
                         | Some vs => mapr (fun '(c, v) => tag cells s c v) (numbered vs)
                         end) (numbered cells).
  (** 1744-1762. *)
  Definition extract_vertices (cells : list cell) (chosen : list (nat * nat)) : res (list (list F)) :=
    mapr (fun a => vs <- cell_of cells (fst a) ;; v <- get vs (snd a) ;; Ok (v_pt v)) chosen.

  (** 1773-1777: the seeds of the corners of the cell, in increasing order. *)
  Definition neighbors (vs : list (vertex F)) : list nat :=
    fold_left (fun s k => set_insert k s) (flat_map (fun v => v_sd v) vs) [].
  (** 1829-1836: the next corner of the face towards seed nb. *)
  Definition next_corner (v : vertex F) (nb cur : nat) : res nat :=
    match position (Nat.eqb nb) (v_sd v) with Some i => get (v_nb v) i | None => Ok cur end.
  (** 1799-1838 (1877-1915): [fc] is face_corners, [num] gives the vertex number of a corner. *)
  Fixpoint walk (fuel : nat) (vs : list (vertex F)) (num : nat -> res nat) (nb first cur iter : nat) (fc : list nat)
    : res (list nat) :=
    match fuel with
    | O => Fuel
    | S f =>
      if (100 * length fc <? iter)%nat then Ok fc
      else
        id <- num cur ;;
        if (2 <? length fc)%nat && (id =? nth 0 fc id)%nat then Ok fc
        else
          let fc := if existsb (Nat.eqb id) fc then fc else fc ++ [id] in
          v <- get vs cur ;;
          cur <- next_corner v nb cur ;;
          if (cur =? first)%nat then Ok fc else walk f vs num nb first cur (S iter) fc
    end.
  (** 1779-1839 (1858-1916): the corners of the face between the cell and seed nb. *)
  Definition face_corners_of (fuel : nat) (vs : list (vertex F)) (num : nat -> res nat) (nb : nat) : res (list nat) :=
    let first := match position (fun v => existsb (Nat.eqb nb) (v_sd v)) vs with Some c => c | None => length vs end in
    walk fuel vs num nb first first 0 [].
  (** 1782 (1861): the face belongs to the other seed. *)
  Definition face_elsewhere (regs : list nat) (iseed nb : nat) : res bool :=
    if (nb <? iseed)%nat then r <- get regs nb ;; Ok (negb (r =? 0)%nat) else Ok false.

  (** The loop over seeds and neighbours that both passes run; [emit s i nb fc] is what is
      done with the corners of a face. *)
  Definition each_face {S} (fuel : nat) (regs : list nat) (cells : list cell) (num : nat -> nat -> res nat)
    (emit : nat -> nat -> list nat -> S -> res S) (s : S) : res S :=
    fold_res (fun i s =>
      r <- get regs i ;;
      if (r =? 0)%nat then Ok s
      else
        vs <- cell_of cells i ;;
        fold_res (fun nb s =>
          e <- face_elsewhere regs i nb ;;
          if (e : bool) then Ok s
          else fc <- face_corners_of fuel vs (num i) nb ;; emit i nb fc s) (neighbors vs) s)
      (seq 0 (length cells)) s.
  (** 1767-1842: the counting pass. *)
  Definition count_faces (fuel : nat) (regs : list nat) (cells : list cell) (num : nat -> nat -> res nat) : res nat :=
    each_face fuel regs cells num (fun i nb fc n => Ok (if (3 <=? length fc)%nat then S n else n)) 0%nat.
  (** 1844-1929: the filling pass; there is room for num_faces rows. *)
  Definition fill_faces (fuel : nat) (regs : list nat) (cells : list cell) (num : nat -> nat -> res nat) (num_faces : nat)
    : res (list (list nat)) :=
    each_face fuel regs cells num (fun i nb fc faces =>
      if (3 <=? length fc)%nat then
        if (length faces <? num_faces)%nat then Ok (faces ++ [length fc :: fc ++ [i; nb]]) else UB
      else Ok faces) [].
  (** 1671-1945. *)
  Definition extract_mesh (fuel : nat) (regs : list nat) (cells : list cell) : res (list (list F) * list (list nat)) :=
    t <- tags cells ;;
    t <- resolve fuel t ;;
    chosen <- chosen_corners t ;;
    vertices <- extract_vertices cells chosen ;;
    let num := vertex_number t chosen in
    let wfuel := (100 * length chosen + 2)%nat in
    n <- count_faces wfuel regs cells num ;;
    faces <- fill_faces wfuel regs cells num n ;;
    Ok (vertices, faces).
  (** 1620-1945 generate_3d_voronoi_mesh. *)
  Definition voronoi_mesh (fuel cfuel lfuel : nat) (seeds : list (list F)) (regs : list nat) (sizing : list F)
    : res (list (list F) * list (list nat)) :=
    cells <- voronoi_cells fuel cfuel seeds regs sizing ;;
    extract_mesh lfuel regs cells.
End VoroMesh.
Arguments cell F : clear implicits.
