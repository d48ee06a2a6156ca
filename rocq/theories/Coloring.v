(** Model of the last part of color_surface_seeds (MeshingVoroCrustSampler.cpp:2214-2325):
    the colouring of the graph of seeds and the choice of the exterior.  The marker
    attrib[5] of the seeds is a list; the other attributes are not touched here. *)
From Verif Require Import Base Num KdTree SmartTree DenseQR Graph.

(** State of the flooding: markers, subregion_done, and whether "Invalid coloring" was
    printed. *)
Definition flood_state : Type := list nat * bool * bool.

(** 2249-2265: one neighbour. *)
Definition flood_neighbor (r : nat) (j : nat) (st : flood_state) : res flood_state :=
  let '(col, done, bad) := st in
  c <- get col j ;;
  if negb (c =? 0) then Ok (col, done, bad || negb (c =? r))
  else col' <- set col j r ;; Ok (col', false, bad).
Fixpoint flood_neighbors (r : nat) (l : list nat) (st : flood_state) : res flood_state :=
  match l with
  | [] => Ok st
  | j :: t => st1 <- flood_neighbor r j st ;; flood_neighbors r t st1
  end.
(** 2237-2266: one seed. *)
Definition flood_seed (g : pgraph) (r : nat) (i : nat) (st : flood_state) : res flood_state :=
  c <- get (fst (fst st)) i ;;
  if negb (c =? r) then Ok st
  else
    o <- graph_neighbors g i ;;
    match o with
    | None => Ok st
    | Some l => flood_neighbors r l st
    end.
(** 2232-2270: Flooding Subregion. *)
Fixpoint flood (fuel : nat) (g : pgraph) (n r : nat) (col : list nat) (bad : bool) : res (list nat * bool) :=
  match fuel with
  | O => Fuel
  | S f =>
    '(col', done, bad') <- for_res n 0 (flood_seed g r) (col, true, bad) ;;
    if (done : bool) then Ok (col', bad') else flood f g n r col' bad'
  end.
(** 2220-2227: the first seed without a marker. *)
Fixpoint first_unmarked (m i : nat) (col : list nat) : res (option nat) :=
  match m with
  | O => Ok None
  | S m' => c <- get col i ;; if c =? 0 then Ok (Some i) else first_unmarked m' (S i) col
  end.
(** 2214-2272: Coloring Disjoint Subgraphs; returns region_id, the markers and the error
    flag. *)
Fixpoint color_regions (fuel : nat) (g : pgraph) (n region_id : nat) (col : list nat) (bad : bool)
  : res (nat * list nat * bool) :=
  match fuel with
  | O => Fuel
  | S f =>
    o <- first_unmarked n 0 col ;;
    match o with
    | None => Ok (region_id, col, bad)
    | Some i =>
      col1 <- set col i (S region_id) ;;
      '(col2, bad2) <- flood (S n) g n (S region_id) col1 bad ;;
      color_regions f g n (S region_id) col2 bad2
    end
  end.
(** 2302-2312: the exterior becomes region 0, the regions after it move up. *)
Definition mark_ghost (n ghost : nat) (col : list nat) : res (list nat) :=
  col1 <- for_res n 0 (fun i col => c <- get col i ;; if c =? ghost then set col i 0 else Ok col) col ;;
  for_res n 0 (fun i col => c <- get col i ;; if ghost <? c then set col i (c - 1) else Ok col) col1.

Section Ghost.
  Context {F : Type} `{Num F}.
  Local Open Scope num_scope.
  (** 2280-2293: the corner 3 xmax - 2 xmin of the bounding box of the seeds. *)
  Definition seeds_box (seeds : list (list F)) : (nat -> F) * (nat -> F) :=
    fold_left (fun (b : (nat -> F) * (nat -> F)) (x : list F) =>
      (fun d => let m := fst b d in if nth d x n0 <? m then nth d x n0 else m,
       fun d => let m := snd b d in if m <? nth d x n0 then nth d x n0 else m))
      seeds (fun _ => dbl_max, fun _ => nopp dbl_max).
  Definition far_corner (seeds : list (list F)) : list F :=
    let '(lo, hi) := seeds_box seeds in
    map (fun d => hi d + n2 * (hi d - lo d)) (seq 0 3).

  (** MeshingVoroCrustSampler.cpp:2214-2325: returns num_subregions (region_id - 1, which
      wraps around for region_id = 0: [None]), the regions and the error flag. *)
  Definition color_seeds (marked : nat -> bool) (s : stree F) (g : pgraph) (col : list nat) : res (option nat * list nat * bool) :=
    let n := st_n s in
    '(region_id, col1, bad) <- color_regions (S n) g n 0 col false ;;
    '(_, (iclosest, _)) <- closest s marked (far_corner (st_pts s)) dbl_max ;;
    ghost <- get col1 iclosest ;;
    col2 <- mark_ghost n ghost col1 ;;
    Ok (match region_id with O => None | S k => Some k end, col2, bad).
End Ghost.
