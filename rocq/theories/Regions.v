(** Model of the parts of src/Meshing/MeshingVoroCrust.cpp that work on the complete
    list of seeds: the monitoring points (generate_interior_seeds, 454-610) and the
    regions and cells of the volume mesh (generate_explicit_mesh, 613-755).

    A face of the volume mesh is the row [num_corners; corners...; seed_i; seed_j].
    Seeds are rows of three coordinates with one sizing value and one region each. *)
From Verif Require Import Base Num KdTree SmartTree PolyMesh.

(** A loop that fills entry after entry of a new array. *)
Fixpoint mapr {A B} (f : A -> res B) (l : list A) : res (list B) :=
  match l with [] => Ok [] | a :: t => b <- f a ;; r <- mapr f t ;; Ok (b :: r) end.

(** MeshingVoroCrust.cpp:657-659: the two seeds of a face. *)
Definition face_seeds (f : list nat) : res (nat * nat) :=
  n <- get f 0 ;; i <- get f (n + 1) ;; j <- get f (n + 2) ;; Ok (i, j).

(** MeshingVoroCrust.cpp:622-627. *)
Definition count_regions (regs : list nat) : nat :=
  S (fold_left (fun m r => if m <? r then r else m) regs 0).

(** MeshingVoroCrust.cpp:655-669: one face.  [rni] is region_new_index. *)
Definition merge_face (nss : nat) (regs : list nat) (f : list nat) (rni : list nat) : res (list nat) :=
  '(i, j) <- face_seeds f ;;
  if (i <? nss) || (j <? nss) then Ok rni
  else
    ri <- get regs i ;; rj <- get regs j ;;
    a <- get rni ri ;; b <- get rni rj ;;
    if a =? b then Ok rni
    else if a <? b then set rni rj a else set rni ri b.

(** MeshingVoroCrust.cpp:676:  while (region_new_index[id] != id) id = region_new_index[id]; *)
Fixpoint chase (fuel : nat) (rni : list nat) (id : nat) : res nat :=
  match fuel with
  | O => Fuel
  | S k => v <- get rni id ;; if v =? id then Ok id else chase k rni v
  end.
(** MeshingVoroCrust.cpp:672-678. *)
Definition adjust_region (fuel : nat) (i : nat) (rni : list nat) : res (list nat) :=
  v <- get rni i ;;
  if v =? i then Ok rni else id <- chase fuel rni v ;; set rni i id.
Definition adjust_regions (n : nat) (rni : list nat) : res (list nat) :=
  for_res n 0 (adjust_region (S n)) rni.

(** MeshingVoroCrust.cpp:680-685, before the decrement of line 685. *)
Definition active_regions (rni : list nat) : nat :=
  length (filter (fun '(i, v) => v =? i) (numbered rni)).

(** MeshingVoroCrust.cpp:651-692: the new region of every seed, and the reported number
    of regions.  The decrement is Nat.pred: the count is never 0 (C39_number). *)
Definition merge_regions (nss : nat) (regs : list nat) (faces : list (list nat)) : res (list nat * nat) :=
  let n := count_regions regs in
  rni <- fold_res (merge_face nss regs) faces (seq 0 n) ;;
  rni <- adjust_regions n rni ;;
  regs' <- mapr (get rni) regs ;;
  Ok (regs', pred (active_regions rni)).

(** MeshingVoroCrust.cpp:700-707, 724-735: the sides of a face that belong to cells. *)
Definition if_inside (regs : list nat) (c : nat) : res (list nat) :=
  r <- get regs c ;; Ok (if r =? 0 then [] else [c]).
Definition cell_sides (regs : list nat) (f : list nat) : res (list nat) :=
  '(i, j) <- face_seeds f ;; a <- if_inside regs i ;; b <- if_inside regs j ;; Ok (a ++ b).
(** MeshingVoroCrust.cpp:696-707. *)
Definition count_cells (regs : list nat) (faces : list (list nat)) : res (list nat) :=
  fold_res (fun f cnt => l <- cell_sides regs f ;; fold_res count_corner l cnt) faces (repeat 0 (length regs)).
(** MeshingVoroCrust.cpp:709-736: the rows cell_faces, whose lengths are cell_num_faces,
    and num_meshed_cells.  The row of a cell of region 0 is not allocated; it is empty here
    and never used. *)
Definition cell_faces (regs : list nat) (faces : list (list nat)) : res (list (list nat) * nat) :=
  cnt <- count_cells regs faces ;;
  rows <- fold_res (fun '(iface, f) rows => l <- cell_sides regs f ;; fold_res (record_face cnt iface) l rows)
    (numbered faces) (repeat [] (length regs)) ;;
  Ok (rows, length (filter (fun r => negb (r =? 0)) regs)).

(** MeshingVoroCrust.cpp:613-736: everything of generate_explicit_mesh between the
    construction of the mesh and the writing of the files. *)
Definition explicit_mesh (nss : nat) (regs : list nat) (faces : list (list nat))
  : res (list nat * nat * list (list nat) * nat) :=
  '(regs', k) <- merge_regions nss regs faces ;;
  '(rows, m) <- cell_faces regs' faces ;;
  Ok (regs', k, rows, m).

Section Seeds.
  Context {F : Type} {num : Num F}.
  Local Open Scope num_scope.

  (** MeshingVoroCrust.cpp:587-596 (off = num_surface_seeds, n = num_seeds) and
      MeshingVoronoiMesher.cpp:998-1007 (off = 0, n = num_front_seeds): one exchange with a
      position drawn between off and n.  [u k] is draw number k. *)
  Definition draw_in (off n : nat) (v : F) : nat :=
    let j := (off + Z.to_nat (ntrunc (v * nofZ (Z.of_nat (n - off)%nat))%num))%nat in
    if (j =? n)%nat then pred j else j.
  Definition shuffle (off n : nat) (u : nat -> F) (l : list nat) : res (list nat) :=
    for_res (n - off) 0 (fun k l => aswap l (off + k) (draw_in off n (u k))) l.

  (** MeshingVoroCrust.cpp:577-610: at most 100 interior seeds, at random. *)
  Definition monitoring_points (nss : nat) (u : nat -> F) (seeds : list (list F)) (sizing : list F)
    : res (list (list F * F)) :=
    let n := length seeds in
    idx <- shuffle nss n u (seq 0 n) ;;
    mapr (fun k => i <- get idx (nss + k) ;; x <- get seeds i ;; h <- get sizing i ;; Ok (x, h))
      (seq 0 (Nat.min 100 (n - nss))).

  (** MeshingVoroCrust.cpp:486-494: seeds with an index below [kept] stay. *)
  Definition invalidate (kept : nat) (i : nat) (valid : list bool) : res (list bool) :=
    v <- get valid i ;; if v && (kept <=? i)%nat then set valid i false else Ok valid.
  (** MeshingVoroCrust.cpp:473-498: one imposed point. *)
  Definition clear_sphere (kept : nat) (tree : stree F) (q : list F * F) (s : list bool * list F)
    : res (list bool * list F) :=
    let '(valid, sizing) := s in
    '(_, (ic, h)) <- closest tree (fun _ => true) (fst q) dbl_max ;;
    if h <? nlit 1 10 then
      hits <- points_in_sphere tree (fun _ => true) (fst q) (snd q) ;;
      valid <- fold_res (invalidate kept) hits valid ;;
      sizing <- set sizing ic (snd q) ;;
      Ok (valid, sizing)
    else Ok s.
  (** MeshingVoroCrust.cpp:500-518: an imposed point that is not a seed is replaced by the
      closest seed. *)
  Definition snap_imposed (tree : stree F) (seeds : list (list F)) (sizing : list F) (q : list F * F)
    : res (list F * F) :=
    '(_, (ic, h)) <- closest tree (fun _ => true) (fst q) dbl_max ;;
    if h <? nlit 1 10 then Ok q
    else x <- get seeds ic ;; h <- get sizing ic ;; Ok (x, h).
  (** MeshingVoroCrust.cpp:520-541: the arrays without the invalidated seeds.  The room of
      the new arrays is the number of valid seeds, which is what the loop writes. *)
  Definition drop_invalid (room : nat) (valid : list bool) (seeds : list (list F)) (sizing : list F) (regs : list nat)
    : res (list (list F) * list F * list nat) :=
    fold_res (fun i s => let '(a, b, c) := s in
      v <- get valid i ;;
      if negb v then Ok s
      else if (length a <? room)%nat then
        x <- get seeds i ;; h <- get sizing i ;; r <- get regs i ;;
        Ok (a ++ [x], b ++ [h], c ++ [r])
      else UB) (seq 0 (length seeds)) ([], [], []).
  (** MeshingVoroCrust.cpp:454-541. *)
  Definition impose_monitoring (kept : nat) (seeds : list (list F)) (sizing : list F) (regs : list nat)
    (imposed : list (list F * F)) : res (list (list F) * list F * list nat * list (list F * F)) :=
    tree <- st_of_points 3 seeds ;;
    '(valid, sizing) <- fold_res (clear_sphere kept tree) imposed (repeat true (length seeds), sizing) ;;
    imposed <- mapr (snap_imposed tree seeds sizing) imposed ;;
    let bad := length (filter negb valid) in
    if (0 <? bad)%nat then
      '(a, b, c) <- drop_invalid (length seeds - bad) valid seeds sizing regs ;;
      Ok (a, b, c, imposed)
    else Ok (seeds, sizing, regs, imposed).
End Seeds.
