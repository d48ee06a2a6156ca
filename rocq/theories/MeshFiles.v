(** Model of the writers of the volume mesh in src/Meshing/MeshingVoronoiMesher.cpp:
    save_vcg_file_pflotran (2426-2558) and the two versions of save_Voronoi_tessellation
    (2293-2424).

    A file is the record of the values written, in their order; the text of a number is the
    subject of Text.v.  What goes to the console is left out, except the integer division
    of 2553.  Vertices and seeds are rows of three coordinates, a face is the row
    [num_corners; corners...; seed_i; seed_j]. *)
From Verif Require Import Base Num DenseQR Geometry Spheres PolyMesh Regions Interior.

Section Files.
  Context {F : Type} `{Num F}.
  Local Open Scope num_scope.

  (** One line of the section CELLS: 2503-2505. *)
  Record vcg_cell := VCell { vc_number : nat; vc_seed : list F; vc_volume : F; vc_region : nat }.
  (** One line of the section CONNECTIONS: 2537-2541. *)
  Record vcg_link := VLink { vl_from : nat; vl_to : nat; vl_mid : list F; vl_area : F; vl_dir : list F }.
  (** The numbers after CELLS and CONNECTIONS and the lines. *)
  Record vcg := Vcg { vcg_ncells : nat; vcg_cells : list vcg_cell; vcg_nlinks : nat; vcg_links : list vcg_link }.

  (** 2434-2444: seed_new_index (num_seeds for a ghost) and num_meshed_cells. *)
  Definition new_index (regs : list nat) : list nat * nat :=
    fold_left (fun '(l, m) r => if (r =? 0)%nat then (l ++ [length regs], m) else (l ++ [m], S m)) regs ([], 0%nat).

  Definition minus (p q : list F) : nat -> F := fun d => gv p d - gv q d.
  Definition length3 (u : nat -> F) : F := nsqrt (u 0%nat * u 0%nat + u 1%nat * u 1%nat + u 2%nat * u 2%nat).
  (** 2450-2474: the triangles (ko, kk, kp). *)
  Definition face_area (vertices : list (list F)) (f : list nat) : res F :=
    ko <- get f 1 ;; n <- get f 0 ;;
    fold_res (fun i area =>
      kk <- get f i ;; kp <- get f (S i) ;;
      o <- get vertices ko ;; a <- get vertices kk ;; b <- get vertices kp ;;
      Ok (area + nlit 5 1 * length3 (cross (minus a o) (minus b o)))) (seq 2 (n - 2)) n0.
  (** 2476-2481. *)
  Definition face_height (seeds : list (list F)) (f : list nat) : res F :=
    '(i, j) <- face_seeds f ;;
    x <- get seeds i ;; y <- get seeds j ;; Ok (nlit 5 1 * length3 (minus x y)).
  (** 2446-2483: face_area_height. *)
  Definition area_height (vertices seeds : list (list F)) (faces : list (list nat)) : res (list (F * F)) :=
    mapr (fun f => a <- face_area vertices f ;; h <- face_height seeds f ;; Ok (a, h)) faces.
  (** 2496-2500. *)
  Definition cell_volume (ah : list (F * F)) (row : list nat) : res F :=
    fold_res (fun k vol => '(a, h) <- get ah k ;; Ok (vol + a * h / nofZ 3)) row n0.
  (** 2489-2511. *)
  Definition write_cells (seeds : list (list F)) (regs index : list nat) (rows : list (list nat)) (ah : list (F * F))
    : res (list vcg_cell) :=
    fold_res (fun s out =>
      r <- get regs s ;;
      if (r =? 0)%nat then Ok out
      else
        row <- get rows s ;; vol <- cell_volume ah row ;;
        k <- get index s ;; x <- get seeds s ;;
        Ok (out ++ [VCell (S k) [gv x 0; gv x 1; gv x 2] vol r])) (seq 0 (length seeds)) [].
  (** 2517-2542. *)
  Definition write_link (seeds : list (list F)) (regs index : list nat) (ah : list (F * F)) (p : nat * list nat) : res vcg_link :=
    let '(k, f) := p in
    '(i, j) <- face_seeds f ;;
    y <- get seeds j ;; x <- get seeds i ;;
    let n := minus y x in
    let norm := length3 n in
    a <- get index i ;; r <- get regs j ;;
    b <- (if (r =? 0)%nat then Ok a else get index j) ;;
    '(area, _) <- get ah k ;;
    Ok (VLink (S a) (S b) (map (fun d => nlit 5 1 * (gv y d + gv x d)) [0; 1; 2]%nat) area
              (map (fun d => n d / norm) [0; 1; 2]%nat)).
  (** 2426-2558.  The division of 2553 by num_meshed_cells is one of integers. *)
  Definition save_vcg (seeds : list (list F)) (regs : list nat) (vertices : list (list F)) (faces : list (list nat))
    (rows : list (list nat)) : res vcg :=
    let '(index, m) := new_index regs in
    ah <- area_height vertices seeds faces ;;
    cells <- write_cells seeds regs index rows ah ;;
    links <- mapr (write_link seeds regs index ah) (numbered faces) ;;
    if (m =? 0)%nat then UB else Ok (Vcg m cells (length faces) links).

  (** The numbers in the header of a PLY file and the lines after it. *)
  Record ply := Ply { ply_nv : nat; ply_nf : nat; ply_vertices : list (list F); ply_faces : list (list nat) }.
  (** 2316-2320 (2397-2401). *)
  Definition ply_points (vertices : list (list F)) : list (list F) := map (fun p => [gv p 0; gv p 1; gv p 2]) vertices.
  (** 2326-2334 (2409-2417): num_face_corners and the corners. *)
  Definition ply_row (f : list nat) : res (list nat) :=
    n <- get f 0 ;; l <- mapr (get f) (seq 1 n) ;; Ok (n :: l).
  (** 2293-2339. *)
  Definition save_tessellation (vertices : list (list F)) (faces : list (list nat)) : res ply :=
    rows <- mapr ply_row faces ;;
    Ok (Ply (length vertices) (length faces) (ply_points vertices) rows).
  (** 2355-2369: the loop stops at the first corner behind the plane. *)
  Fixpoint in_front (vertices : list (list F)) (xo edir : list F) (f : list nat) (l : list nat) : res bool :=
    match l with
    | [] => Ok true
    | i :: t =>
      k <- get f i ;; p <- get vertices k ;;
      if range_sum 0 3 (fun d => (gv p d - gv xo d) * gv edir d) <? nopp (nlit 1 10) then Ok false
      else in_front vertices xo edir f t
    end.
  Definition valid_face (vertices : list (list F)) (xo edir : list F) (f : list nat) : res bool :=
    n <- get f 0 ;; in_front vertices xo edir f (seq 1 n).
  (** 2341-2424. *)
  Definition save_tessellation_cut (vertices : list (list F)) (faces : list (list nat)) (xo edir : list F) : res ply :=
    valid <- mapr (valid_face vertices xo edir) faces ;;
    let nf := length (filter (fun b => b) valid) in
    rows <- mapr (fun '(b, f) => if (b : bool) then r <- ply_row f ;; Ok [r] else Ok []) (combine valid faces) ;;
    Ok (Ply (length vertices) nf (ply_points vertices) (concat rows)).
End Files.
Arguments vcg_cell F : clear implicits.
Arguments vcg_link F : clear implicits.
Arguments vcg F : clear implicits.
Arguments ply F : clear implicits.
