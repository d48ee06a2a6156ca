(** Model of valid_surface_mesh (src/Meshing/MeshingPolyMesh.cpp:866-993), which shrinks the spheres at the ends of open edges.
    Simplified: what is printed; the file clean_mesh.obj is the pair (points, faces) given to save_mesh_obj (Text.v).
    A face is the list of its three corners (see PolyMesh.v). *)
From Verif Require Import Base Num KdTree SmartTree DenseQR Geometry Spheres PolyMesh.

Section ShrinkOpen.
  Context {F : Type} `{Num F}.
  Local Open Scope num_scope.

  (** The three trees of spheres and the flags surface_sphere_shrunk, edge_sphere_shrunk, corner_sphere_shrunk. *)
  Record balls := Balls { b_s : stree F; b_e : stree F; b_c : stree F; f_s : bool; f_e : bool; f_c : bool }.

  (** 938-942 and the same for the other trees: if (r > rmax) set_tree_point_attrib(i, 0, rmax). *)
  Definition shrink_to (rmax : F) (s : stree F) (i : nat) : res (stree F * bool) :=
    r <- get_radius s i ;;
    if rmax <? r then s' <- set_radius s i rmax ;; Ok (s', true) else Ok (s, false).
  (** 932-976: one end of an open edge; a corner sphere sets edge_sphere_shrunk (969). *)
  Definition shrink_end (rmax : F) (m : nat) (b : balls) : res balls :=
    let ns := st_n (b_s b) in let ne := st_n (b_e b) in let nc := st_n (b_c b) in
    if (m <? ns)%nat then '(s, t) <- shrink_to rmax (b_s b) m ;; Ok (Balls s (b_e b) (b_c b) (t || f_s b) (f_e b) (f_c b))
    else if (m <? ns + ne)%nat then '(s, t) <- shrink_to rmax (b_e b) (m - ns) ;; Ok (Balls (b_s b) s (b_c b) (f_s b) (t || f_e b) (f_c b))
    else if (m <? ns + ne + nc)%nat then
      '(s, t) <- shrink_to rmax (b_c b) (m - ns - ne) ;; Ok (Balls (b_s b) (b_e b) s (f_s b) (t || f_e b) (f_c b))
    else Ok b.
  (** 920-978: the edge from i1 to i2. *)
  Definition open_check (points : list (list F)) (faces pf : list (list nat)) (i1 i2 : nat) (b : balls) : res balls :=
    num <- get_num_edge_faces faces pf i1 i2 ;;
    if (num =? 1)%nat then
      p1 <- get points i1 ;; p2 <- get points i2 ;;
      let rmax := nlit 49 2 * distance 3 (gv p1) (gv p2) in
      b1 <- shrink_end rmax i1 b ;; shrink_end rmax i2 b1
    else Ok b.
  (** 916-979: the three edges of a face. *)
  Definition open_face (points : list (list F)) (faces pf : list (list nat)) (f : list nat) (b : balls) : res balls :=
    fold_res (fun i b => i1 <- get f i ;; i2 <- get f (wrap3 i) ;; open_check points faces pf i1 i2 b) [0; 1; 2]%nat b.
  (** 869-881: the centres, in the order surface, edge, corner (get_tree_point copies _num_dim numbers). *)
  Definition centres (b : balls) : list (list F) :=
    map (firstn (st_nd (b_s b))) (st_pts (b_s b)) ++ map (firstn (st_nd (b_e b))) (st_pts (b_e b)) ++ map (firstn (st_nd (b_c b))) (st_pts (b_c b)).
  (** 866-993: the returned value (0), the trees and flags, and the mesh that is saved.  The incidences (888-914) are built as in
      [build_point_faces]. *)
  Definition valid_surface_mesh (b : balls) (faces : list (list nat)) : res (bool * balls * (list (list F) * list (list nat))) :=
    let points := centres b in
    pf <- build_point_faces (length points) faces ;;
    b' <- fold_res (open_face points faces pf) faces b ;;
    Ok (false, b', (points, faces)).
End ShrinkOpen.
Arguments balls F : clear implicits.
