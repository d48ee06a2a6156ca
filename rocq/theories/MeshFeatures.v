(** Model of the construction of a MeshingPolyMesh (src/Meshing/MeshingPolyMesh.cpp:46-79, 1053-1106, 1408-1611,
    1725-1739, 1793-1819): bounding box, incidences, normals, orientation, sharp features. *)
From Verif Require Import Base Num MemoryHandler DenseQR Geometry PolyMesh.

Section MeshFeatures.
  Context {F : Type} `{Num F}.
  Local Open Scope num_scope.

  (** 1793-1819 build_bounding_box; the diagonal is not used. *)
  Definition box_min (points : list (list F)) : gvec := fun d =>
    fold_left (fun m p => if row_vec p d <? m then row_vec p d else m) points dbl_max.
  Definition box_max (points : list (list F)) : gvec := fun d =>
    fold_left (fun m p => if m <? row_vec p d then row_vec p d else m) points (- dbl_max).

  (** 1425-1429: the smallest of the first [num] entries. *)
  Definition min_face (num : nat) (l : list nat) (start : nat) : res nat :=
    fold_res (fun k m => x <- get l k ;; Ok (if (x <? m)%nat then x else m)) (seq 0 num) start.

  (** 1415-1473: edge [i] of the face number [iface].  The loop over jc (1450-1459) makes the same test three times: it
      compares the corners number ic and icp of the other face. *)
  Definition mesh_edge_of (thr : F) (faces pf : list (list nat)) (normals : list (list F))
    (iface : nat) (f : list nat) (i : nat) (out : list (nat * nat)) : res (list (nat * nat)) :=
    a <- get f i ;; b <- get f (wrap3 i) ;;
    num <- get_num_edge_faces faces pf a b ;;
    '(_, l) <- get_edge_faces faces pf a b ;;
    m <- min_face num l (length faces) ;;
    if negb (m =? iface)%nat then Ok out
    else if negb (num =? 2)%nat then Ok (out ++ [(a, b)])
    else
      fi <- get l 0 ;; fj <- get l 1 ;;
      ni <- get normals fi ;; nj <- get normals fj ;;
      g <- get faces fj ;; x <- get g i ;; y <- get g (wrap3 i) ;;
      let cos_ang := dot_product 3 (row_vec ni) (row_vec nj) in
      let cos_ang := if ((x =? a) && (y =? b))%nat then - cos_ang else cos_ang in
      if cos_ang <? thr then Ok (out ++ [(a, b)]) else Ok out.
  (** 1412-1475. *)
  Definition mesh_sharp_edges (thr : F) (faces pf : list (list nat)) (normals : list (list F)) : res (list (nat * nat)) :=
    fold_res (fun '(iface, f) out => fold_res (mesh_edge_of thr faces pf normals iface f) [0; 1; 2]%nat out) (numbered faces) [].

  (** 1564-1571. *)
  Definition common_vertices (f g : list nat) : nat :=
    length (filter (fun xy => fst xy =? snd xy)%nat (list_prod f g)).
  (** 1557-1575: two faces of the point. *)
  Definition cone_pair (thr : F) (faces : list (list nat)) (normals : list (list F)) (fi fj : nat) : res bool :=
    ni <- get normals fi ;; nj <- get normals fj ;;
    if thr <=? dot_product 3 (row_vec ni) (row_vec nj) then Ok false
    else f <- get faces fi ;; g <- get faces fj ;; Ok (common_vertices f g =? 1)%nat.
  Fixpoint cone_from (thr : F) (faces : list (list nat)) (normals : list (list F)) (fi : nat) (l : list nat) : res bool :=
    match l with
    | [] => Ok false
    | fj :: t => b <- cone_pair thr faces normals fi fj ;; if (b : bool) then Ok true else cone_from thr faces normals fi t
    end.
  (** 1552-1578. *)
  Fixpoint cone (thr : F) (faces : list (list nat)) (normals : list (list F)) (l : list nat) : res bool :=
    match l with
    | [] => Ok false
    | fi :: t => b <- cone_from thr faces normals fi t ;; if (b : bool) then Ok true else cone thr faces normals t
    end.
  (** 1517-1582: is the point a sharp corner? *)
  Definition mesh_corner (thr : F) (points : list (list F)) (edges : list (nat * nat)) (faces pf : list (list nat))
    (normals : list (list F)) (pe : list (list nat)) (p : nat) : res bool :=
    row <- get pe p ;;
    match row with
    | [] => l <- get pf p ;; cone thr faces normals l
    | [ied; jed] =>
      e1 <- get edges ied ;; e2 <- get edges jed ;;
      x <- get points p ;; y1 <- get points (other_end p e1) ;; y2 <- get points (other_end p e2) ;;
      let vi := snd (normalize_vector 3 (fun d => row_vec y1 d - row_vec x d)) in
      let vj := snd (normalize_vector 3 (fun d => row_vec x d - row_vec y2 d)) in
      Ok (dot_product 3 vi vj <? thr)
    | _ => Ok true
    end.
  Fixpoint mesh_corners (thr : F) (points : list (list F)) (edges : list (nat * nat)) (faces pf : list (list nat))
    (normals : list (list F)) (pe : list (list nat)) (l : list nat) : res (list nat) :=
    match l with
    | [] => Ok []
    | p :: t => b <- mesh_corner thr points edges faces pf normals pe p ;;
                r <- mesh_corners thr points edges faces pf normals pe t ;; Ok (if (b : bool) then p :: r else r)
    end.
  (** 1408-1611 extract_model_sharp_features: the sharp edges, the sharp corners, and the sharp edges of each
      point (1113-1155 build_point_sharp_edges, which repeats 1485-1513). *)
  Definition extract_sharp_features (thr : F) (points : list (list F)) (faces pf : list (list nat)) (normals : list (list F))
    : res (list (nat * nat) * list nat * list (list nat)) :=
    edges <- mesh_sharp_edges thr faces pf normals ;;
    pe <- point_edges (length points) edges ;;
    cs <- mesh_corners thr points edges faces pf normals pe (seq 0 (length points)) ;;
    cs <- (match cs with [] => Ok [] | _ => quicksort Nat.ltb cs 0 (length cs - 1) end) ;;
    pse <- point_edges (length points) edges ;;
    Ok (edges, cs, pse).

  (** 1725-1739 sharp_edge. *)
  Fixpoint edge_listed (edges : list (nat * nat)) (pj : nat) (row : list nat) : res bool :=
    match row with
    | [] => Ok false
    | k :: t => e <- get edges k ;; if ((fst e =? pj) || (snd e =? pj))%nat then Ok true else edge_listed edges pj t
    end.
  Definition sharp_edge (edges : list (nat * nat)) (pse : list (list nat)) (pi pj : nat) : res bool :=
    match edges with
    | [] => Ok false
    | _ => row <- get pse pi ;; edge_listed edges pj row
    end.

  (** 1076-1103: the smallest product of normals over edges that are not sharp. *)
  Definition smooth_edge (edges : list (nat * nat)) (pse faces pf : list (list nat)) (normals : list (list F))
    (iface : nat) (f : list nat) (i : nat) (dot_min : F) : res F :=
    a <- get f i ;; b <- get f (wrap3 i) ;;
    s <- sharp_edge edges pse a b ;;
    if (s : bool) then Ok dot_min
    else
      '(_, l) <- get_edge_faces faces pf a b ;;
      e1 <- get l 0 ;; e2 <- get l 1 ;;
      let fi := if (e1 =? iface)%nat then e1 else e2 in
      let fj := if (e1 =? iface)%nat then e2 else e1 in
      ni <- get normals fi ;; nj <- get normals fj ;;
      let dot := dot_product 3 (row_vec ni) (row_vec nj) in
      Ok (if dot <? dot_min then dot else dot_min).
  Definition min_smooth_dot (edges : list (nat * nat)) (pse faces pf : list (list nat)) (normals : list (list F)) : res F :=
    fold_res (fun '(iface, f) m => fold_res (smooth_edge edges pse faces pf normals iface f) [0; 1; 2]%nat m) (numbered faces) n1.

  (** What a MeshingPolyMesh holds after its construction. *)
  Record poly_mesh := PMesh {
    pm_points : list (list F); pm_faces : list (list nat); pm_normals : list (list F);
    pm_edges : list (nat * nat); pm_corners : list nat; pm_point_edges : list (list nat); pm_smooth : F }.
  (** 46-79 the constructor and 1053-1106 process_model.  The threshold is the cosine (53), the answer of
      water_tight_model is ignored (1063-1068), [garbage] is the content of the memory of fixed[0] (1281). *)
  Definition process_model (garbage : bool) (thr : F) (points : list (list F)) (faces : list (list nat)) : res poly_mesh :=
    let xmin := box_min points in let xmax := box_max points in
    pf <- build_point_faces (length points) faces ;;
    '(points, faces, pf) <- remove_isolated_points points faces pf ;;
    _ <- water_tight_model faces pf ;;
    normals <- build_face_normals points faces ;;
    '(faces, normals) <- impose_consistent_orientation garbage xmin xmax points pf faces normals ;;
    '(edges, corners, pse) <- extract_sharp_features thr points faces pf normals ;;
    m <- min_smooth_dot edges pse faces pf normals ;;
    Ok (PMesh points faces normals edges corners pse m).
  (** The query of a mesh. *)
  Definition pm_sharp_edge (m : poly_mesh) : nat -> nat -> res bool := sharp_edge (pm_edges m) (pm_point_edges m).
End MeshFeatures.
Arguments poly_mesh : clear implicits.
