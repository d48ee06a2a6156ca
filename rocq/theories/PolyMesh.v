(** Model of src/Meshing/MeshingPolyMesh.cpp (surface meshes) and of the detection of
    sharp features in MeshingVoroCrustSampler.cpp:248-405.

    A face is the list of its corners; the count stored in front of the corners is the
    length of the list, so corner number i of the code (from 1) is entry i-1 here.  A row
    of _point_faces is the list of the faces recorded so far; the room allocated for it
    is kept separately and a write beyond it is [UB]. *)
From Verif Require Import Base Num MemoryHandler KdTree SmartTree DenseQR Geometry.

(** A loop over a list. *)
Fixpoint fold_res {A St} (f : A -> St -> res St) (l : list A) (s : St) : res St :=
  match l with
  | [] => Ok s
  | a :: t => s1 <- f a s ;; fold_res f t s1
  end.
Definition numbered {A} (l : list A) : list (nat * A) := combine (seq 0 (length l)) l.

(** MeshingPolyMesh.cpp:1168, 1189:  for (i = 1; i <= 3; i++) faces[iface][i]. *)
Definition corners3 (f : list nat) : res (list nat) :=
  a <- get f 0 ;; b <- get f 1 ;; c <- get f 2 ;; Ok [a; b; c].

(** MeshingPolyMesh.cpp:1163-1173: how many faces each point has. *)
Definition count_corner (p : nat) (cnt : list nat) : res (list nat) := c <- get cnt p ;; set cnt p (S c).
Definition count_faces (num_points : nat) (faces : list (list nat)) : res (list nat) :=
  fold_res (fun f cnt => l <- corners3 f ;; fold_res count_corner l cnt) faces (repeat 0 num_points).
(** MeshingPolyMesh.cpp:1189-1192: the row of point p has room for cnt[p] faces. *)
Definition record_face (cnt : list nat) (iface p : nat) (pf : list (list nat)) : res (list (list nat)) :=
  row <- get pf p ;; c <- get cnt p ;;
  if length row <? c then set pf p (row ++ [iface]) else UB.
(** MeshingPolyMesh.cpp:1159-1196 and 1198-1235 build_point_faces. *)
Definition build_point_faces (num_points : nat) (faces : list (list nat)) : res (list (list nat)) :=
  cnt <- count_faces num_points faces ;;
  fold_res (fun '(iface, f) pf => l <- corners3 f ;; fold_res (record_face cnt iface) l pf)
    (numbered faces) (repeat [] num_points).

(** The corner after corner j:  jp = j + 1; if (jp > faces[face][0]) jp = 1. *)
Definition next_corner (f : list nat) (j : nat) : nat := if S j <? length f then S j else 0.

(** MeshingPolyMesh.cpp:1622-1632: one face. *)
Definition count_in_face (pi pj : nat) (f : list nat) (n : nat) : res nat :=
  fold_res (fun j n =>
    a <- get f j ;; b <- get f (next_corner f j) ;;
    let n1 := if (a =? pi) && (b =? pj) then S n else n in
    Ok (if (a =? pj) && (b =? pi) then S n1 else n1)) (seq 0 (length f)) n.
(** MeshingPolyMesh.cpp:1613-1636, 1638-1661 get_num_edge_faces. *)
Definition get_num_edge_faces (faces pf : list (list nat)) (pi pj : nat) : res nat :=
  row <- get pf pi ;;
  fold_res (fun fi n => f <- get faces fi ;; count_in_face pi pj f n) row 0.

(** MeshingPolyMesh.cpp:1676-1688: one face; the loop ends at the first match. *)
Fixpoint edge_from (pi pj : nat) (f : list nat) (l : list nat) : res bool :=
  match l with
  | [] => Ok false
  | j :: t =>
    a <- get f j ;; b <- get f (next_corner f j) ;;
    if ((a =? pi) && (b =? pj)) || ((a =? pj) && (b =? pi)) then Ok true else edge_from pi pj f t
  end.
(** MeshingPolyMesh.cpp:1663-1692, 1694-1723 get_edge_faces: the count, which is also the
    room for entries, and the entries written; the others are uninitialised. *)
Definition get_edge_faces (faces pf : list (list nat)) (pi pj : nat) : res (nat * list nat) :=
  num <- get_num_edge_faces faces pf pi pj ;;
  row <- get pf pi ;;
  l <- fold_res (fun fi out =>
         f <- get faces fi ;; b <- edge_from pi pj f (seq 0 (length f)) ;;
         if (b : bool) then if length out <? num then Ok (out ++ [fi]) else UB else Ok out) row [] ;;
  Ok (num, l).

(** MeshingPolyMesh.cpp:1344-1360 water_tight_model (the loop after it never runs). *)
Definition wrap3 (i : nat) : nat := if S i =? 3 then 0 else S i.
Fixpoint edges_ok (faces pf : list (list nat)) (f : list nat) (l : list nat) : res bool :=
  match l with
  | [] => Ok true
  | i :: t =>
    a <- get f i ;; b <- get f (wrap3 i) ;;
    num <- get_num_edge_faces faces pf a b ;;
    if num =? 1 then Ok false else edges_ok faces pf f t
  end.
Fixpoint all_edges_ok (faces pf : list (list nat)) (l : list (list nat)) : res bool :=
  match l with
  | [] => Ok true
  | f :: t => b <- edges_ok faces pf f [0; 1; 2] ;; if (b : bool) then all_edges_ok faces pf t else Ok false
  end.
Definition water_tight_model (faces pf : list (list nat)) : res bool := all_edges_ok faces pf faces.

(** MeshingPolyMesh.cpp:1756-1770: the kept points and point_new_index, which is
    uninitialised ([None]) for a removed point. *)
Fixpoint compact_points {P} (pts : list P) (pf : list (list nat)) (num_new : nat) : res (list P * list (option nat)) :=
  match pts with
  | [] => Ok ([], [])
  | p :: t =>
    match pf with
    | [] => UB
    | row :: pft =>
      if length row =? 0 then '(np, m) <- compact_points t pft num_new ;; Ok (np, None :: m)
      else '(np, m) <- compact_points t pft (S num_new) ;; Ok (p :: np, Some num_new :: m)
    end
  end.
(** MeshingPolyMesh.cpp:1772-1780: faces[iface][i] = point_new_index[faces[iface][i]]. *)
Fixpoint renumber (m : list (option nat)) (f : list nat) : res (list nat) :=
  match f with
  | [] => Ok []
  | c :: t => o <- get m c ;;
              match o with
              | None => UB
              | Some v => r <- renumber m t ;; Ok (v :: r)
              end
  end.
Fixpoint renumber_all (m : list (option nat)) (faces : list (list nat)) : res (list (list nat)) :=
  match faces with
  | [] => Ok []
  | f :: t => f' <- renumber m f ;; r <- renumber_all m t ;; Ok (f' :: r)
  end.
(** MeshingPolyMesh.cpp:1743-1791 remove_isolated_points. *)
Definition remove_isolated_points {P} (pts : list P) (faces pf : list (list nat))
  : res (list P * list (list nat) * list (list nat)) :=
  if length (filter (fun row => length row =? 0) (firstn (length pts) pf)) =? 0
  then Ok (pts, faces, pf)
  else
    '(np, m) <- compact_points pts pf 0 ;;
    faces' <- renumber_all m faces ;;
    pf' <- build_point_faces (length np) faces' ;;
    Ok (np, faces', pf').

(** MeshingPolyMesh.cpp:1311-1324: if the face jface runs through pi, pj in this order,
    the two corners are exchanged. *)
Fixpoint flip_shared (pi pj : nat) (f : list nat) (l : list nat) : res (option (list nat)) :=
  match l with
  | [] => Ok None
  | j :: t =>
    qi <- get f j ;; qj <- get f (wrap3 j) ;;
    if (qi =? pi) && (qj =? pj)
    then f1 <- set f j qj ;; f2 <- set f1 (wrap3 j) qi ;; Ok (Some f2)
    else flip_shared pi pj f t
  end.
(** State of the loop: faces, fixed, done. *)
Definition ostate := (list (list nat) * list bool * bool)%type.
(** MeshingPolyMesh.cpp:1301-1326: edge i of the face iface. *)
Definition orient_edge (pf : list (list nat)) (iface : nat) (i : nat) (st : ostate) : res ostate :=
  let '(faces, fixed, done) := st in
  f <- get faces iface ;;
  pi <- get f i ;; pj <- get f (wrap3 i) ;;
  num <- get_num_edge_faces faces pf pi pj ;;
  if negb (num =? 2) then Ok st
  else
    '(_, l) <- get_edge_faces faces pf pi pj ;;
    j1 <- get l 0 ;;
    jface <- (if j1 =? iface then get l 1 else Ok j1) ;;
    fx <- get fixed jface ;;
    if (fx : bool) then Ok st
    else
      g <- get faces jface ;;
      o <- flip_shared pi pj g [0; 1; 2] ;;
      fixed' <- set fixed jface true ;;
      match o with
      | None => Ok (faces, fixed', done)
      | Some g' => faces' <- set faces jface g' ;; Ok (faces', fixed', false)
      end.
(** MeshingPolyMesh.cpp:1297-1327: the neighbours of the fixed faces. *)
Definition orient_sweep (pf : list (list nat)) (st : ostate) : res ostate :=
  fold_res (fun iface st =>
    fx <- get (snd (fst st)) iface ;;
    if (fx : bool) then fold_res (orient_edge pf iface) [0; 1; 2] st else Ok st)
    (seq 0 (length (fst (fst st)))) st.
(** MeshingPolyMesh.cpp:1286-1291: the first face that is not fixed. *)
Fixpoint first_free (fixed : list bool) : option nat :=
  match fixed with
  | [] => None
  | true :: t => option_map S (first_free t)
  | false :: _ => Some 0
  end.
(** MeshingPolyMesh.cpp:1284-1330: the loop. *)
Fixpoint orient_loop (fuel : nat) (pf faces : list (list nat)) (fixed : list bool) : res (list (list nat)) :=
  match fuel with
  | O => Fuel
  | S k =>
    match first_free fixed with
    | None => Ok faces
    | Some i =>
      fixed1 <- set fixed i true ;;
      '(faces', fixed', done) <- orient_sweep pf (faces, fixed1, true) ;;
      if (done : bool) then Ok faces' else orient_loop k pf faces' fixed'
    end
  end.
(** MeshingPolyMesh.cpp:1277-1331: fixed[0] is never initialised; [garbage] is what the
    memory contains. *)
Definition orient_faces (garbage : bool) (pf faces : list (list nat)) : res (list (list nat)) :=
  orient_loop (S (length faces)) pf faces
    (match length faces with O => [] | S n => garbage :: repeat false n end).

Section Coordinates.
  Context {F : Type} `{Num F}.
  Local Open Scope num_scope.

  (** A stored point as a vector. *)
  Definition row_vec (x : list F) : gvec := fun d => nth d x n0.

  (** MeshingPolyMesh.cpp:1237-1255, 1257-1275 build_face_normals; corners are the first
      three. *)
  Definition face_normal (points : list (list F)) (f : list nat) : res (list F) :=
    l <- corners3 f ;;
    a <- get points (nth 0 l 0%nat) ;; b <- get points (nth 1 l 0%nat) ;; c <- get points (nth 2 l 0%nat) ;;
    let n := snd (triangle_normal (fun k => row_vec (nth k [a; b; c] []))) in
    Ok [n 0%nat; n 1%nat; n 2%nat].
  Fixpoint build_face_normals (points : list (list F)) (faces : list (list nat)) : res (list (list F)) :=
    match faces with
    | [] => Ok []
    | f :: t => n <- face_normal points f ;; r <- build_face_normals points t ;; Ok (n :: r)
    end.

  (** MeshingPolyMesh.cpp:1831-1838: the point closest to a corner outside the box;
      [None] is "never assigned". *)
  Fixpoint min_point (xc : gvec) (l : list (nat * list F)) (best : option nat * F) : option nat * F :=
    match l with
    | [] => best
    | (i, p) :: t =>
      let h := distance 3 (row_vec p) xc in
      min_point xc t (if h <? snd best then (Some i, h) else best)
    end.
  (** MeshingPolyMesh.cpp:1855-1858. *)
  Definition swap23 (f : list nat) : res (list nat) := aswap f 1 2.
  Fixpoint swap_all (faces : list (list nat)) : res (list (list nat)) :=
    match faces with
    | [] => Ok []
    | f :: t => f' <- swap23 f ;; r <- swap_all t ;; Ok (f' :: r)
    end.
  (** MeshingPolyMesh.cpp:1821-1863 adjust_cad_orientation: faces and normals. *)
  Definition adjust_cad_orientation (xmin xmax : gvec) (points : list (list F)) (pf faces : list (list nat))
    (normals : list (list F)) : res (list (list nat) * list (list F)) :=
    let xc : gvec := fun d => xmin d - (xmax d - xmin d) in
    match fst (min_point xc (numbered points) (None, dbl_max)) with
    | None => UB
    | Some ip =>
      row <- get pf ip ;; fi <- get row 0 ;;
      n <- get normals fi ;; p <- get points ip ;;
      let dot := range_sum 0 3 (fun d => row_vec n d * (xc d - row_vec p d)) in
      if dot <? n0 then
        faces' <- swap_all faces ;; Ok (faces', map (map nopp) normals)
      else Ok (faces, normals)
    end.
  (** MeshingPolyMesh.cpp:1277-1342 impose_consistent_orientation. *)
  Definition impose_consistent_orientation (garbage : bool) (xmin xmax : gvec) (points : list (list F))
    (pf faces : list (list nat)) (normals : list (list F)) : res (list (list nat) * list (list F)) :=
    faces' <- orient_faces garbage pf faces ;;
    adjust_cad_orientation xmin xmax points pf faces' normals.

  (** MeshingPolyMesh.cpp:362-392: the clustering; the tree, point_map. *)
  Fixpoint weld_map (need : nat -> nat -> bool) (hmin : F) (pts : list (list F)) (s : stree F) (m : list nat)
    : res (stree F * list nat) :=
    match pts with
    | [] => Ok (s, m)
    | p :: t =>
      if (length m =? 0)%nat then
        s1 <- add_point need s p None None ;; weld_map need hmin t s1 (m ++ [0%nat])
      else
        '(_, (ic, hc)) <- closest s (fun _ => true) p dbl_max ;;
        if hc <? hmin then weld_map need hmin t s (m ++ [ic])
        else s1 <- add_point need s p None None ;; weld_map need hmin t s1 (m ++ [st_n s])
    end.
End Coordinates.

(** MeshingPolyMesh.cpp:408-416: faces[iface][i] = point_map[faces[iface][i]]. *)
Definition remap_all (m : list nat) (faces : list (list nat)) : res (list (list nat)) :=
  renumber_all (map Some m) faces.
(** MeshingPolyMesh.cpp:425-441: two consecutive corners are the same point. *)
Fixpoint repeats (f : list nat) (l : list nat) : res bool :=
  match l with
  | [] => Ok false
  | i :: t => a <- get f i ;; b <- get f (next_corner f i) ;;
              if a =? b then Ok true else repeats f t
  end.
(** MeshingPolyMesh.cpp:435-437: num_faces--; faces[iface] = faces[num_faces]. *)
Definition swap_out {A} (l : list A) (i : nat) : res (list A) :=
  x <- get l (length l - 1) ;; l1 <- set l i x ;; Ok (firstn (length l - 1) l1).
(** MeshingPolyMesh.cpp:418-446. *)
Fixpoint drop_degenerate (fuel : nat) (iface : nat) (faces : list (list nat)) : res (list (list nat)) :=
  if iface <? length faces then
    match fuel with
    | O => Fuel
    | S k =>
      f <- get faces iface ;;
      b <- repeats f (seq 0 (length f)) ;;
      if (b : bool) then faces' <- swap_out faces iface ;; drop_degenerate k iface faces'
      else drop_degenerate k (S iface) faces
    end
  else Ok faces.
(** MeshingPolyMesh.cpp:362-501 weld_nearby_points (the block under  if (false)  is left
    out). *)
Definition weld_nearby_points {F} `{Num F} (need : nat -> nat -> bool) (hmin : F) (pts : list (list F))
  (faces : list (list nat)) : res (list (list F) * list (list nat)) :=
  '(s, m) <- weld_map need hmin pts (st_new 3) [] ;;
  if st_n s =? length pts then Ok (pts, faces)
  else
    faces1 <- remap_all m faces ;;
    faces2 <- drop_degenerate (length faces1) 0 faces1 ;;
    Ok (map (firstn 3) (st_pts s), faces2).

(** * Sharp features, MeshingVoroCrustSampler.cpp:248-405 *)
Section Features.
  Context {F : Type} `{Num F}.
  Local Open Scope num_scope.

  Definition ordered_pair (a b : nat) : nat * nat := if (a <? b)%nat then (a, b) else (b, a).
  (** MeshingVoroCrustSampler.cpp:271-303: edge [i] of a face. *)
  Definition sharp_edge_of (thr : F) (faces pf : list (list nat)) (normals : list (list F))
    (f : list nat) (i : nat) (out : list (nat * nat)) : res (list (nat * nat)) :=
    a <- get f i ;; b <- get f (wrap3 i) ;;
    num <- get_num_edge_faces faces pf a b ;;
    if negb (num =? 2)%nat then Ok (out ++ [ordered_pair a b])
    else if (a <? b)%nat then
      '(_, l) <- get_edge_faces faces pf a b ;;
      fi <- get l 0 ;; fj <- get l 1 ;;
      ni <- get normals fi ;; nj <- get normals fj ;;
      if dot_product 3 (row_vec ni) (row_vec nj) <? thr then Ok (out ++ [ordered_pair a b]) else Ok out
    else Ok out.
  (** MeshingVoroCrustSampler.cpp:266-305. *)
  Definition sharp_edges (thr : F) (faces pf : list (list nat)) (normals : list (list F)) : res (list (nat * nat)) :=
    fold_res (fun f out => fold_res (sharp_edge_of thr faces pf normals f) [0; 1; 2]%nat out) faces [].

  (** MeshingVoroCrustSampler.cpp:307-345: the sharp edges of each point, in order; the
      rows are exactly filled, as in build_point_faces.  Simplified for an edge with equal
      ends: the code then writes the same entry twice and leaves the next uninitialised;
      this does not happen for triangles with three different corners. *)
  Definition point_edges (num_points : nat) (edges : list (nat * nat)) : res (list (list nat)) :=
    cnt <- fold_res (fun '(a, b) cnt => c1 <- count_corner a cnt ;; count_corner b c1) edges (repeat 0%nat num_points) ;;
    fold_res (fun '(ie, (a, b)) pe => p1 <- record_face cnt ie a pe ;; record_face cnt ie b p1)
      (numbered edges) (repeat [] num_points).

  Definition same_edge (e e' : nat * nat) : bool := (fst e =? fst e')%nat && (snd e =? snd e')%nat.
  (** MeshingVoroCrustSampler.cpp:347-365, 375-389: the edges of a point without
      repetitions, in order; the code counts them and picks the first two. *)
  Fixpoint distinct_edges (l : list (nat * nat)) (seen : list (nat * nat)) : list (nat * nat) :=
    match l with
    | [] => []
    | e :: t => if existsb (same_edge e) seen then distinct_edges t (seen ++ [e])
                else e :: distinct_edges t (seen ++ [e])
    end.
  Fixpoint gather_edges (edges : list (nat * nat)) (l : list nat) : res (list (nat * nat)) :=
    match l with
    | [] => Ok []
    | i :: t => e <- get edges i ;; r <- gather_edges edges t ;; Ok (e :: r)
    end.
  Definition other_end (p : nat) (e : nat * nat) : nat := if (fst e =? p)%nat then snd e else fst e.
  (** MeshingVoroCrustSampler.cpp:345-405: is the point a sharp corner? *)
  Definition sharp_corner (thr : F) (points : list (list F)) (edges : list (nat * nat)) (row : list nat) (p : nat) : res bool :=
    l <- gather_edges edges row ;;
    match distinct_edges l [] with
    | [] => Ok false
    | [e1; e2] =>
      x <- get points p ;; y1 <- get points (other_end p e1) ;; y2 <- get points (other_end p e2) ;;
      Ok (- cos_angle 3 (row_vec y1) (row_vec x) (row_vec y2) <? thr)
    | _ => Ok true
    end.
  Fixpoint sharp_corners_from (thr : F) (points : list (list F)) (edges : list (nat * nat)) (pe : list (list nat)) (l : list nat) : res (list nat) :=
    match l with
    | [] => Ok []
    | p :: t => row <- get pe p ;; b <- sharp_corner thr points edges row p ;;
                r <- sharp_corners_from thr points edges pe t ;; Ok (if (b : bool) then p :: r else r)
    end.
  (** MeshingVoroCrustSampler.cpp:248-405: sharp edges and sharp corners. *)
  Definition detect_features (thr : F) (points : list (list F)) (faces : list (list nat)) : res (list (nat * nat) * list nat) :=
    pf <- build_point_faces (length points) faces ;;
    normals <- build_face_normals points faces ;;
    edges <- sharp_edges thr faces pf normals ;;
    pe <- point_edges (length points) edges ;;
    cs <- sharp_corners_from thr points edges pe (seq 0 (length points)) ;;
    Ok (edges, cs).
End Features.
