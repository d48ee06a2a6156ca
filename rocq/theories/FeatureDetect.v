(** Model of the feature detection for an input that is not clean:
    src/Meshing/MeshingVoroCrustSampler.cpp:549-1074 detect_features_generate_point_clouds.
    Its first part (570-672, the surface point cloud) is PointCloud.v.  The buffers dart, proj
    and corners are values here; [k] counts the random numbers drawn so far; the arrays with a
    capacity (MemoryHandler.v) are lists. *)
From Verif Require Import Base Num KdTree SmartTree Sampling Geometry Spheres PolyMesh Regions SurfaceLoop PointCloud.

Section FeatureDetect.
  Context {F : Type} `{Num F}.
  Local Open Scope num_scope.
  Variable points : list (list F).
  Variable u : nat -> F.
  (** smooth_angle_threshold and rmin. *)
  Variables thr rmin : F.

  (** The calls add_tree_point on an empty tree after disable_auto_balance, then
      kd_tree_build_balanced (563, 592-667, 675; 890, 899-915). *)
  Definition tree_of (l : list (@cpoint F)) : res (stree F) :=
    run (fun _ _ => false) (st_new 3)
      (map (fun e => OpAdd (cp_x e) (Some (cp_normal e)) (Some [2%nat; cp_face e])) l ++ [OpBuild]).

  (** surface_point_cloud, faces[] and face_normal[] (None: no normal) after line 672, and
      min_feature_size_surface. *)
  Variable cloud : stree F.
  Variable fs : list (list nat).
  Variable fnormal : list (option (list F)).
  Variable feature : F.

  Definition face_normal (i : nat) : res (list F) :=
    o <- get fnormal i ;; match o with None => UB | Some v => Ok v end.
  Definition face_corners (i : nat) : res (list (list F)) := f <- get fs i ;; corners_of points f.

  (** 706-714, 747-756, 792-801. *)
  Definition redundant (ns : list (list F)) (v : list F) : bool :=
    existsb (fun w => thr <? dot_product 3 (gv w) (gv v)) ns.

  (** 731-735, 853-856, 1001-1005: the face of the nearest point of the cloud that is not smooth
      seen from x.  Without such a point the index is _num_points, past the attributes. *)
  Definition face_across (x : list F) : res nat :=
    '(j, _) <- closest_nonsmooth cloud x rmin thr dbl_max ;; face_of cloud j.

  (** 722-762: the darts on the face with normal [v] and corners [cs]; [x] is the point. *)
  Fixpoint narrow (m : nat) (v : list F) (cs : list (list F)) (x : list F) (ns : list (list F)) (k : nat) : res (list (list F)) :=
    match m with
    | O => Ok ns
    | S m' =>
      d <- simplex_sample u k 3 3 cs ;;
      f <- face_across d ;;
      w <- face_normal f ;;
      if dot_product 3 (gv v) (gv w) <=? thr then narrow m' v cs x ns (k + 2)
      else
        cj <- face_corners f ;;
        let o := map (fun i => nopp (gv w i)) (seq 0 3) in
        if (snd (project_triangle (gv x) (corner cj)) <? rmin) && negb (redundant ns o)
        then narrow m' v cs x (ns ++ [o]) (k + 2)
        else narrow m' v cs x ns (k + 2)
    end.
  (** 722. *)
  Definition narrow_darts : nat := 10.

  (** 766-810. *)
  Fixpoint around (fuel : nat) (x : list F) (ns : list (list F)) : res (list (list F)) :=
    match fuel with
    | O => Fuel
    | S fu =>
      '(j, h) <- closest_nonsmooth_normals cloud x ns thr dbl_max ;;
      if h <? feature then
        f <- face_of cloud j ;;
        cj <- face_corners f ;;
        if snd (project_triangle (gv x) (corner cj)) <? rmin then
          w <- face_normal f ;;
          if redundant ns w then Ok ns else around fu x (ns ++ [w])
        else Ok ns
      else Ok ns
    end.

  (** 699-811: corner number i (1, 2, 3) of face [iface]. *)
  Definition point_normals (fuel iface i : nat) (st : list bool * list (list (list F)) * nat) : res (list bool * list (list (list F)) * nat) :=
    let '(visited, normals, k) := st in
    f <- get fs iface ;;
    p <- get f i ;;
    b <- get visited p ;;
    if (b : bool) then Ok st else
    visited <- set visited p true ;;
    ns <- get normals p ;;
    v <- face_normal iface ;;
    x <- get points p ;;
    cs <- face_corners iface ;;
    let ns := if redundant ns v then ns else ns ++ [v] in
    ns <- narrow narrow_darts v cs x ns k ;;
    ns <- around fuel x ns ;;
    normals <- set normals p ns ;;
    Ok (visited, normals, (k + 2 * narrow_darts)%nat).
  (** 681-813: the normals at every point, and the random numbers drawn so far. *)
  Definition all_normals (fuel k : nat) : res (list (list (list F)) * nat) :=
    let n := length points in
    '(_, normals, k) <-
      fold_res (fun iface st => fold_res (point_normals fuel iface) [1; 2; 3]%nat st) (seq 0 (length fs))
        (repeat false n, repeat [] n, k) ;;
    Ok (normals, k).

  (** 827-836: is there a point across within the reach of the face? *)
  Definition worth (cs : list (list F)) : res bool :=
    let c := corner cs in
    let x := map (fun d => (c 0%nat d + c 1%nat d + c 2%nat d) / nofZ 3) (seq 0 3) in
    let d := fun i => distance 3 (gv x) (c i) in
    let dmax := nmax (nmax (d 0%nat) (d 1%nat)) (d 2%nat) in
    '(_, h) <- closest_nonsmooth cloud x rmin thr dbl_max ;;
    Ok (negb (dmax <? h)).
  (** 847-874: an edge with midpoint [mid] of the face with corners [cs]: is it sharp, and the random
      numbers drawn. *)
  Fixpoint edge_darts (m : nat) (cs : list (list F)) (mid : gvec) (k : nat) : res (bool * nat) :=
    match m with
    | O => Ok (false, k)
    | S m' =>
      d <- simplex_sample u k 3 3 cs ;;
      f <- face_across d ;;
      cj <- face_corners f ;;
      if (rmin <? snd (project_triangle (gv d) (corner cj)))
         && (snd (project_triangle mid (corner cj)) <? nlit 1 1 * rmin)
      then Ok (true, (k + 2)%nat)
      else edge_darts m' cs mid (k + 2)
    end.
  (** 846. *)
  Definition edge_trials : nat := 100.
  (** 840-876: the edge from corner i to the next one of face [iface]. *)
  Definition face_edge (iface i : nat) (st : list (list nat) * nat) : res (list (list nat) * nat) :=
    let '(es, k) := st in
    f <- get fs iface ;;
    a <- get f i ;; b <- get f (if Nat.eqb (i + 1) 4 then 1 else i + 1)%nat ;;
    xa <- get points a ;; xb <- get points b ;;
    cs <- face_corners iface ;;
    '(sharp, k) <- edge_darts edge_trials cs (fun d => nlit 5 1 * (gv xa d + gv xb d)) k ;;
    if (sharp : bool) then Ok (es ++ [if Nat.ltb a b then [a; b] else [b; a]], k) else Ok (es, k).
  (** 815-879: the sharp edges. *)
  Definition sharp_edges (k : nat) : res (list (list nat) * nat) :=
    fold_res (fun iface st =>
      cs <- face_corners iface ;;
      b <- worth cs ;;
      if (b : bool) then fold_res (face_edge iface) [1; 2; 3]%nat st else Ok st) (seq 0 (length fs)) ([], k).

  Section Edges.
    Variable es : list (list nat).
    (** The end points of edge [i]. *)
    Definition edge_ends (i : nat) : res (nat * nat * list F * list F) :=
      e <- get es i ;; a <- get e 0 ;; b <- get e 1 ;; x <- get points a ;; y <- get points b ;; Ok (a, b, x, y).
    (** 882-888: edge_spacing; [budget] is num_edge_points = 100000. *)
    Definition edge_spacing (budget : Z) : res F :=
      l <- mapr (fun i => '(_, _, x, y) <- edge_ends i ;; Ok (distance 3 (gv x) (gv y))) (seq 0 (length es)) ;;
      Ok (fold_left nadd l n0 / nofZ budget).
    (** 892-913: the points of edge [i], with its direction. *)
    Definition tangent (x y : list F) : gvec := snd (normalize_vector 3 (fun d => gv y d - gv x d)).
    Definition edge_points (spacing : F) (i : nat) : res (list (@cpoint F)) :=
      '(_, _, x, y) <- edge_ends i ;;
      let len := distance 3 (gv x) (gv y) in
      let t := tangent x y in
      let tl := map t (seq 0 3) in
      let num := Z.to_nat (ntrunc (len / spacing)) in
      let num := if Nat.ltb num 5 then 5%nat else num in
      let dx := len / nofZ (Z.of_nat (num + 1)) in
      Ok (CPoint (map (gv x) (seq 0 3)) tl i :: CPoint (map (gv y) (seq 0 3)) tl i
          :: map (fun j => CPoint (map (fun d => gv x d + nofZ (Z.of_nat j) * dx * t d) (seq 0 3)) tl i) (seq 1 num)).
    Definition edge_cloud (spacing : F) : res (list (@cpoint F)) :=
      l <- mapr (edge_points spacing) (seq 0 (length es)) ;; Ok (concat l).

    (** The edge point cloud. *)
    Variable ecloud : stree F.
    Definition edge_across (x : list F) : res nat :=
      '(j, _) <- closest_nonsmooth_edge ecloud x (nlit 1 10) thr dbl_max ;; face_of ecloud j.

    (** point_on_sharp_corner and the list of corners. *)
    Definition marks : Type := list bool * list nat.
    (** 983-994, 1017-1028: [far] is proj_dst > rmin, [h] the distance of the point. *)
    Definition mark (far : bool) (h : F) (p : nat) (st : marks) : res marks :=
      let '(on, l) := st in
      if far && (h <? nlit 1 1 * rmin) then
        b <- get on p ;;
        if (b : bool) then Ok st else on <- set on p true ;; Ok (on, l ++ [p])
      else Ok st.
    (** 953-1031: one dart near an end of edge (a, b) with ends x, y. *)
    Definition corner_dart (a b : nat) (x y d : list F) (st : marks) : res marks :=
      e <- edge_across d ;;
      '(_, _, p, q) <- edge_ends e ;;
      let to_edge := fun z => snd (project_segment z (gv p) (gv q)) in
      let far := rmin <? to_edge (gv d) in
      st <- mark far (to_edge (gv x)) a st ;;
      st <- mark far (to_edge (gv y)) b st ;;
      f <- face_across d ;;
      cj <- face_corners f ;;
      let to_face := fun z => snd (project_triangle z (corner cj)) in
      let far := rmin <? to_face (gv d) in
      st <- mark far (to_face (gv x)) a st ;;
      mark far (to_face (gv y)) b st.
    (** 950-966: dart number [i] of 100; [s] is the random number. *)
    Definition corner_place (i : nat) (s : F) (x y : list F) (t : gvec) (len : F) : list F :=
      if Nat.ltb i 50
      then let s := if Nat.eqb i 0 then n0 else s in map (fun d => gv x d + s * len * t d) (seq 0 3)
      else let s := if Nat.eqb i 50 then n0 else s in map (fun d => gv y d - s * len * t d) (seq 0 3).
    Fixpoint corner_darts (m i : nat) (a b : nat) (x y : list F) (t : gvec) (len : F) (k : nat) (st : marks) : res marks :=
      match m with
      | O => Ok st
      | S m' => st <- corner_dart a b x y (corner_place i (u k) x y t len) st ;;
                corner_darts m' (S i) a b x y t len (S k) st
      end.
    (** 950. *)
    Definition corner_trials : nat := 100.
    (** 929-1033: edge [i].  The second component is the array point_on_sharp_edge. *)
    Definition edge_corners (spacing : F) (i : nat) (st : marks * list bool * nat) : res (marks * list bool * nat) :=
      let '(mk, on_edge, k) := st in
      '(a, b, x, y) <- edge_ends i ;;
      on_edge <- set on_edge a true ;;
      on_edge <- set on_edge b true ;;
      let len := distance 3 (gv x) (gv y) in
      '(_, h) <- closest_nonsmooth_edge ecloud (map (fun d => nlit 5 1 * (gv x d + gv y d)) (seq 0 3)) (nlit 1 10) thr dbl_max ;;
      if nlit 5 1 * len <? h then Ok (mk, on_edge, k) else
      let len := if n2 * spacing <? len then n2 * spacing else len in
      mk <- corner_darts corner_trials 0 a b x y (tangent x y) len k mk ;;
      Ok (mk, on_edge, (k + corner_trials)%nat).
    (** 1035-1052. *)
    Definition normal_corner (normals : list (list (list F))) (on_edge : list bool) (p : nat) (st : marks) : res marks :=
      let '(on, l) := st in
      b <- get on p ;;
      if (b : bool) then Ok st else
      ns <- get normals p ;;
      if Nat.ltb 2 (length ns) then on <- set on p true ;; Ok (on, l ++ [p])
      else e <- get on_edge p ;;
           if negb e && Nat.ltb 1 (length ns) then on <- set on p true ;; Ok (on, l ++ [p]) else Ok st.
    (** 918-1052: the sharp corners. *)
    Definition sharp_corners (spacing : F) (normals : list (list (list F))) (k : nat) : res (list nat) :=
      let n := length points in
      '(mk, on_edge, _) <- fold_res (edge_corners spacing) (seq 0 (length es)) ((repeat false n, []), repeat false n, k) ;;
      '(_, l) <- fold_res (normal_corner normals on_edge) (seq 0 n) mk ;;
      Ok l.
  End Edges.
End FeatureDetect.

(** What the function leaves: the clouds, the sharp edges and corners. *)
Record features {F : Type} := Features {
  ft_surface : stree F;
  ft_edge_points : list (@cpoint F);
  ft_edge_cloud : stree F;
  ft_edges : list (list nat);
  ft_corners : list nat }.
Arguments features : clear implicits.

(** MeshingVoroCrustSampler.cpp:549-1074 detect_features_generate_point_clouds.  [budget] is
    1000000 (607, 630), [ebudget] is 100000 (886). *)
Definition detect_features {F} `{Num F} (points : list (list F)) (recs : list (list nat)) (u : nat -> F)
  (thr rmin : F) (budget : nat) (ebudget : Z) (fuel : nat) : res (features F) :=
  '(s, r) <- surface_cloud points recs u budget (per_face budget) ;;
  cloud <- tree_of (pc_points s) ;;
  fs <- mapr (load recs s) (seq 0 (pc_num s)) ;;
  let fn := pc_normal s in
  '(normals, k) <- all_normals points u thr rmin cloud fs fn (nofZ 10 * r)%num fuel (pc_draws s) ;;
  '(es, k) <- sharp_edges points u thr rmin cloud fs k ;;
  spacing <- edge_spacing points es ebudget ;;
  l <- edge_cloud points es spacing ;;
  ecloud <- tree_of l ;;
  cs <- sharp_corners points u thr rmin cloud fs es ecloud spacing normals k ;;
  Ok (Features cloud l ecloud es cs).
