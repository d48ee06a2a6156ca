(** Model of generate_edge_spheres (MeshingVoroCrustSampler.cpp:1174-1377) and
    sample_active_edges_uniformly (2433-2468).  Left out: time measurements, messages, the file
    edges_spheres.csv (see TextTree.v) and the statistics of the radii (rmin, imin, min_radius, max_radius). *)
From Verif Require Import Base Num KdTree SmartTree DenseQR Geometry Spheres Sampling ActivePool SamplePool PolyMesh SurfaceLoop.

Section EdgeLoop.
  Context {F : Type} `{Num F}.
  Local Open Scope num_scope.

  (** What does not change: the points and the sharp edges, the two clouds, _input_sizing_function, the corner spheres,
      feature_TOL, smooth_angle_threshold, rmax, Lip, coverage_radius_ratio and _r_min_edges. *)
  Record esetting := ESet {
    d_points : list (list F); d_edges : list (list nat);
    d_cloud : stree F; d_ecloud : stree F; d_input : option (stree F); d_cs : stree F;
    d_tol : F; d_thr : F; d_rmax : F; d_Lip : F; d_ratio : F; d_rme : F
  }.
  (** What changes: the edge spheres, num_samples, new_sphere[3], and how many random numbers have been drawn. *)
  Record eprogress := EProg { h_es : stree F; h_num : nat; h_old : F; h_k : nat }.

  (** [need]: the test for rebuilding a tree; [u]: the random numbers. *)
  Variables (need : nat -> nat -> bool) (u : nat -> F) (w : esetting).

  (** MeshingVoroCrustSampler.cpp:2433-2468 sample_active_edges_uniformly: the dart (three coordinates) and its edge.
      It draws two numbers, the first of them number k. *)
  Definition sample_edge (p : pool F) (k : nat) : res (list F * nat) :=
    i <- pool_pick (u k) (p_cdf p) ;;
    e <- get (p_parent p) i ;;
    '(a, b, _) <- edge_corners (d_points w) (d_edges w) p i ;;
    Ok (map (fun d => gv a d + u (k + 1) * (gv b d - gv a d)) [0; 1; 2]%nat, e).

  (** 1227-1271: the radius of a new sphere; alpha_sz is 0.4 (line 41). *)
  Definition edge_radius (es : stree F) (num : nat) (x : list F) : res F :=
    b <- closest_nonsmooth (d_cloud w) x (d_tol w) (d_thr w) dbl_max ;;
    let surf_sz := nlit 4 1 * snd b in
    b <- closest_nonsmooth_edge (d_ecloud w) x (d_tol w) (d_thr w) dbl_max ;;
    let edge_sz := nlit 4 1 * snd b in
    b <- closest_nonsmooth_edge (d_cs w) x (d_tol w) (d_thr w) dbl_max ;;
    let edge_sz := nmin edge_sz (nlit 4 1 * snd b) in
    edge_sz <- (if Nat.ltb 1 num
                then l <- get_overlapping_spheres x es (d_Lip w) ;;
                     limit_all (d_Lip w) (nsqrt (n1 - d_ratio w * d_ratio w)) es x l edge_sz
                else Ok edge_sz) ;;
    let r := nmin surf_sz edge_sz in
    let r := if d_rmax w <? r then d_rmax w else r in
    let r := if r <? d_rme w then d_rme w else r in
    input_limit (d_input w) x r.

  (** 1207 max_num_successive_misses. *)
  Definition edge_misses : nat := 100.
  (** 1207-1303: sampling until the pool is empty. *)
  Fixpoint fill_edges (fuel : nat) (st : eprogress) (p : pool F) (misses : nat) : res eprogress :=
    match fuel with
    | O => Fuel
    | S f =>
      '(x, e) <- sample_edge p (h_k st) ;;
      let row := x ++ [h_old st] in
      covered <- point_covered (d_cs w) row (d_Lip w) n0 ;;
      covered <- (if (covered : bool) then Ok true else point_covered (h_es st) row (d_Lip w) (d_ratio w)) ;;
      '(st1, m) <- (if (covered : bool)
                    then Ok (EProg (h_es st) (h_num st) (h_old st) (h_k st + 2), S misses)
                    else r <- edge_radius (h_es st) (h_num st) row ;;
                         es <- add_point need (h_es st) (x ++ [r]) None (Some [2%nat; e]) ;;
                         Ok (EProg es (S (h_num st)) r (h_k st + 2), 0%nat)) ;;
      if Nat.eqb m edge_misses
      then p' <- refine_pool_edges (d_points w) (d_edges w) (h_es st1) (d_cs w) (d_Lip w) (d_ratio w) p ;;
           if Nat.eqb (p_size p') 0 then Ok st1 else fill_edges f st1 p' 0
      else fill_edges f st1 p m
    end.

  (** 1325-1352: sphere i, on edge [ei], and the overlapping sphere j. *)
  Definition edge_narrow_pair (i ei j : nat) (st : stree F * bool) : res (stree F * bool) :=
    let '(es, b) := st in
    ej <- face_of es j ;;
    if Nat.eqb ei ej then Ok st else
    ed <- get (d_edges w) ej ;; j1 <- get ed 0 ;; j2 <- get ed 1 ;;
    x1 <- corner (d_points w) j1 ;; x2 <- corner (d_points w) j2 ;;
    si <- get_sphere es i ;;
    let '(proj, dst) := project_segment (gv si) (gv x1) (gv x2) in
    let '(good, tangent) := normalize_vector 3 (fun d => gv x2 d - gv x1 d) in
    if (good : bool) then
      let '(good, v) := normalize_vector 3 (fun d => gv si d - proj d) in
      if (good : bool) then
        if d_thr w <? nabs (dot_product 3 tangent v) then Ok st else
        let dst := dst * nlit 4 1 in
        if dst <? d_tol w then Ok st else
        let dst := if dst <? d_rme w then d_rme w else dst in
        if gv si 3%nat <? (n1 + nlit 1 8) * dst then Ok st else
        es' <- set_radius es i dst ;; Ok (es', true)
      else Ok st
    else Ok st.
  (** 1310-1356. *)
  Definition edge_narrow (es : stree F) (num : nat) : res (stree F * bool) :=
    for_res num 0 (fun i st =>
      si <- get_sphere (fst st) i ;;
      ei <- face_of (fst st) i ;;
      ed <- get (d_edges w) ei ;; _ <- get ed 0 ;; _ <- get ed 1 ;;
      l <- get_overlapping_spheres si (fst st) (d_Lip w) ;;
      fold_res (edge_narrow_pair i ei) l st) (es, false).

  (** 1200-1360: the outer loop. *)
  Fixpoint edge_loop (fuel inner : nat) (st : eprogress) : res (stree F) :=
    match fuel with
    | O => Fuel
    | S f =>
      p <- start_edges (d_points w) (d_edges w) ;;
      st <- fill_edges inner st p 0 ;;
      let again := fun es => edge_loop f inner (EProg es (h_num st) (h_old st) (h_k st)) in
      '(s1, b) <- impose_lipschitz inner (d_Lip w) (h_es st) false ;;
      if (b : bool) then again s1 else
      '(s2, b) <- edge_narrow s1 (h_num st) ;;
      if (b : bool) then again s2 else Ok s2
    end.
  (** MeshingVoroCrustSampler.cpp:1174-1377 generate_edge_spheres, for a tree of spheres that is empty
      (MeshingVoroCrust.cpp:254); [mem] is what the memory of new_sphere[3] holds at the start, [fuel] bounds the passes and
      [inner] each of the loops in a pass. *)
  Definition generate_edge_spheres (fuel inner : nat) (mem : F) : res (stree F) :=
    edge_loop fuel inner (EProg (st_new 3) 0 mem 0).
End EdgeLoop.
Arguments esetting : clear implicits.
Arguments eprogress : clear implicits.
