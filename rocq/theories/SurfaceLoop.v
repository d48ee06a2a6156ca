(** Model of generate_surface_spheres (MeshingVoroCrustSampler.cpp:1380-1646): sampling until
    the surface is covered, then the checks that shrink spheres and start again.
    Left out: time measurements, messages, the files, _ymin, the block `if (... && false)`
    (1497-1516) and the report of the radii at the end. *)
From Verif Require Import Base Num KdTree SmartTree DenseQR Geometry Spheres ActivePool SamplePool SeedPairs PolyMesh Validate.

Section SurfaceLoop.
  Context {F : Type} `{Num F}.
  Local Open Scope num_scope.

  (** What does not change: the mesh, the parameters, the edge and corner spheres. *)
  Record setting := Setting {
    s_points : list (list F); s_faces : list (list nat); s_z : sizing F; s_es : stree F; s_cs : stree F
  }.
  (** What the model leaves open: the test for rebuilding a tree, the random numbers
      [e_u t j] of thread t, the interleaving of the threads that refine the pool [e_sched k p], and for pass [it]
      of the outer loop the values of [oracle] except the corners of the faces. *)
  Record environment := Env {
    e_need : nat -> nat -> bool; e_u : nat -> nat -> F; e_sched : nat -> pool F -> list nat;
    e_darts : nat -> nat -> nat -> nat -> nat -> @gvec F; e_stale : nat -> nat -> nat -> nat -> @gvec F;
    e_pv : nat -> list nat -> nat -> nat -> nat -> @gvec F; e_nrm : nat -> list nat -> nat -> nat -> nat -> @gvec F
  }.
  (** What changes: the surface spheres, num_samples, the radii in new_sphere (one for each thread), and how many
      random numbers each thread has drawn. *)
  Record progress := Progress { g_ss : stree F; g_num : nat; g_old : list F; g_k : nat }.

  Variables (w : setting) (e : environment).
  Let z := s_z w.

  (** 1431  max_num_misses. *)
  Definition max_misses : nat := 100.
  (** 1442-1483: adding the samples of a round, in the order of the threads. *)
  Fixpoint add_samples (l : list (sample F)) (st : stree F * nat * nat) : res (stree F * nat * nat) :=
    let '(ss, num, misses) := st in
    match l with
    | [] => Ok st
    | s :: t =>
      if sm_covered s
      then if Nat.leb max_misses (S misses) then Ok (ss, num, S misses) else add_samples t (ss, num, S misses)
      else ss' <- add_point (e_need e) ss (sm_row s) None (Some [2%nat; sm_face s]) ;;
           add_samples t (ss', S num, 0%nat)
    end.
  (** 1431-1492: one patch. *)
  Fixpoint fill_pool (fuel : nat) (st : progress) (p : pool F) (misses : nat) : res progress :=
    match fuel with
    | O => Fuel
    | S f =>
      l <- sample_active_pool (s_points w) (s_faces w) p z (g_ss st) (s_es w) (s_cs w) (g_num st) (e_u e) (g_k st) (g_old st) ;;
      '(ss, num, m) <- add_samples l (g_ss st, g_num st, misses) ;;
      let st1 := Progress ss num (map (fun s => gv (sm_row s) 3%nat) l) (g_k st + 3) in
      if Nat.leb max_misses m
      then p' <- refine_pool_faces (s_points w) (s_faces w) ss (s_es w) (s_cs w) (z_Lip z) (z_ratio z) (length (g_old st))
                   (e_sched e (g_k st) p) p ;;
           if Nat.eqb (p_size p') 0 then Ok st1 else fill_pool f st1 p' 0
      else fill_pool f st1 p m
    end.
  (** 1427-1493: all patches; num_patches is changed by initiate_active_pool. *)
  Fixpoint fill_patches (fuel inner : nat) (st : progress) (ip np : nat) : res (progress * nat) :=
    match fuel with
    | O => Fuel
    | S f =>
      if Nat.ltb ip np then
        '(p, np') <- start_faces (s_points w) (s_faces w) ip np ;;
        st1 <- fill_pool inner st p 0 ;;
        fill_patches f inner st1 (S ip) np'
      else Ok (st, np)
    end.

  (** MeshingSmartTree::get_tree_point_attrib and attrib[1]: the face of surface sphere i. *)
  Definition face_of (ss : stree F) (i : nat) : res nat :=
    match st_att ss with
    | None => UB
    | Some l => r <- get l i ;; match r with None => UB | Some a => get a 1 end
    end.
  (** 1536-1565: sphere i and the overlapping sphere j.  The code reads corner 2 of the face twice (i3, j3). *)
  Definition narrow_pair (i fi j : nat) (st : stree F * bool) : res (stree F * bool) :=
    let '(ss, b) := st in
    fj <- face_of ss j ;;
    if Nat.eqb fi fj then Ok st else
    f <- get (s_faces w) fj ;; j1 <- get f 1 ;; j2 <- get f 2 ;; j3 <- get f 2 ;;
    x1 <- corner (s_points w) j1 ;; x2 <- corner (s_points w) j2 ;; x3 <- corner (s_points w) j3 ;;
    si <- get_sphere ss i ;;
    let corners := three x1 x2 x3 in
    let '(proj, dst) := project_triangle (gv si) corners in
    let normal := snd (triangle_normal corners) in
    let '(good, v) := normalize_vector 3 (fun d => gv si d - proj d) in
    if good then
      let dot := dot_product 3 normal v in
      let dot := nsqrt (n1 - dot * dot) in
      if z_thr z <? nabs dot then Ok st else
      let dst := dst * nlit 4 1 in
      if dst <? z_rmin z then Ok st else
      let dst := if dst <? z_rms z then z_rms z else dst in
      if gv si 3%nat <? (n1 + nlit 1 8) * dst then Ok st else
      ss' <- set_radius ss i dst ;; Ok (ss', true)
    else Ok st.
  (** 1518-1570. *)
  Definition narrow (ss : stree F) (num : nat) : res (stree F * bool) :=
    if n0 <? z_rmin z then
      for_res num 0 (fun i st =>
        si <- get_sphere (fst st) i ;;
        fi <- face_of (fst st) i ;;
        f <- get (s_faces w) fi ;; _ <- get f 1 ;; _ <- get f 2 ;;
        l <- get_overlapping_spheres si (fst st) (z_Lip z) ;;
        fold_res (narrow_pair i fi) l st) (ss, false)
    else Ok (ss, false).

  (** Corner k of the face of surface sphere i (3261-3265). *)
  Definition face_point (ss : stree F) (i k : nat) : list F :=
    match (fi <- face_of ss i ;; f <- get (s_faces w) fi ;; c <- get f (S k) ;; corner (s_points w) c) with
    | Ok x => x
    | _ => []
    end.
  Definition values (it : nat) (ss : stree F) : oracle F :=
    MkOracle (e_need e) (fun i k => gv (face_point ss i k)) (e_darts e it) (e_stale e it) (e_pv e it) (e_nrm e it).

  (** 1422-1608: the outer loop; [it] counts the passes. *)
  Fixpoint surface_loop (fuel inner it : nat) (st : progress) (np : nat) (ups los : stree F) : res (stree F * stree F * stree F) :=
    match fuel with
    | O => Fuel
    | S f =>
      '(st, np) <- fill_patches inner inner st 0 np ;;
      let again := fun ss => surface_loop f inner (S it) (Progress ss (g_num st) (g_old st) (g_k st)) np in
      '(s1, b) <- narrow (g_ss st) (g_num st) ;;
      if (b : bool) then again s1 ups los else
      '(s2, b) <- impose_lipschitz inner (z_Lip z) s1 false ;;
      if (b : bool) then again s2 ups los else
      '(s3, u, l, b) <- generate_surface_seeds (values it s2) s2 (s_es w) (s_cs w) (z_Lip z) ups los ;;
      if (b : bool) then again s3 u l else
      fs <- seed_faces l ;;
      '(s4, tight) <- validate_surface_mesh s3 (s_es w) (s_cs w) fs ;;
      if (tight : bool) then Ok (s4, u, l) else again s4 u l
    end.
  (** MeshingVoroCrustSampler.cpp:1380-1646 generate_surface_spheres, with the empty trees made by
      the caller (MeshingVoroCrust.cpp:253-279): the surface spheres, the upper and the lower seeds.  [mem] are the
      values that the memory of new_sphere holds at the start, one for each thread.  [fuel] bounds the passes, [inner] each of the loops in a pass. *)
  Definition generate_surface_spheres (fuel inner : nat) (mem : list F) : res (stree F * stree F * stree F) :=
    surface_loop fuel inner 0 (Progress (st_new 3) 0 mem 0) 100 (st_new 3) (st_new 3).
End SurfaceLoop.
Arguments setting : clear implicits.
Arguments environment : clear implicits.
Arguments progress : clear implicits.
