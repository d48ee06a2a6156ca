(** Model of the sampling of the active faces: sample_active_faces_uniformly and
    sample_active_pool (MeshingVoroCrustSampler.cpp:2625-2755, 2891-2926), in the build without OpenMP: the
    threads run one after the other.  Time measurements are left out.  [u t] are the random
    numbers of thread t. *)
From Verif Require Import Base Num KdTree SmartTree DenseQR Geometry Spheres Sampling ActivePool.

Section SamplePool.
  Context {F : Type} `{Num F}.
  Local Open Scope num_scope.

  (** What the routine reads and does not change: the point clouds, _input_sizing_function,
      _face_normal and the parameters; [z_rms] is _r_min_surface. *)
  Record sizing := Sizing {
    z_cloud : stree F; z_edges : stree F; z_input : option (stree F); z_normals : list (list F);
    z_rmin : F; z_thr : F; z_rmax : F; z_Lip : F; z_ratio : F; z_rms : F
  }.
  (** new_sphere[t], new_sphere_face[t], covered_sample[t]. *)
  Record sample := Sample { sm_row : list F; sm_face : nat; sm_covered : bool }.

  (** MeshingVoroCrustSampler.cpp:2891-2926 sample_active_faces_uniformly: the dart (three
      coordinates) and its face.  It draws three numbers, the first of them number k. *)
  Definition sample_face (points : list (list F)) (faces : list (list nat)) (p : pool F) (u : nat -> F) (k : nat) : res (list F * nat) :=
    i <- pool_pick (u k) (p_cdf p) ;;
    f <- get (p_parent p) i ;;
    '(a, b, c, _) <- face_corners points faces p i ;;
    x <- simplex_sample u (k + 1) 3 3 [a; b; c] ;;
    Ok (x, f).

  (** 2648-2651. *)
  Definition is_covered (z : sizing) (ss es cs : stree F) (x : list F) : res bool :=
    b <- point_covered cs x (z_Lip z) n0 ;;
    b <- (if (b : bool) then Ok true else point_covered es x (z_Lip z) n0) ;;
    if (b : bool) then Ok true else point_covered ss x (z_Lip z) (z_ratio z).

  (** 2644-2652: the first loop over the threads.  The dart overwrites the first three cells
      of new_sphere[t]; the fourth keeps what the last call left there, or what the memory
      held: [old] are these values. *)
  Fixpoint draw (points : list (list F)) (faces : list (list nat)) (p : pool F) (z : sizing) (ss es cs : stree F)
    (u : nat -> nat -> F) (k t : nat) (old : list F) : res (list sample) :=
    match old with
    | [] => Ok []
    | r :: rest =>
      '(x, f) <- sample_face points faces p (u t) k ;;
      b <- is_covered z ss es cs (x ++ [r]) ;;
      l <- draw points faces p z ss es cs u k (S t) rest ;;
      Ok (Sample (x ++ [r]) f b :: l)
    end.

  (** 2673-2678: covered by the sphere of an earlier thread? *)
  Fixpoint covered_by_new (ratio : F) (x : list F) (before : list sample) : bool :=
    match before with
    | [] => false
    | s :: t => if sm_covered s then covered_by_new ratio x t
                else if point_covered1 (gv x) (gv (sm_row s)) ratio then true else covered_by_new ratio x t
    end.
  (** 2713-2723: the limits from the overlapping spheres. *)
  Fixpoint limit_all (Lip mdr : F) (ss : stree F) (x : list F) (l : list nat) (sz : F) : res F :=
    match l with
    | [] => Ok sz
    | i :: t =>
      sp <- get_sphere ss i ;;
      let dst := distance 3 (gv x) (gv sp) in
      let sz := nmin sz (dst / mdr) in
      let sz := nmin sz (gv sp 3%nat + Lip * dst) in
      limit_all Lip mdr ss x t sz
    end.
  (** 2692-2698: the input sizing function. *)
  Definition input_limit (t : option (stree F)) (x : list F) (sz : F) : res F :=
    match t with
    | None => Ok sz
    | Some t => '(_, (c, _)) <- closest t any x dbl_max ;; r <- get_radius t c ;; Ok (if r <? sz then r else sz)
    end.
  (** 2700-2705 and 2707-2712. *)
  Definition edge_limit (z : sizing) (t : stree F) (x : list F) (sz : F) : res F :=
    if Nat.ltb 0 (st_n t)
    then b <- closest_nonsmooth_edge t x (z_rmin z) (z_thr z) dbl_max ;; Ok (nmin sz (nlit 4 1 * snd b))
    else Ok sz.
  (** 2682-2730: the radius of a new sphere; alpha_sz is 0.4 (line 41); fmin and fmax are nmin and nmax
      (they differ on NaN). *)
  Definition new_radius (z : sizing) (ss cs : stree F) (num_samples : nat) (x : list F) (face : nat) : res F :=
    n <- get (z_normals z) face ;;
    b <- closest_nonsmooth_normal (z_cloud z) x n (z_thr z) dbl_max ;;
    let sz := nmin (z_rmax z) (nlit 4 1 * snd b) in
    sz <- input_limit (z_input z) x sz ;;
    sz <- edge_limit z (z_edges z) x sz ;;
    sz <- edge_limit z cs x sz ;;
    sz <- (if Nat.ltb 0 num_samples
           then l <- get_overlapping_spheres x ss (z_Lip z) ;;
                limit_all (z_Lip z) (nsqrt (n1 - z_ratio z * z_ratio z)) ss x l sz
           else Ok sz) ;;
    Ok (nmax sz (z_rms z)).
  (** 2660-2733: the second loop over the threads; [before] are the threads done. *)
  Fixpoint size_all (z : sizing) (ss cs : stree F) (num_samples : nat) (before todo : list sample) : res (list sample) :=
    match todo with
    | [] => Ok before
    | s :: t =>
      s' <- (if sm_covered s then Ok s
             else if covered_by_new (z_ratio z) (sm_row s) before then Ok (Sample (sm_row s) (sm_face s) true)
             else r <- new_radius z ss cs num_samples (sm_row s) (sm_face s) ;;
                  row <- set (sm_row s) 3 r ;;
                  Ok (Sample row (sm_face s) false)) ;;
      size_all z ss cs num_samples (before ++ [s']) t
    end.
  (** MeshingVoroCrustSampler.cpp:2625-2755 sample_active_pool. *)
  Definition sample_active_pool (points : list (list F)) (faces : list (list nat)) (p : pool F) (z : sizing) (ss es cs : stree F)
    (num_samples : nat) (u : nat -> nat -> F) (k : nat) (old : list F) : res (list sample) :=
    l <- draw points faces p z ss es cs u k 0 old ;;
    size_all z ss cs num_samples [] l.
End SamplePool.
Arguments sizing : clear implicits.
Arguments sample : clear implicits.
