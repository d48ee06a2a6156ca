(** Model of the generation of the corner spheres:
    src/Meshing/MeshingVoroCrustSampler.cpp:1076-1171 generate_corner_spheres.
    The statistics that are printed (rmin, imin, min_radius, max_radius) and the file
    corner_spheres.csv (see TextTree.v) are left out. *)
From Verif Require Import Base Num KdTree SmartTree Geometry Spheres ActivePool SamplePool.

Section CornerSpheres.
  Context {F : Type} `{Num F}.
  Local Open Scope num_scope.

  (** The arguments: the two point clouds, _input_sizing_function, feature_TOL,
      smooth_angle_threshold, rmax. *)
  Record csetting := CSet {
    k_cloud : stree F;
    k_edges : stree F;
    k_input : option (stree F);
    k_tol : F;
    k_thr : F;
    k_rmax : F
  }.

  (** MeshingVoroCrustSampler.cpp:1103-1124: the radius of a new sphere; alpha_sz is 0.4. *)
  Definition corner_radius (k : csetting) (x : list F) : res F :=
    b <- closest_nonsmooth (k_cloud k) x (k_tol k) (k_thr k) dbl_max ;;
    let surf_sz := nlit 4 1 * snd b in
    b <- closest_nonsmooth_edge (k_edges k) x (k_tol k) (k_thr k) dbl_max ;;
    let edge_sz := nlit 4 1 * snd b in
    let r := nmin surf_sz edge_sz in
    let r := if k_rmax k <? r then k_rmax k else r in
    input_limit (k_input k) x r.

  (** 1090-1135: the body of the first loop. *)
  Definition add_corner (need : nat -> nat -> bool) (k : csetting) (points : list (list F)) (corners : list nat)
    (icorner : nat) (s : stree F) : res (stree F) :=
    ci <- get corners icorner ;;
    x <- corner points ci ;;
    redundant <- (if Nat.ltb 0 icorner
                  then '(_, (_, h)) <- closest s any x dbl_max ;; Ok (h <? k_tol k)
                  else Ok false) ;;
    if (redundant : bool) then Ok s
    else
      r <- corner_radius k x ;;
      add_point need s (x ++ [r]) None (Some [2; ci]%nat).

  (** 1138-1144: the body of the second loop. *)
  Definition cap_corner (icorner : nat) (s : stree F) : res (stree F) :=
    r <- get_radius s icorner ;;
    '(_, h) <- closest_to s any icorner dbl_max ;;
    if nlit 4 1 * h <? r then set_radius s icorner (nlit 4 1 * h) else Ok s.

  (** MeshingVoroCrustSampler.cpp:1076-1171 generate_corner_spheres, for a tree of spheres
      that is empty (MeshingVoroCrust.cpp:255). *)
  Definition generate_corner_spheres (need : nat -> nat -> bool) (fuel : nat) (k : csetting) (Lip : F)
    (points : list (list F)) (corners : list nat) : res (stree F) :=
    s <- for_res (length corners) 0 (add_corner need k points corners) (st_new 3) ;;
    s <- for_res (st_n s) 0 cap_corner s ;;
    '(s, _) <- impose_lipschitz_brute fuel Lip s ;;
    Ok s.
End CornerSpheres.
Arguments csetting : clear implicits.
