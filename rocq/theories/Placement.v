(** Model of the first half of MeshingVoroCrust::execute_vc
    (src/Meshing/MeshingVoroCrust.cpp:238-279): sharp features, point clouds, corner, edge and
    surface spheres and the surface seeds, in the order and with the arguments of the code, for a
    clean input (rmin == 0.0, line 269; then feature_TOL is 0, and _r_min_edges and _r_min_surface keep their
    value 0, MeshingVoroCrustSampler.cpp:49).  The stages are CleanClouds.v, CornerSpheres.v,
    EdgeLoop.v and SurfaceLoop.v.  smooth_model is false (line 244). *)
From Verif Require Import Base Num SmartTree PolyMesh SamplePool CleanClouds CornerSpheres EdgeLoop SurfaceLoop.

Section Placement.
  Context {F : Type} `{Num F}.

  (** The arguments: smooth_angle_threshold (as a cosine, line 246), rmax, Lip, and the sizing function. *)
  Record request := Request { q_thr : F; q_rmax : F; q_Lip : F; q_input : option (stree F) }.
  (** What the model leaves open: the balancing test of the trees, the random numbers of the clouds and of the edge
      spheres, the numbers of points in the clouds (100000 and 500000), the environment of the surface stage, the content of
      fresh memory, and bounds for the loops. *)
  Record chance := Chance {
    c_need : nat -> nat -> bool; c_clouds : nat -> F; c_edges : nat -> F; c_ebudget : nat; c_budget : nat;
    c_env : environment F; c_emem : F; c_mem : list F; c_fuel : nat; c_inner : nat }.
  Variables (points : list (list F)) (faces : list (list nat)) (q : request) (c : chance).

  (** 274-275 generate_corner_spheres. *)
  Definition corner_setting (cf : clean_features F) : csetting F :=
    CSet (cf_surface cf) (cf_edge_cloud cf) (q_input q) n0 (q_thr q) (q_rmax q).
  (** 276-277 generate_edge_spheres; coverage_radius_ratio is 0.5. *)
  Definition edge_setting (cf : clean_features F) (cs : stree F) : esetting F :=
    ESet points (map (fun e => [fst e; snd e]) (cf_edges cf)) (cf_surface cf) (cf_edge_cloud cf) (q_input q) cs
      n0 (q_thr q) (q_rmax q) (q_Lip q) (nlit 5 1) n0.
  (** 279 generate_surface_spheres; coverage_radius_ratio is 0.4.  The normals are those that the feature detection has built
      (MeshingVoroCrustSampler.cpp:261). *)
  Definition surface_setting (cf : clean_features F) (normals : list (list F)) (es cs : stree F) : setting F :=
    Setting points (map (cons 3) faces)
      (Sizing (cf_surface cf) (cf_edge_cloud cf) (q_input q) normals n0 (q_thr q) (q_rmax q) (q_Lip q) (nlit 4 1) n0) es cs.

  (** 267-279. *)
  Definition place_spheres : res (clean_features F * stree F * stree F * (stree F * stree F * stree F)) :=
    cf <- clean_clouds (c_need c) (q_thr q) points faces (c_clouds c) (c_ebudget c) (c_budget c) ;;
    normals <- build_face_normals points faces ;;
    cs <- (match cf_corners cf with
           | [] => Ok (st_new 3)
           | l => generate_corner_spheres (c_need c) (c_fuel c) (corner_setting cf) (q_Lip q) points l
           end) ;;
    es <- (match cf_edges cf with
           | [] => Ok (st_new 3)
           | _ => generate_edge_spheres (c_need c) (c_edges c) (edge_setting cf cs) (c_fuel c) (c_inner c) (c_emem c)
           end) ;;
    s <- generate_surface_spheres (surface_setting cf normals es cs) (c_env c) (c_fuel c) (c_inner c) (c_mem c) ;;
    Ok (cf, cs, es, s).
End Placement.
Arguments request : clear implicits.
Arguments chance : clear implicits.
