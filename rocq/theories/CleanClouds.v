(** Model of the point clouds for a clean input:
    src/Meshing/MeshingVoroCrustSampler.cpp:248-547 detect_features_generate_point_clouds_clean.
    Its first part (256-405, sharp edges and corners) is PolyMesh.v; a face is the list of its three
    corners, as there (the code keeps their number in front).  The random generator is the stream [u];
    [k] counts the numbers drawn. *)
From Verif Require Import Base Num SmartTree Sampling Geometry Spheres PolyMesh Regions PointCloud.

Section CleanClouds.
  Context {F : Type} `{Num F}.
  Local Open Scope num_scope.
  Variable points : list (list F).
  Variable u : nat -> F.

  (** 413-417, 430-449: the two ends of an edge. *)
  Definition ends_of (edges : list (nat * nat)) (i : nat) : res (list F * list F) :=
    e <- get edges i ;; x <- get points (fst e) ;; y <- get points (snd e) ;; Ok (x, y).
  (** 423-462: one point thrown on the sharp edges; its fourth coordinate is 1. *)
  Fixpoint edge_throws (m : nat) (edges : list (nat * nat)) (cdf : list F) (k : nat) : res (list (@cpoint F)) :=
    match m with
    | O => Ok []
    | S m' =>
      i <- pool_pick (u k) cdf ;;
      '(x, y) <- ends_of edges i ;;
      let dart := map (fun d => gv x d + u (k + 1) * (gv y d - gv x d)) (seq 0 3) ++ [n1] in
      let t := snd (normalize_vector 3 (fun d => gv y d - gv x d)) in
      r <- edge_throws m' edges cdf (k + 2) ;;
      Ok (CPoint dart (map t (seq 0 3)) i :: r)
    end.
  (** 407-465; [budget] is 100000. *)
  Definition edge_sample (budget : nat) (edges : list (nat * nat)) (k : nat) : res (list (@cpoint F)) :=
    match edges with
    | [] => Ok []
    | _ =>
      l <- mapr (fun i => '(x, y) <- ends_of edges i ;; Ok (distance 3 (gv x) (gv y))) (seq 0 (length edges)) ;;
      cdf <- make_cdf l ;;
      edge_throws budget edges cdf k
    end.

  Variable faces : list (list nat).
  Variable normals : list (list F).
  Definition face_rows (i : nat) : res (list (list F)) := f <- get faces i ;; corners_of points (3%nat :: f).
  (** 485-522: one point thrown on the faces. *)
  Fixpoint face_throws (m : nat) (cdf : list F) (k : nat) : res (list (@cpoint F)) :=
    match m with
    | O => Ok []
    | S m' =>
      i <- pool_pick (u k) cdf ;;
      cs <- face_rows i ;;
      x <- simplex_sample u (k + 1) 3 3 cs ;;
      n <- get normals i ;;
      r <- face_throws m' cdf (k + 3) ;;
      Ok (CPoint (x ++ [n1]) n i :: r)
    end.
  (** 467-526; [budget] is 500000. *)
  Definition face_sample (budget : nat) (k : nat) : res (list (@cpoint F)) :=
    a <- mapr (fun i => cs <- face_rows i ;; Ok (triangle_area (corner cs))) (seq 0 (length faces)) ;;
    cdf <- make_cdf a ;;
    face_throws budget cdf k.
End CleanClouds.

(** The calls add_tree_point(4, dart, vector, {2, number}) on a new tree; [need] is the decision of the
    tree to balance itself. *)
Definition grown {F} `{Num F} (need : nat -> nat -> bool) (l : list (@cpoint F)) : res (stree F) :=
  run need (st_new 3) (map (fun e => OpAdd (cp_x e) (Some (cp_normal e)) (Some [2%nat; cp_face e])) l).

Record clean_features {F : Type} := CleanFeatures {
  cf_edges : list (nat * nat);
  cf_corners : list nat;
  cf_edge_cloud : stree F;
  cf_surface : stree F }.
Arguments clean_features : clear implicits.

(** MeshingVoroCrustSampler.cpp:248-547. *)
Definition clean_clouds {F} `{Num F} (need : nat -> nat -> bool) (thr : F) (points : list (list F)) (faces : list (list nat))
  (u : nat -> F) (ebudget budget : nat) : res (clean_features F) :=
  '(edges, corners) <- detect_features thr points faces ;;
  normals <- build_face_normals points faces ;;
  el <- edge_sample points u ebudget edges 0 ;;
  et <- grown need el ;;
  fl <- face_sample points u faces normals budget (match edges with [] => 0 | _ => 2 * ebudget end)%nat ;;
  ft <- grown need fl ;;
  Ok (CleanFeatures edges corners et ft).
