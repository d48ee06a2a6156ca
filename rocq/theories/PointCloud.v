(** Model of the surface point clouds of src/Meshing/MeshingVoroCrustSampler.cpp:
    dont_detect_features_generate_point_clouds (98-245) and the same steps at the start of
    detect_features_generate_point_clouds (549-672).

    The array [faces] of the caller is an array of pointers to records; deleting a record
    and copying pointers is modelled.  The tree is the list of the calls of add_tree_point
    (KdTree.v, SmartTree.v and C07 are about what it does with them); rows of [points] are
    read with [gv].  The random generator is the stream [u], as in Sampling.v. *)
From Verif Require Import Base Num MemoryHandler Sampling Geometry Spheres PolyMesh Regions.

Section PointCloud.
  Context {F : Type} `{Num F}.
  Local Open Scope num_scope.

  (** One call add_tree_point(3, x, normal, attrib) with attrib = {2, face}. *)
  Record cpoint := CPoint { cp_x : list F; cp_normal : list F; cp_face : nat }.

  (** The variables of the loop over the faces. *)
  Record pcloud := PCloud {
    pc_ptr : list nat;                      (* faces[]: the record each entry points to *)
    pc_live : list bool;                    (* records that are not deleted *)
    pc_num : nat;                           (* num_faces, a copy local to the function *)
    pc_normal : list (option (list F));     (* face_normal[]; None: not allocated, or deleted *)
    pc_points : list cpoint;                (* surface_point_cloud *)
    pc_draws : nat }.                       (* random numbers drawn *)

  Variable points : list (list F).
  Variable recs : list (list nat).
  Variable u : nat -> F.

  (** faces[i] as an rvalue; reading a deleted record is undefined. *)
  Definition load (s : pcloud) (i : nat) : res (list nat) :=
    p <- get (pc_ptr s) i ;; b <- get (pc_live s) p ;; if b then get recs p else UB.

  (** MeshingVoroCrustSampler.cpp:128-132 (575-579): corners[i - 1] = points[faces[iface][i]]. *)
  Definition corners_of (f : list nat) : res (list (list F)) :=
    mapr (fun i => v <- get f i ;; get points v) [1; 2; 3]%nat.
  Definition corner (cs : list (list F)) : nat -> gvec := fun i => gv (nth i cs []).

  (** MeshingVoroCrustSampler.cpp:143-157 (590-605): the corners, then the midpoints of the
      edges (1,2), (2,3), (3,1). *)
  Definition midpoint (a b : gvec) : gvec := fun d => nlit 5 1 * (a d + b d).
  Definition face_points (cs : list (list F)) (nrm : list F) (i : nat) : list cpoint :=
    map (fun x : gvec => CPoint (map x (seq 0 3)) nrm i)
      [corner cs 0; corner cs 1; corner cs 2;
       midpoint (corner cs 0) (corner cs 1); midpoint (corner cs 1) (corner cs 2); midpoint (corner cs 2) (corner cs 0)].

  (** MeshingVoroCrustSampler.cpp:611-615: more points on the face (each takes two random
      numbers).  In dont_detect_... (159-171) this is a comment: [m] is 0 there. *)
  Fixpoint extra_points (m : nat) (cs : list (list F)) (nrm : list F) (i k : nat) : res (list cpoint) :=
    match m with
    | O => Ok []
    | S m' =>
      x <- simplex_sample u k 3 3 cs ;;
      t <- extra_points m' cs nrm i (k + 2) ;;
      Ok (CPoint x nrm i :: t)
    end.
  (** MeshingVoroCrustSampler.cpp:607-610: how many; [budget] is 1000000. *)
  Definition per_face (budget num : nat) : nat :=
    let m := (budget / num)%nat in if (3 <? m)%nat then (m - 3)%nat else 0%nat.

  (** MeshingVoroCrustSampler.cpp:115-175 (570-618), the loop over the faces.  [rep] is
      repeat_index; [iface--] follows the test of the loop.  After the deletion of the last
      face its own dangling pointer is copied onto itself, which is not counted as a read. *)
  Fixpoint face_loop (fuel : nat) (extra : nat -> nat) (s : pcloud) (iface : nat) (rep : bool) : res pcloud :=
    match fuel with
    | O => Fuel
    | S fu =>
      if (iface <? pc_num s)%nat then
        let i := if rep then (iface - 1)%nat else iface in
        f <- load s i ;;
        cs <- corners_of f ;;
        let '(good, nrm) := triangle_normal (corner cs) in
        if good then
          let v := map nrm (seq 0 3) in
          let m := extra (pc_num s) in
          normal <- set (pc_normal s) i (Some v) ;;
          more <- extra_points m cs v i (pc_draws s) ;;
          face_loop fu extra
            (PCloud (pc_ptr s) (pc_live s) (pc_num s) normal
                    (pc_points s ++ face_points cs v i ++ more) (pc_draws s + 2 * m)) (S i) false
        else
          normal <- set (pc_normal s) i None ;;
          p <- get (pc_ptr s) i ;;
          live <- set (pc_live s) p false ;;
          q <- get (pc_ptr s) (pc_num s - 1) ;;
          ptr <- set (pc_ptr s) i q ;;
          face_loop fu extra (PCloud ptr live (pc_num s - 1) normal (pc_points s) (pc_draws s)) (S i) true
      else Ok s
    end.

  (** MeshingVoroCrustSampler.cpp:179-186 (620-627). *)
  Definition areas (s : pcloud) : res (list F) :=
    mapr (fun i => f <- load s i ;; cs <- corners_of f ;; Ok (triangle_area (corner cs))) (seq 0 (pc_num s)).

  (** MeshingVoroCrustSampler.cpp:193-227 (633-666): the points thrown on all faces. *)
  Fixpoint mc_loop (m : nat) (s : pcloud) (cdf : list F) (k : nat) : res (list cpoint) :=
    match m with
    | O => Ok []
    | S m' =>
      i <- pool_pick (u k) cdf ;;
      f <- load s i ;;
      cs <- corners_of f ;;
      x <- simplex_sample u (k + 1) 3 3 cs ;;
      o <- get (pc_normal s) i ;;
      match o with
      | None => UB
      | Some nrm => t <- mc_loop m' s cdf (k + 3) ;; Ok (CPoint x nrm i :: t)
      end
    end.

  Definition start : pcloud :=
    let n := length recs in PCloud (seq 0 n) (repeat true n) n (repeat None n) [] 0.

  (** MeshingVoroCrustSampler.cpp:98-245 (549-666): the cloud and _r_min_surface (only the
      first of the two functions stores it). *)
  Definition surface_cloud (budget : nat) (extra : nat -> nat) : res (pcloud * F) :=
    s <- face_loop (S (length recs)) extra start 0 false ;;
    a <- areas s ;;
    c <- make_cdf a ;;
    l <- mc_loop budget s c (pc_draws s) ;;
    Ok (PCloud (pc_ptr s) (pc_live s) (pc_num s) (pc_normal s) (pc_points s ++ l) (pc_draws s + 3 * budget),
        nsqrt (fold_left nadd a n0 / nofZ (Z.of_nat budget))).

  (** MeshingVoroCrust.cpp:229, the caller at the end of the program: delete[] faces[iface]
      for its own number of faces; deleting twice is undefined. *)
  Definition delete_all (s : pcloud) : res (list bool) :=
    fold_res (fun i (live : list bool) => p <- get (pc_ptr s) i ;; b <- get live p ;; if b then set live p false else UB)
      (seq 0 (length recs)) (pc_live s).
End PointCloud.
Arguments CPoint {F}.
Arguments PCloud {F}.
