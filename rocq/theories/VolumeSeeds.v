(** MeshingVoroCrust.cpp, generate_interior_seeds (307-615): from the surface seeds to
    seeds.csv.  The stages are the functions of EdgeSeeds.v, Interior.v and Regions.v.
    Simplified: the four trees are given as the rows [x; y; z; r] that 314-393 copy out of
    them, the region of a seed is its attribute 5 (325), and monitoring_points.csv is given by its
    rows (425; its reading is in Text.v). *)
From Verif Require Import Base Num KdTree SmartTree DenseQR Geometry Spheres PolyMesh Regions Interior EdgeSeeds.
Local Open Scope num_scope.

Section VolumeSeeds.
  Context {F : Type} {N : Num F}.

  (** What is written: the rows of seeds.csv (553) as points, sizes and regions, the rows of
      monitoring_points_closest_seeds.csv (541) and of monitoring_points.csv (607), and the
      reported number of imposed points (437). *)
  Record volume := VOL { v_points : list (list F); v_sizes : list F; v_regions : list nat;
                         v_closest : option (list (list F * F)); v_monitoring : option (list (list F * F));
                         v_added : option nat }.

  (** 475, 504: a row of the imposed points, three coordinates and the radius. *)
  Definition split_row (q : list F) : list F * F := (three_coords q, gv q 3%nat).

  (** 307-615.  [imposed] is the contents of monitoring_points.csv when they are to be
      imposed (419-440, 456-551); [monitor] asks for new monitoring points (576-612), which 434
      switches off in that case. *)
  Definition volume_seeds (fuel lfuel : nat) (Lip rmax : F) (threads : nat) (seeds : list (list F)) (regs : list nat)
    (surf edge corner sizing : list (list F)) (imposed : option (list (list F))) (monitor : bool)
    (dir3 dir2 : nat -> list F) (dr : nat -> draws F) (u : nat -> F) : res volume :=
    let num_surface_seeds := length seeds in
    '(seeds, regs) <- ensure_edge_seeds fuel lfuel Lip seeds regs surf edge corner sizing dir3 dir2 ;;
    let num_critical_seeds := length seeds in
    match imposed with
    | Some points =>
        '(seeds, regs) <- impose_interior_seeds lfuel Lip seeds regs surf edge corner sizing points ;;
        let num_imposed_seeds_added := (length seeds - num_surface_seeds)%nat in
        '(seeds, regs) <- generate_interior_seeds fuel lfuel Lip rmax threads seeds regs surf edge corner sizing dr ;;
        '(p, h, r, q) <- impose_monitoring (num_critical_seeds + num_imposed_seeds_added)
                           (map three_coords seeds) (map (fun s => gv s 3%nat) seeds) regs (map split_row points) ;;
        Ok (VOL p h r (Some q) None (Some num_imposed_seeds_added))
    | None =>
        '(seeds, regs) <- generate_interior_seeds fuel lfuel Lip rmax threads seeds regs surf edge corner sizing dr ;;
        let p := map three_coords seeds in
        let h := map (fun s => gv s 3%nat) seeds in
        if monitor then m <- monitoring_points num_surface_seeds u p h ;; Ok (VOL p h regs None (Some m) None)
        else Ok (VOL p h regs None None None)
    end.
End VolumeSeeds.
Arguments volume F : clear implicits.
