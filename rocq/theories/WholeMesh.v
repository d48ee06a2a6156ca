(** Model of the second half of MeshingVoroCrust::execute_vc (src/Meshing/MeshingVoroCrust.cpp:281-302): from the spheres
    and the merged surface seeds to the cells of the volume mesh.  The stages are SurfaceRegions.v (colouring), VolumeSeeds.v
    (seeds of the volume), VoroMesh.v (Voronoi cells) and Regions.v (regions and cells).
    Simplified: the merging of the upper and lower seeds (MeshingVoroCrustSampler.cpp:1694-1719) is merge_seeds of SeedPairs.v;
    the spheres are given as rows [x; y; z; r]; the files are written from the result (MeshFiles.v, ExodusSave.v). *)
From Verif Require Import Base Num KdTree SmartTree DenseQR Geometry Spheres PolyMesh Regions Interior EdgeSeeds VolumeSeeds
  SeedSides Coloring SurfaceRegions Voro VoroMesh.

Section WholeMesh.
  Context {F : Type} {N : Num F}.

  (** MeshingVoroCrustSampler.cpp:1725-1726, 1753-1756: what the colouring reads of a seed: its place, its partner (attribute 1) and its
      three spheres (attributes 2, 3 and 4). *)
  Definition seed_of (s : stree F) (i : nat) : res (pseed F) :=
    x <- get (st_pts s) i ;;
    match st_att s with
    | None => UB
    | Some att =>
      a <- get att i ;;
      match a with
      | None => UB
      | Some a => p <- get a 1 ;; si <- get a 2 ;; sj <- get a 3 ;; sk <- get a 4 ;; Ok (MkPSeed x p (si, sj, sk))
      end
    end.
  Definition surface_seeds (s : stree F) : res (list (pseed F)) := mapr (seed_of s) (seq 0 (st_n s)).

  (** What comes out: the seeds (seeds.csv), the vertices and faces of the mesh, the final regions, their reported number, the faces of
      every cell, and the number of cells. *)
  Record mesh := Mesh { w_seeds : volume F; w_vertices : list (list F); w_faces : list (list nat);
                        w_regions : list nat; w_count : nat; w_cells : list (list nat); w_num : nat }.

  (** 281 color_surface_seeds (the spheres are merged in the order surface, edge, corner, MeshingVoroCrustSampler.cpp:1665-1690; whether the
      colouring is reported as invalid changes nothing), 291 num_surface_seeds, 295-297 generate_interior_seeds,
      299-302 generate_explicit_mesh. *)
  Definition mesh_surface (fuel lfuel cfuel : nat) (angle : F -> F -> F) (cap cap_s : nat) (s : stree F)
    (surf edge corner sizing : list (list F)) (Lip rmax : F) (threads : nat) (imposed : option (list (list F))) (monitor : bool)
    (dir3 dir2 : nat -> list F) (dr : nat -> draws F) (u : nat -> F) : res mesh :=
    seeds <- surface_seeds s ;;
    '(_, regs, _) <- color_surface s (surf ++ edge ++ corner) seeds angle cap cap_s (length surf) (length edge) ;;
    let num_surface_seeds := st_n s in
    v <- volume_seeds fuel lfuel Lip rmax threads (st_pts s) regs surf edge corner sizing imposed monitor dir3 dir2 dr u ;;
    '(vertices, faces) <- voronoi_mesh fuel cfuel (2 * length (v_points v)) (v_points v) (v_regions v) (v_sizes v) ;;
    '(regions, k, cells, m) <- explicit_mesh num_surface_seeds (v_regions v) faces ;;
    Ok (Mesh v vertices faces regions k cells m).
End WholeMesh.
Arguments mesh F : clear implicits.
