(** Meshing a seeds file: generate_mesh_from_seeds_file, MeshingVoroCrust.cpp 761-768, and
    the call of generate_explicit_mesh by execute_vc, 299-302.
    The Voronoi tessellation is a parameter here: [tessellate] gives the rows of the faces of
    a list of points (it does not depend on the regions; Voro.v and VoroMesh.v model it). *)
From Coq Require Import NArith.
From Verif Require Import Base Num PolyMesh Regions Text.

Section Saved.
  Context {F : Type} (io : numio F) (tessellate : list (list F) -> res (list (list nat))).

  (** 618-736: the faces, the regions, the reported number of regions, the faces of every cell
      and the number of cells. *)
  Definition mesh_of_seeds (nss : nat) (l : list (seed F))
    : res (list (list nat) * (list nat * nat * list (list nat) * nat)) :=
    faces <- tessellate (map sd_x l) ;;
    m <- explicit_mesh nss (map (fun s => N.to_nat (sd_region s)) l) faces ;; Ok (faces, m).

  (** 761-768: all seeds of the file count as surface seeds. *)
  Definition mesh_from_file (file : text) : res (list (list nat) * (list nat * nat * list (list nat) * nat)) :=
    l <- read_seeds_csv io file ;; mesh_of_seeds (List.length l) l.
End Saved.
