(** The model that is meshed: one or several OBJ files (MeshingVoroCrust.cpp,
    MeshingPolyMesh.cpp). *)
From Coq Require Import Ascii String.
From Verif Require Import Base Num SmartTree PolyMesh Text.
Local Open Scope list_scope.
Local Open Scope nat_scope.

Section InputModel.
  Context {F : Type} `{Num F} (io : numio F).
  Variable to_index : F -> Z.              (* size_t(x - 1) for the double x of a face line *)
  Variable need : nat -> nat -> bool.      (* when the search trees of the points are rebuilt *)

  (** Point numbers as size_t.  A negative number has no value of that type: size_t(x)
      is undefined for it. *)
  Definition to_nat (z : Z) : res nat := if (z <? 0)%Z then UB else Ok (Z.to_nat z).
  Definition faces_of (faces : list (list Z)) : res (list (list nat)) := map_res (map_res to_nat) faces.

  (** MeshingPolyMesh.cpp:190-334 read_input_obj_file: the lines of the file (read_obj),
      then the welding of line 324.  The blocks under if (false) are left out.  A file
      that cannot be opened is read as an empty one, its text here is []. *)
  Definition read_input_obj_file (file : text) : res (list (list F) * list (list nat)) :=
    o <- read_obj io to_index file ;;
    faces <- faces_of (ob_faces o) ;;
    weld_nearby_points need (nlit 1 8) (ob_pts o) faces.

  Definition as_obj (m : list (list F) * list (list nat)) : obj F :=
    Obj (fst m) (map (map Z.of_nat) (snd m)).

  (** MeshingVoroCrust.cpp:173-215: the points and faces given to execute_vc, and the
      contents of model_combined.obj if it is written.  Without a file, line 214 reads
      filenames[0] of an empty vector. *)
  Definition input_model (files : list text) : res (list (list F) * list (list nat) * option text) :=
    match files with
    | [] => UB
    | [file] => '(pts, faces) <- read_input_obj_file file ;; Ok (pts, faces, None)
    | _ =>
      ms <- map_res read_input_obj_file files ;;
      let o := merge_models (map as_obj ms) in
      faces <- faces_of (ob_faces o) ;;
      '(pts, faces) <- weld_nearby_points need (nlit 1 8) (ob_pts o) faces ;;
      file <- save_obj io (as_obj (pts, faces)) ;;
      Ok (pts, faces, Some file)
    end.
End InputModel.
