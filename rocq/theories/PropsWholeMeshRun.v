(** C87: a run in floating point.  The lens of C87_hypotheses: two surface spheres, four edge spheres and sixteen seeds.
    The eight inner seeds make eight cells of one region, which meet in the tetrahedral fans around the axes. *)
From Coq Require Import Floats.
From Verif Require Import Base Num KdTree SmartTree DenseQR Geometry Spheres PolyMesh Regions Interior EdgeSeeds VolumeSeeds
  SeedSides Coloring SurfaceRegions Voro VoroMesh WholeMesh.
Notation fl := FloatInst.of_Z.
Definition q4 (a : Z) : PrimFloat.float := PrimFloat.div (fl a) (fl 4).
(** A stand-in for atan2, which floats in Coq do not have: it orders the directions in the same way. *)
Definition diamond (x y : PrimFloat.float) : PrimFloat.float :=
  let a := PrimFloat.div y (PrimFloat.add (PrimFloat.abs x) (PrimFloat.abs y)) in
  if PrimFloat.leb (fl 0) x then (if PrimFloat.leb (fl 0) y then a else PrimFloat.add (fl 4) a)%Z else PrimFloat.sub (fl 2) a.
Definition row (a b c r : Z) := [q4 a; q4 b; q4 c; q4 r].
Definition fsurf := [row 0 0 4 4; row 0 0 (-4) 4]%Z.
Definition fedge := [row 4 4 0 5; row 4 (-4) 0 5; row (-4) (-4) 0 5; row (-4) 4 0 5]%Z.
Definition fseeds : list (list PrimFloat.float * list nat) :=
  [ (row 1 0 1 1, [6; 1; 0; 2; 3; 0]%nat); (row 4 0 4 1, [6; 0; 0; 2; 3; 0]%nat);
    (row 0 (-1) 1 1, [6; 3; 0; 3; 4; 0]%nat); (row 0 (-4) 4 1, [6; 2; 0; 3; 4; 0]%nat);
    (row (-1) 0 1 1, [6; 5; 0; 4; 5; 0]%nat); (row (-4) 0 4 1, [6; 4; 0; 4; 5; 0]%nat);
    (row 0 1 1 1, [6; 7; 0; 5; 2; 0]%nat); (row 0 4 4 1, [6; 6; 0; 5; 2; 0]%nat);
    (row 1 0 (-1) 1, [6; 9; 1; 2; 3; 0]%nat); (row 4 0 (-4) 1, [6; 8; 1; 2; 3; 0]%nat);
    (row 0 (-1) (-1) 1, [6; 11; 1; 3; 4; 0]%nat); (row 0 (-4) (-4) 1, [6; 10; 1; 3; 4; 0]%nat);
    (row (-1) 0 (-1) 1, [6; 13; 1; 4; 5; 0]%nat); (row (-4) 0 (-4) 1, [6; 12; 1; 4; 5; 0]%nat);
    (row 0 1 (-1) 1, [6; 15; 1; 5; 2; 0]%nat); (row 0 4 (-4) 1, [6; 14; 1; 5; 2; 0]%nat) ]%Z.
Definition ftree := fold_res (fun p s => add_point auto_balance s (fst p) (Some [fl 0; fl 0; fl 1]%Z) (Some (snd p))) fseeds (st_new 3).
Definition fdr : nat -> draws PrimFloat.float := fun k => DR (fun _ => fl 0)%Z (fun _ d => [fl 1; fl 0; fl 0]%Z) (fun _ _ => fl 0)%Z.
Definition run := s <- ftree ;; mesh_surface 40 40 2000 diamond 6 16 s fsurf fedge [] [] (q4 1) (fl 1)%Z 1 None false
   (fun _ => [fl 0; fl 0; fl 1]%Z) (fun _ => [fl 1; fl 0]%Z) fdr (fun _ => fl 0)%Z.

Example C87_run : (w <- run ;; Ok (w_regions w, w_count w, w_cells w, w_num w)) =
  Ok ([1; 0; 1; 0; 1; 0; 1; 0; 1; 0; 1; 0; 1; 0; 1; 0], 1,
      [[0;1;2;3]; []; [1;4;5;6]; []; [5;7;8;9]; []; [2;8;10;11]; []; [3;12;13;14]; []; [6;13;15;16]; []; [9;16;17;18]; []; [11;14;18;19]; []], 8)%nat.
Proof. vm_compute. reflexivity. Qed.
