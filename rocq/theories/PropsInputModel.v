(** C85: the model that is meshed holds the triangles of the input files. *)
From Coq Require Import Ascii String Floats Reals Lra.
From Verif Require Import Base Num Vec KdSpec SmartTree PolyMesh PolyMeshSpec Text TextSpec TextProofs TextFilesProofs TextTreeProofs
  InputModel InputModelSpec InputModelProofs.
Local Open Scope list_scope.
Local Open Scope nat_scope.

(** One file: each corner moves by less than 10^-8. *)
Theorem C85_one_file (io : numio R) to_index need file o :
  read_obj io to_index file = Ok o -> valid_faces o ->
  exists pts faces, input_model io to_index need [file] = Ok (pts, faces, None)
    /\ holds (1 / 10 ^ 8) [o] pts faces.
Proof.
  intros E V. destruct (@read_input_ok io to_index need file o E V) as (pts & faces & Er & Hh).
  exists pts, faces. split; auto. unfold input_model. rewrite Er. reflexivity.
Qed.

(** Several files: each corner moves by less than 2 10^-8, since the points of each file
    are welded and then those of all files.  The file model_combined.obj holds the model. *)
Theorem C85_several_files (io : numio R) to_index need files os :
  2 <= length files ->
  Forall2 (fun file o => read_obj io to_index file = Ok o /\ valid_faces o) files os ->
  plain_io io -> reads_numbers io to_index ->
  (Z.of_nat (length (flat_map (@ob_pts R) os)) < 2 ^ 53)%Z ->
  exists pts faces file, input_model io to_index need files = Ok (pts, faces, Some file)
    /\ holds (2 / 10 ^ 8) os pts faces
    /\ read_obj io to_index file = Ok (Obj (map (map (reread io)) pts) (map (map Z.of_nat) faces)).
Proof. apply input_several. Qed.

(** A run without an input file does not report it. *)
Theorem C85_no_file_refuted {F} `{Num F} (io : numio F) to_index need :
  input_model io to_index need [] = UB.
Proof. reflexivity. Qed.

(** Two triangles with a common edge, one in each file. *)
Definition left_file : text := unlines [lit "v 0 0 0"; lit "v 1 0 0"; lit "v 0 1 0"; lit "f 1 2 3"].
Definition right_file : text := unlines [lit "v 1 0 0"; lit "v 1 1 0"; lit "v 0 1 0"; lit "f 1/1 2/2 3/3"].
Definition index_R (v : R) : Z := (Int_part v - 1)%Z.
Lemma Int_part_IZR z : Int_part (IZR z) = z.
Proof. unfold Int_part. rewrite <- (tech_up (IZR z) (z + 1)); [lia| |]; rewrite plus_IZR; lra. Qed.
Example C85_hypotheses :
  Forall2 (fun file o => read_obj io_R index_R file = Ok o /\ valid_faces o) [left_file; right_file]
    [Obj [[0; 0; 0]; [1; 0; 0]; [0; 1; 0]]%R [[0; 1; 2]]%Z; Obj [[1; 0; 0]; [1; 1; 0]; [0; 1; 0]]%R [[0; 1; 2]]%Z]
  /\ plain_io io_R /\ reads_numbers io_R index_R.
Proof.
  assert (I1 : index_R 1 = 0%Z) by (unfold index_R; now rewrite Int_part_IZR).
  assert (I2 : index_R 2 = 1%Z) by (unfold index_R; now rewrite Int_part_IZR).
  assert (I3 : index_R 3 = 2%Z) by (unfold index_R; now rewrite Int_part_IZR).
  assert (V : forall f : list Z, In f [[0; 1; 2]%Z] -> forall z, In z f -> (0 <= z < 3)%Z).
  { intros f [<-|[]] z Hz. simpl in Hz. lia. }
  split; [|split; [apply io_R_plain|]].
  - constructor; [|constructor; [|constructor]].
    + split; [|exact V]. transitivity (Ok (Obj [[0; 0; 0]; [1; 0; 0]; [0; 1; 0]]%R [[index_R 1; index_R 2; index_R 3]])).
      * reflexivity.
      * now rewrite I1, I2, I3.
    + split; [|exact V]. transitivity (Ok (Obj [[1; 0; 0]; [1; 1; 0]; [0; 1; 0]]%R [[index_R 1; index_R 2; index_R 3]])).
      * reflexivity.
      * now rewrite I1, I2, I3.
  - intros n Hn. unfold index_R. cbn [io_R io_parse]. rewrite size_t_show; [now rewrite Int_part_IZR|].
    transitivity (2 ^ 53 + 1)%N; [lia|reflexivity].
Qed.
(** The model read by a program that computes with doubles: four points remain of six,
    and the two triangles share an edge. *)
Definition io_F : numio float :=
  IO (fun v => show_nat (Z.to_N (match Prim2SF v with S754_finite false m e => Z.shiftl (Z.pos m) e | _ => 0%Z end)))
     (fun s => nofZ (Z.of_N (string_to_size_t s))).
Definition index_F (v : float) : Z :=
  match Prim2SF v with S754_finite false m e => (Z.shiftl (Z.pos m) e - 1)%Z | _ => (-1)%Z end.
Example C85_run :
  input_model io_F index_F (fun _ _ => false) [left_file; right_file]
  = Ok ([[0; 0; 0]; [1; 0; 0]; [0; 1; 0]; [1; 1; 0]]%float, [[0; 1; 2]; [1; 3; 2]],
        Some (unlines [lit "v 0 0 0"; lit "v 1 0 0"; lit "v 0 1 0"; lit "v 1 1 0"; lit "f  1 2 3"; lit "f  2 4 3"])).
Proof. vm_compute. reflexivity. Qed.

Print Assumptions C85_one_file.
Print Assumptions C85_several_files.
Print Assumptions C85_no_file_refuted.
