(** What text files should mean, independently of how they are scanned. *)
From Coq Require Import Ascii String Reals.
From Verif Require Import Base Num Text.
Local Open Scope list_scope.

(** The fields put together again. *)
Fixpoint join (sep : ascii) (l : list text) : text :=
  match l with
  | [] => []
  | [a] => a
  | a :: t => a ++ sep :: join sep t
  end.
Definition free_of (c : ascii) (s : text) : Prop := ~ In c s.
(** A word: some characters, none of them white space. *)
Definition is_word (s : text) : Prop := s <> [] /\ forall a, In a s -> is_space a = false.

(** What is assumed of the printing and reading of doubles: a number is one word
    without commas or slashes, and reading skips a leading blank. *)
Definition plain_io {F} (io : numio F) : Prop :=
  (forall v, is_word (io_show io v) /\ free_of comma (io_show io v) /\ free_of "/"%char (io_show io v))
  /\ forall s, io_parse io (blank :: s) = io_parse io s.
(** A value after one trip through a file. *)
Definition reread {F} (io : numio F) (v : F) : F := io_parse io (io_show io v).

(** v and w have the same nearest decimal number with 16 significant digits. *)
Definition same16 (v w : R) : Prop :=
  exists k e : Z, (10 ^ 15 <= k < 10 ^ 16)%Z
    /\ (Rabs (v - IZR k * powerRZ 10 e) < / 2 * powerRZ 10 e)%R
    /\ (Rabs (w - IZR k * powerRZ 10 e) < / 2 * powerRZ 10 e)%R.
Definition is_double (v : R) : Prop :=
  exists m e : Z, (Z.abs m < 2 ^ 53)%Z /\ (- 1074 <= e <= 971)%Z /\ v = (IZR m * powerRZ 2 e)%R.

(** Lines of an OBJ file by their first word. *)
Definition starts (k : string) (line : text) : bool :=
  match words line with [] => false | w :: _ => text_eqb w (lit k) end.
Definition with_first (k : string) (lines : list text) : list text := filter (starts k) lines.
(** Word number i (from 0) of a line; the vertex and the face a line describes. *)
Definition word (i : nat) (line : text) : text := nth i (words line) [].
Definition vertex_of {F} (io : numio F) (line : text) : list F :=
  [io_parse io (word 1 line); io_parse io (word 2 line); io_parse io (word 3 line)].
Definition face_of {F} (io : numio F) (to_index : F -> Z) (line : text) : list Z :=
  map (fun i => to_index (io_parse io (until_slash (word i line)))) [1; 2; 3].

(** The triangles of a mesh as triples of corners. *)
Definition triangles {F} (o : obj F) : list (list (option (list F))) :=
  map (map (fun z => nth_error (ob_pts o) (Z.to_nat z))) (ob_faces o).
Definition valid_faces {F} (o : obj F) : Prop :=
  forall f, In f (ob_faces o) -> forall z, In z f -> (0 <= z < Z.of_nat (List.length (ob_pts o)))%Z.

(** Configuration files: the lines that start with a key, and the value (third word)
    of the last of them. *)
Definition valued_keys : list string :=
  ["INPUT_MESH_FILE"; "SIZING_FILE"; "R_MIN"; "R_MAX"; "LIP_CONST"; "VC_ANGLE"; "NUM_THREADS"; "SEEDS_FILE"]%string.
Definition setting {A} (k : string) (lines : list text) (default : A) (f : text -> A) : A :=
  match rev (with_first k lines) with [] => default | l :: _ => f (word 2 l) end.
Definition flag (k : string) (lines : list text) : bool := existsb (starts k) lines.

(** A seed after one trip through a file. *)
Definition reread_seed {F} (io : numio F) (s : seed F) : seed F :=
  Seed (map (reread io) (sd_x s)) (reread io (sd_size s)) (sd_region s).
(** Face numbers are read as doubles: whole numbers up to 2^53 are read exactly and
    one is subtracted. *)
Definition reads_numbers {F} (io : numio F) (to_index : F -> Z) : Prop :=
  forall n : N, (0 < n <= 2 ^ 53)%N -> to_index (io_parse io (show_nat n)) = (Z.of_N n - 1)%Z.

(** Lines of a configuration file that name a key without giving it a value. *)
Definition complete (line : text) : Prop :=
  forall k, In k valued_keys -> starts k line = true -> 3 <= List.length (words line).
(** The command line: the argument after the first occurrence of an option. *)
Definition option_arg (o : text) (args : list text) (v : text) : Prop :=
  exists before after, args = before ++ o :: v :: after /\ ~ In o before.

(** All points carry a block of attributes of [cap] entries (the first one is cap
    itself), or none of them does. *)
Definition uniform_block (cap : nat) (a : option (list nat)) : Prop :=
  match a with
  | None => cap = 0
  | Some l => 0 < cap /\ hd 0 l = cap /\ List.length l = cap /\ forall v, In v l -> (N.of_nat v < 2 ^ 64)%N
  end.

(** A CSV file given by its header line and the fields of its rows. *)
Definition csv (header : text) (rows : list (list text)) : text := unlines (header :: map (join comma) rows).
Definition good_fields (r : list text) : Prop :=
  r <> [] /\ forall t, In t r -> free_of comma t /\ free_of newline t.
Definition field (i : nat) (r : list text) : text := nth i r [].
