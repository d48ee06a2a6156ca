(** Model of the text handling of the code: splitting of lines and files, reading and
    writing of numbers, and the readers and writers of CSV and OBJ files. *)
From Coq Require Import Ascii String.
From Verif Require Import Base Num SmartTree.
Local Open Scope list_scope.

Definition text := list ascii.
Definition lit (s : string) : text := list_ascii_of_string s.
Definition text_eqb (a b : text) : bool := if list_eq_dec ascii_dec a b then true else false.
Definition ch (a b : ascii) : bool := Ascii.eqb a b.
Definition comma : ascii := ","%char.
Definition newline : ascii := Ascii.ascii_of_nat 10.
Definition blank : ascii := " "%char.
(** isspace in the C locale: space, \t \n \v \f \r. *)
Definition is_space (a : ascii) : bool :=
  let n := nat_of_ascii a in (n =? 32) || ((9 <=? n) && (n <=? 13)).

(** std::string::find_first_of(c, start): the first position at or after [start]
    holding c; npos is replaced by size() in the next statement of the callers. *)
Fixpoint find_char (c : ascii) (l : text) (pos : nat) : nat :=
  match l with
  | [] => pos
  | a :: t => if ch a c then pos else find_char c t (S pos)
  end.

(** MeshingVoroCrust.cpp:827-848, MeshingSmartTree.cpp:213-231,
    MeshingVoronoiMesher.cpp:3132-3153 get_tokens: the loop from [start] on.
    substr(start, ..) throws when start > size(); that is [UB] here. *)
Fixpoint token_loop (fuel : nat) (sep : ascii) (line : text) (start : nat) : res (list text) :=
  match fuel with
  | O => Fuel
  | S f =>
    if List.length line <? start then UB
    else
      let e := find_char sep (skipn start line) start in
      let tok := firstn (e - start) (skipn start line) in
      if e =? List.length line then Ok [tok]
      else r <- token_loop f sep line (e + 1) ;; Ok (tok :: r)
  end.
Definition get_tokens (sep : ascii) (line : text) : res (list text) :=
  token_loop (S (List.length line)) sep line 0.

(** while (getline(file, line)): the lines of a file; a last line without newline
    counts, an empty rest does not. *)
Fixpoint lines_of (cur : text) (l : text) : list text :=
  match l with
  | [] => match cur with [] => [] | _ => [rev cur] end
  | a :: t => if ch a newline then rev cur :: lines_of [] t else lines_of (a :: cur) t
  end.
Definition getlines (file : text) : list text := lines_of [] file.

(** std::istream_iterator<std::string>: the maximal runs of non-space characters. *)
Fixpoint words_of (cur : text) (l : text) : list text :=
  match l with
  | [] => match cur with [] => [] | _ => [rev cur] end
  | a :: t => if is_space a
              then match cur with [] => words_of [] t | _ => rev cur :: words_of [] t end
              else words_of (a :: cur) t
  end.
Definition words (line : text) : list text := words_of [] line.

(** operator<< of size_t: the decimal digits, first one first. *)
Definition digit_char (d : N) : ascii := ascii_of_nat (48 + N.to_nat d).
Fixpoint show_digits (fuel : nat) (n : N) : text :=
  match fuel with
  | O => []
  | S f => if (n <? 10)%N then [digit_char n] else show_digits f (n / 10) ++ [digit_char (n mod 10)]
  end.
Definition show_nat (n : N) : text := show_digits (S (N.to_nat (N.log2 n))) n.

(** MeshingMemoryHandler.cpp:143-147 string_to_size_t: leading spaces are skipped,
    then digits are read up to the first other character; 0 when there is none or
    when the number does not fit in 64 bits.  A sign, which the C++ accepts, is not
    modelled: it makes this function return 0. *)
Definition digit (a : ascii) : option N :=
  let n := nat_of_ascii a in if (48 <=? n) && (n <=? 57) then Some (N.of_nat (n - 48)) else None.
Fixpoint read_digits (acc : N) (l : text) : N :=
  match l with
  | [] => acc
  | a :: t => match digit a with Some d => read_digits (10 * acc + d) t | None => acc end
  end.
Fixpoint skip_spaces (l : text) : text :=
  match l with
  | a :: t => if is_space a then skip_spaces t else l
  | [] => []
  end.
Definition string_to_size_t (s : text) : N :=
  let v := read_digits 0 (skip_spaces s) in if (v <? 2 ^ 64)%N then v else 0%N.

(** How doubles are written (setprecision(16) << v) and read (string_to_double).
    Kept abstract: a theorem about a file is about every such pair. *)
Record numio (F : Type) := IO { io_show : F -> text; io_parse : text -> F }.

Fixpoint commas (l : list text) : text :=          (* file << a << ", " << b ... *)
  match l with
  | [] => []
  | [a] => a
  | a :: t => a ++ [comma; blank] ++ commas t
  end.
Definition unlines (l : list text) : text := flat_map (fun s => s ++ [newline]) l.

Section Files.
  Context {F : Type} (io : numio F).

  (** x1coord, x2coord, ...  The code writes the first name and the first number of a
      row even when num_dim is 0; callers use 2, 3 or 4. *)
  Definition coord_names (num_dim : nat) : list text :=
    map (fun i => lit "x" ++ show_nat (N.of_nat (i + 1)) ++ lit "coord") (seq 0 num_dim).

  (** MeshingVoronoiMesher.cpp:2560-2588 save_spheres_csv with sizes and regions (how
      seeds.csv is written, MeshingVoroCrust.cpp:553; num_dim = 3 there). *)
  Record seed := Seed { sd_x : list F; sd_size : F; sd_region : N }.
  Definition seed_row (s : seed) : text :=
    commas (map (io_show io) (sd_x s) ++ [io_show io (sd_size s); show_nat (sd_region s)]).
  Definition save_seeds (num_dim : nat) (l : list seed) : text :=
    unlines (commas (coord_names num_dim ++ [lit "radius"]) :: map seed_row l).

  (** The same function without sizes: each sphere is num_dim + 1 numbers. *)
  Definition save_spheres (num_dim : nat) (l : list (list F)) : text :=
    unlines (commas (coord_names num_dim ++ [lit "radius"]) :: map (fun s => commas (map (io_show io) s)) l).

  (** tokens[i] .. *)
  Definition token (toks : list text) (i : nat) : res text := get toks i.
  Fixpoint parse_from (toks : list text) (i n : nat) : res (list F) :=
    match n with
    | O => Ok []
    | S m => t <- token toks i ;; r <- parse_from toks (S i) m ;; Ok (io_parse io t :: r)
    end.

  (** MeshingVoroCrust.cpp:771-825 read_seeds_csv.  The first pass counts the lines
      after the header (the test tokens.size() == 0 never holds); the second fills
      arrays of that size.  A row with fewer than five fields is read out of bounds. *)
  Definition read_seed (line : text) : res seed :=
    toks <- get_tokens comma line ;;
    x <- parse_from toks 0 3 ;;
    r <- token toks 3 ;;
    g <- token toks 4 ;;
    Ok (Seed x (io_parse io r) (string_to_size_t g)).
  Fixpoint map_res {A B} (f : A -> res B) (l : list A) : res (list B) :=
    match l with [] => Ok [] | a :: t => b <- f a ;; r <- map_res f t ;; Ok (b :: r) end.
  Definition read_seeds_csv (file : text) : res (list seed) :=
    map_res read_seed (tl (getlines file)).

  (** MeshingVoronoiMesher.cpp:2591-2634 load_spheres_csv: lines with too few fields
      are skipped (the growing array is a list, see C02). *)
  Fixpoint load_rows (num_dim : nat) (lines : list text) : res (list (list F)) :=
    match lines with
    | [] => Ok []
    | line :: t =>
      toks <- get_tokens comma line ;;
      if List.length toks <=? num_dim then load_rows num_dim t
      else s <- parse_from toks 0 (num_dim + 1) ;; r <- load_rows num_dim t ;; Ok (s :: r)
    end.
  Definition load_spheres_csv (num_dim : nat) (file : text) : res (list (list F)) :=
    load_rows num_dim (tl (getlines file)).
End Files.
Arguments seed F : clear implicits.

(** Trees as CSV files. *)
Section TreeFiles.
  Context {F : Type} `{Num F} (io : numio F).

  (** MeshingSmartTree.cpp:118-159 save_tree_csv(file, num_dim). *)
  Definition save_tree_header (num_dim nd : nat) (att : option (list (option (list nat)))) : text :=
    commas (coord_names num_dim
            ++ map (fun i => lit "n" ++ show_nat (N.of_nat (i + 1))) (seq 0 nd)
            ++ match att with
               | Some (Some (cap :: _) :: _) => map (fun j => lit "attrib" ++ show_nat (N.of_nat (j + 1))) (seq 0 cap)
               | _ => []
               end).
  Definition save_tree_row (num_dim nd : nat) (p : list F) (nv : option (list F)) (av : option (list nat)) : res text :=
    if (List.length p <? num_dim) then UB else
    nrm <- (match nv with
            | Some v => if List.length v <? nd then UB else Ok (map (io_show io) (firstn nd v))
            | None => Ok (repeat (lit "0.0") nd)
            end) ;;
    a <- (match av with
          | None => Ok []
          | Some [] => UB
          | Some (cap :: t) => if List.length (cap :: t) <? cap then UB
                               else Ok (map (fun x => show_nat (N.of_nat x)) (firstn cap (cap :: t)))
          end) ;;
    Ok (commas (map (io_show io) (firstn num_dim p) ++ nrm ++ a)).
  Fixpoint save_tree_rows (num_dim nd n i : nat) (s : stree F) : res (list text) :=
    match n with
    | O => Ok []
    | S m =>
      p <- get (st_pts s) i ;;
      nv <- (match st_nrm s with None => Ok None | Some nr => v <- get nr i ;; Ok (Some v) end) ;;
      av <- (match st_att s with None => Ok None | Some at' => get at' i end) ;;
      row <- save_tree_row num_dim nd p nv av ;;
      r <- save_tree_rows num_dim nd m (S i) s ;;
      Ok (row :: r)
    end.
  Definition save_tree_csv (num_dim : nat) (s : stree F) : res text :=
    rows <- save_tree_rows num_dim (st_nd s) (st_n s) 0 s ;;
    Ok (unlines (save_tree_header num_dim (st_nd s) (st_att s) :: rows)).

  (** MeshingSmartTree.cpp:234-291 load_tree_csv(file, num_dim): the number of fields
      of the first line decides whether normals and attributes are read. *)
  Definition load_tree_row (num_dim nd num_entries : nat) (line : text)
    : res (list F * option (list F) * option (list nat)) :=
    toks <- get_tokens comma line ;;
    x <- parse_from io toks 0 num_dim ;;
    nv <- (if num_dim + nd <=? num_entries then v <- parse_from io toks num_dim nd ;; Ok (Some v) else Ok None) ;;
    av <- (if num_dim + nd <? num_entries
           then a <- map_res (fun i => t <- token toks (num_dim + nd + i) ;; Ok (N.to_nat (string_to_size_t t)))
                       (seq 0 (num_entries - num_dim - nd)) ;; Ok (Some a)
           else Ok None) ;;
    Ok (x, nv, av).
  Fixpoint load_tree_rows (need : nat -> nat -> bool) (num_dim num_entries : nat) (s : stree F) (lines : list text)
    : res (stree F) :=
    match lines with
    | [] => Ok s
    | line :: t =>
      '(x, nv, av) <- load_tree_row num_dim (st_nd s) num_entries line ;;
      s1 <- add_point need s x nv av ;;
      load_tree_rows need num_dim num_entries s1 t
    end.
  Definition load_tree_csv (need : nat -> nat -> bool) (num_dim : nat) (s : stree F) (file : text) : res (stree F) :=
    match getlines file with
    | [] => Ok s
    | header :: rows => toks <- get_tokens comma header ;; load_tree_rows need num_dim (List.length toks) s rows
    end.
End TreeFiles.

(** OBJ files. *)
Section Obj.
  Context {F : Type} (io : numio F).
  Variable to_index : F -> Z.        (* size_t(x - 1) for the double x of a face line *)

  Record obj := Obj { ob_pts : list (list F); ob_faces : list (list Z) }.

  (** tokens[i].substr(0, tokens[i].find("/")). *)
  Fixpoint until_slash (l : text) : text :=
    match l with
    | [] => []
    | a :: t => if ch a "/"%char then [] else a :: until_slash t
    end.

  (** MeshingPolyMesh.cpp:190-272 read_input_obj_file up to the call of
      weld_nearby_points (PolyMesh.v): the counting pass sizes the arrays exactly, so
      the second pass is modelled. *)
  Fixpoint read_obj_lines (lines : list text) (o : obj) : res obj :=
    match lines with
    | [] => Ok o
    | line :: t =>
      match words line with
      | [] => read_obj_lines t o
      | w :: _ =>
        let toks := words line in
        o1 <- (if text_eqb w (lit "v") then
                 x <- parse_from io toks 1 3 ;; Ok (Obj (ob_pts o ++ [x]) (ob_faces o))
               else Ok o) ;;
        o2 <- (if text_eqb w (lit "f") then
                 a <- token toks 1 ;; b <- token toks 2 ;; c <- token toks 3 ;;
                 Ok (Obj (ob_pts o1)
                         (ob_faces o1 ++ [map (fun s => to_index (io_parse io (until_slash s))) [a; b; c]]))
               else Ok o1) ;;
        read_obj_lines t o2
      end
    end.
  Definition read_obj (file : text) : res obj := read_obj_lines (getlines file) (Obj [] []).

  (** MeshingPolyMesh.cpp:336-359 save_mesh_obj. *)
  Definition vertex_line (p : list F) : res text :=
    a <- get p 0 ;; b <- get p 1 ;; c <- get p 2 ;;
    Ok (lit "v " ++ io_show io a ++ [blank] ++ io_show io b ++ [blank] ++ io_show io c).
  Definition face_line (f : list Z) : res text :=
    a <- get f 0 ;; b <- get f 1 ;; c <- get f 2 ;;
    let sh z := [blank] ++ show_nat (Z.to_N (z + 1)) in
    Ok (lit "f " ++ sh a ++ sh b ++ sh c).
  Definition save_obj (o : obj) : res text :=
    vs <- map_res vertex_line (ob_pts o) ;;
    fs <- map_res face_line (ob_faces o) ;;
    Ok (unlines (vs ++ fs)).
End Obj.
Arguments obj F : clear implicits.

(** MeshingVoroCrust.cpp:177-204, merging of models: faces of the i-th model are
    shifted by the number of points before it. *)
Section Merge.
  Context {F : Type}.
  Fixpoint merge_from (acc : obj F) (ms : list (obj F)) : obj F :=
    match ms with
    | [] => acc
    | m :: t =>
      merge_from (Obj (ob_pts acc ++ ob_pts m)
                      (ob_faces acc ++ map (map (Z.add (Z.of_nat (List.length (ob_pts acc))))) (ob_faces m))) t
    end.
  Definition merge_models (ms : list (obj F)) : obj F := merge_from (Obj [] []) ms.
End Merge.

(** The configuration file (MeshingVoroCrust.cpp:54-111). *)
Section Config.
  Context {F : Type} `{Num F} (io : numio F).
  Record config := Cfg {
    cf_files : list text; cf_sizing : text; cf_rmin : F; cf_rmax : F; cf_lip : F; cf_angle : F;
    cf_threads : Z; cf_vcg : bool; cf_exodus : bool; cf_mon : bool; cf_imp : bool; cf_seeds : bool }.
  Definition cfg_default : config :=
    Cfg [] [] n0 dbl_max (nlit 1 1) (nofZ 20) 1 false false false false false.

  Definition key (w : text) (k : string) : bool := text_eqb w (lit k).
  (** MeshingVoroCrust.cpp:90-102, the successive tests on tokens[0]. *)
  Definition cfg_line (c : config) (line : text) : res config :=
    match words line with
    | [] => Ok c
    | w :: _ =>
      let toks := words line in
      c <- (if key w "INPUT_MESH_FILE" then v <- token toks 2 ;;
              Ok (Cfg (cf_files c ++ [v]) (cf_sizing c) (cf_rmin c) (cf_rmax c) (cf_lip c) (cf_angle c) (cf_threads c) (cf_vcg c) (cf_exodus c) (cf_mon c) (cf_imp c) (cf_seeds c)) else Ok c) ;;
      c <- (if key w "SIZING_FILE" then v <- token toks 2 ;;
              Ok (Cfg (cf_files c) v (cf_rmin c) (cf_rmax c) (cf_lip c) (cf_angle c) (cf_threads c) (cf_vcg c) (cf_exodus c) (cf_mon c) (cf_imp c) (cf_seeds c)) else Ok c) ;;
      c <- (if key w "R_MIN" then v <- token toks 2 ;;
              Ok (Cfg (cf_files c) (cf_sizing c) (io_parse io v) (cf_rmax c) (cf_lip c) (cf_angle c) (cf_threads c) (cf_vcg c) (cf_exodus c) (cf_mon c) (cf_imp c) (cf_seeds c)) else Ok c) ;;
      c <- (if key w "R_MAX" then v <- token toks 2 ;;
              Ok (Cfg (cf_files c) (cf_sizing c) (cf_rmin c) (io_parse io v) (cf_lip c) (cf_angle c) (cf_threads c) (cf_vcg c) (cf_exodus c) (cf_mon c) (cf_imp c) (cf_seeds c)) else Ok c) ;;
      c <- (if key w "LIP_CONST" then v <- token toks 2 ;;
              Ok (Cfg (cf_files c) (cf_sizing c) (cf_rmin c) (cf_rmax c) (io_parse io v) (cf_angle c) (cf_threads c) (cf_vcg c) (cf_exodus c) (cf_mon c) (cf_imp c) (cf_seeds c)) else Ok c) ;;
      c <- (if key w "VC_ANGLE" then v <- token toks 2 ;;
              Ok (Cfg (cf_files c) (cf_sizing c) (cf_rmin c) (cf_rmax c) (cf_lip c) (io_parse io v) (cf_threads c) (cf_vcg c) (cf_exodus c) (cf_mon c) (cf_imp c) (cf_seeds c)) else Ok c) ;;
      c <- (if key w "NUM_THREADS" then v <- token toks 2 ;;
              Ok (Cfg (cf_files c) (cf_sizing c) (cf_rmin c) (cf_rmax c) (cf_lip c) (cf_angle c) (ntrunc (io_parse io v)) (cf_vcg c) (cf_exodus c) (cf_mon c) (cf_imp c) (cf_seeds c)) else Ok c) ;;
      c <- (if key w "GENERATE_VCG_FILE" then
              Ok (Cfg (cf_files c) (cf_sizing c) (cf_rmin c) (cf_rmax c) (cf_lip c) (cf_angle c) (cf_threads c) true (cf_exodus c) (cf_mon c) (cf_imp c) (cf_seeds c)) else Ok c) ;;
      c <- (if key w "GENERATE_EXODUS_FILE" then
              Ok (Cfg (cf_files c) (cf_sizing c) (cf_rmin c) (cf_rmax c) (cf_lip c) (cf_angle c) (cf_threads c) (cf_vcg c) true (cf_mon c) (cf_imp c) (cf_seeds c)) else Ok c) ;;
      c <- (if key w "GENERATE_MONITORING_POINTS" then
              Ok (Cfg (cf_files c) (cf_sizing c) (cf_rmin c) (cf_rmax c) (cf_lip c) (cf_angle c) (cf_threads c) (cf_vcg c) (cf_exodus c) true (cf_imp c) (cf_seeds c)) else Ok c) ;;
      c <- (if key w "IMPOSE_MONITORING_POINTS" then
              Ok (Cfg (cf_files c) (cf_sizing c) (cf_rmin c) (cf_rmax c) (cf_lip c) (cf_angle c) (cf_threads c) (cf_vcg c) (cf_exodus c) (cf_mon c) true (cf_seeds c)) else Ok c) ;;
      c <- (if key w "GENERATE_MESH_FROM_SEEDS" then
              Ok (Cfg (cf_files c) (cf_sizing c) (cf_rmin c) (cf_rmax c) (cf_lip c) (cf_angle c) (cf_threads c) (cf_vcg c) (cf_exodus c) (cf_mon c) (cf_imp c) true) else Ok c) ;;
      if key w "SEEDS_FILE" then v <- token toks 2 ;;
        Ok (Cfg (cf_files c ++ [v]) (cf_sizing c) (cf_rmin c) (cf_rmax c) (cf_lip c) (cf_angle c) (cf_threads c) (cf_vcg c) (cf_exodus c) (cf_mon c) (cf_imp c) (cf_seeds c)) else Ok c
    end.
  Fixpoint cfg_lines (c : config) (l : list text) : res config :=
    match l with [] => Ok c | a :: t => c1 <- cfg_line c a ;; cfg_lines c1 t end.
  Definition read_config (file : text) : res config := cfg_lines cfg_default (getlines file).

  (** MeshingVoroCrust.cpp:112-135, 212-216: what is run with the configuration; the
      single input file is filenames[0]. *)
  Inductive job := MeshFromSeeds (file : text) | MeshModels (files : list text).
  Definition choose_job (c : config) : res job :=
    if cf_seeds c then f <- get (cf_files c) 0 ;; Ok (MeshFromSeeds f)
    else if 1 <? List.length (cf_files c) then Ok (MeshModels (cf_files c))
    else f <- get (cf_files c) 0 ;; Ok (MeshModels [f]).
End Config.
Arguments config F : clear implicits.

(** The command line (MeshingOptionParser.h:88-131, vc_mesh.cxx:50-130). *)
Inductive cli := Usage (code : nat) | Throw | RunVC (file : text) | RunNothing.
Definition option_exists (args : list text) (o : text) : bool := existsb (fun a => text_eqb a o) args.
(** std::find, then the next argument. *)
Fixpoint option_value (args : list text) (o : text) : option text :=
  match args with
  | [] => None
  | a :: t => if text_eqb a o then match t with [] => None | v :: _ => Some v end else option_value t o
  end.
Definition run_cli (args : list text) : cli :=
  if (List.length args =? 0) || option_exists args (lit "-h") then Usage 0
  else if option_exists args (lit "-vc") then
    match option_value args (lit "-vc") with Some f => RunVC f | None => Throw end
  else if option_exists args (lit "-subdivision_smooth") then
    match option_value args (lit "-subdivision_smooth") with Some _ => RunNothing | None => Throw end
  else Usage 1.
