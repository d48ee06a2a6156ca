(** Model of src/Meshing/MeshingVoronoiMesher.cpp: impose_lipschitz_continuity (3073-3127),
    impose_interior_seeds (449-836) and generate_interior_seeds (839-1617).

    A sphere is one row [x; y; z; r]: the C++ keeps the centres in one flat array
    (spheres[3 i + d]) and the radii in another (spheres_sizing[i]).  The seeds are such rows
    with one region number each.  Printing, timing and the file interior_spheres.csv are left
    out.  The parallel loops over the imposed points and over the active seeds are
    sequential here: every iteration writes only its own entries (the shared counter
    num_valid_seeds is modelled apart, see [append_imposed] and [run_counter]). *)
From Verif Require Import Base Num KdTree SmartTree DenseQR Geometry Spheres PolyMesh Regions.

Section Interior.
  Context {F : Type} `{Num F}.
  Local Open Scope num_scope.

  Definition three_coords (s : list F) : list F := [gv s 0%nat; gv s 1%nat; gv s 2%nat].
  Definition flat_centers (l : list (list F)) : list F := flat_map three_coords l.
  (** h = sum of squares of the coordinate differences, as at 1256-1261. *)
  Definition sq_distance (x y : list F) : F := range_sum 0 3 (fun d => (gv x d - gv y d) * (gv x d - gv y d)).

  (** A tree over spheres: links, root, old_index and the sorted coordinates
      (build_balanced_kd_tree, then re_enumerate_points_for_better_memory_access; 855-867). *)
  Definition ptree := (links * nat * list nat * list F)%type.
  Definition index_tree (l : list (list F)) : res ptree :=
    let n := length l in
    '(lk, root, _) <- flat_build 3 (flat_centers l) n ;;
    flat_reenumerate 3 (flat_centers l) n lk root.
  (** get_closest_tree_point, then old_index of the answer (1166-1171). *)
  Definition tree_closest (n : nat) (t : ptree) (x : list F) : res (nat * F) :=
    let '(lk, root, old, sorted) := t in
    '(_, (ic, h)) <- flat_closest 3 sorted n lk root x dbl_max ;;
    i <- get old ic ;; Ok (i, h).
  (** get_tree_points_in_sphere, then old_index of every answer. *)
  Definition tree_in_sphere (n : nat) (t : ptree) (x : list F) (r : F) : res (list nat) :=
    let '(lk, root, old, sorted) := t in
    l <- flat_in_sphere 3 sorted n lk root x r ;; mapr (get old) l.

  (** Point i of the sorted array. *)
  Definition sorted_row (sorted : list F) (i : nat) : list F := map (fun k => nth (i * 3 + k)%nat sorted n0) (seq 0 3).
  (** 3101-3118: sphere i against its neighbour j; [st] is (spheres_sizing, not done). *)
  Definition lip_step (Lip : F) (sorted : list F) (i j : nat) (st : list F * bool) : res (list F * bool) :=
    rj <- get (fst st) j ;; ri <- get (fst st) i ;;
    if ri <? rj then Ok st
    else
      let rl := rj + nsqrt (sq_distance (sorted_row sorted j) (sorted_row sorted i)) * Lip in
      if rl + nlit 1 10 <? ri then sz <- set (fst st) i rl ;; Ok (sz, true) else Ok st.
  (** 3096-3119: one pass. *)
  Definition lip_pass (Lip : F) (sorted : list F) (nbrs : list (list nat)) (sz : list F) : res (list F * bool) :=
    fold_res (fun '(i, l) => fold_res (lip_step Lip sorted i) l) (numbered nbrs) (sz, false).
  (** 3094-3121: passes until one changes nothing. *)
  Fixpoint lip_passes (fuel : nat) (Lip : F) (sorted : list F) (nbrs : list (list nat)) (sz : list F) : res (list F) :=
    match fuel with
    | O => Fuel
    | S f => '(sz', ch) <- lip_pass Lip sorted nbrs sz ;;
             if (ch : bool) then lip_passes f Lip sorted nbrs sz' else Ok sz'
    end.
  (** 3073-3127 impose_lipschitz_continuity: the neighbours are those within twice the
      radius before the first pass.  (The buffer x is shared by the threads of the loop
      3087-3091; here every iteration has its own.) *)
  Definition mesher_lipschitz (fuel : nat) (Lip : F) (n : nat) (lk : links) (root : nat) (sorted sz : list F)
    : res (list F) :=
    nbrs <- mapr (fun i => r <- get sz i ;;
                           flat_in_sphere 3 sorted n lk root (sorted_row sorted i) (n2 * r))
                 (seq 0 n) ;;
    lip_passes fuel Lip sorted nbrs sz.
  (** 870-878, 1552-1556, 1568-1572: the radii in tree order, smoothed, and back. *)
  Definition with_radius (s : list F) (r : F) : list F := three_coords s ++ [r].
  Definition lip_seeds (fuel : nat) (Lip : F) (t : ptree) (seeds : list (list F)) : res (list (list F)) :=
    let '(lk, root, old, sorted) := t in
    sz <- mapr (fun i => k <- get old i ;; s <- get seeds k ;; Ok (gv s 3%nat)) (seq 0 (length seeds)) ;;
    sz' <- mesher_lipschitz fuel Lip (length seeds) lk root sorted sz ;;
    fold_res (fun i l => k <- get old i ;; s <- get l k ;; r <- get sz' i ;; set l k (with_radius s r))
      (seq 0 (length seeds)) seeds.

  (** A family of spheres (surface, edge or corner) with its tree, built only when the
      family is not empty (881-961). *)
  Definition family := (list (list F) * option ptree)%type.
  Definition make_family (l : list (list F)) : res family :=
    match l with [] => Ok (l, None) | _ => t <- index_tree l ;; Ok (l, Some t) end.

  (** The links of the trees of the corner spheres and of the sizing points are allocated
      with num_surface_spheres entries (540-541, 562-563, 929-930, 951-952): with fewer
      surface spheres than that the tree is written outside its arrays. *)
  Definition undersized_family (surf l : list (list F)) : res family :=
    if (length surf <? length l)%nat then UB else make_family l.

  (** ** impose_interior_seeds *)

  (** 631-673 (the same text at 675-717 and 719-761): the point x is outside the family. *)
  Definition outside_family (Lip : F) (fam : family) (x : list F) : res bool :=
    match snd fam with
    | None => Ok true
    | Some t =>
      '(c, h) <- tree_closest (length (fst fam)) t x ;;
      sc <- get (fst fam) c ;;
      let rs := gv sc 3%nat + Lip * h in
      l <- tree_in_sphere (length (fst fam)) t x (rs / (n1 - Lip)) ;;
      ok <- mapr (fun i => s <- get (fst fam) i ;;
                           Ok (negb (nsqrt (sq_distance x s) <? gv s 3%nat - nlit 1 10))) l ;;
      Ok (forallb (fun b => b) ok)
    end.
  (** 593-764: one imposed point; its region, or None if it is dropped. *)
  Definition imposed_region (Lip : F) (n : nat) (t : ptree) (regs : list nat)
    (surf edge corner : family) (q : list F) : res (option nat) :=
    '(c, _) <- tree_closest n t q ;;
    r <- get regs c ;;
    if (r =? 0)%nat then Ok None
    else
      a <- outside_family Lip surf q ;;
      if negb a then Ok None
      else
        b <- outside_family Lip edge q ;;
        if negb b then Ok None
        else
          d <- outside_family Lip corner q ;;
          Ok (if d : bool then Some r else None).
  (** 768-806: [count] is the value of num_valid_seeds after the parallel loop; the new arrays
      have room for num_seeds + count entries, and nothing is added when it is 0. *)
  Definition kept_points (imposed : list (list F)) (res_ids : list (option nat)) : list (list F * nat) :=
    flat_map (fun '(q, o) => match o with Some r => [(firstn 4 q, r)] | None => [] end) (combine imposed res_ids).
  Definition append_imposed (count : nat) (seeds : list (list F)) (regs : list nat)
    (imposed : list (list F)) (res_ids : list (option nat)) : res (list (list F) * list nat) :=
    let kept := kept_points imposed res_ids in
    if (count =? 0)%nat then Ok (seeds, regs)
    else if (length kept <=? count)%nat then Ok (seeds ++ map fst kept, regs ++ map snd kept)
    else UB.
  (** 449-836: everything, with the counter incremented once per valid point. *)
  Definition impose_interior_seeds (fuel : nat) (Lip : F) (seeds : list (list F)) (regs : list nat)
    (surf edge corner sizing imposed : list (list F)) : res (list (list F) * list nat) :=
    t <- index_tree seeds ;;
    seeds <- lip_seeds fuel Lip t seeds ;;
    sf <- make_family surf ;; ef <- make_family edge ;;
    cf <- undersized_family surf corner ;; _ <- undersized_family surf sizing ;;
    ids <- mapr (imposed_region Lip (length seeds) t regs sf ef cf) imposed ;;
    append_imposed (length (kept_points imposed ids)) seeds regs imposed ids.

  (** ** generate_interior_seeds *)

  (** 1053: two front spheres are too close to be processed together. *)
  Definition conflict (Lip : F) (a b : list F) : bool :=
    nsqrt (sq_distance a b) <? (nofZ 3 + n2 * Lip) * (gv a 3%nat + gv b 3%nat) - nlit 1 10.
  (** 1042-1059: j runs below i - 1. *)
  Definition good_front (Lip : F) (fs : list (list F)) (act : list bool) (i : nat) : bool :=
    forallb (fun j => negb (nth j act false && conflict Lip (nth i fs []) (nth j fs []))) (seq 0 (i - 1)).
  (** 1036-1069: [cap] is 100 * num_threads. *)
  Fixpoint select (Lip : F) (cap : nat) (fs : list (list F)) (m i good : nat) (act : list bool) : res (list bool) :=
    match m with
    | O => Ok act
    | S m' =>
      if good_front Lip fs act i then
        act <- set act i true ;;
        if (S good =? cap)%nat then Ok act else select Lip cap fs m' (S i) (S good) act
      else select Lip cap fs m' (S i) good act
    end.
  Definition active_front (Lip : F) (cap : nat) (fs : list (list F)) : res (list bool) :=
    act <- set (repeat false (length fs)) 0 true ;;
    select Lip cap fs (length fs - 1) 1 1 act.
  (** 1072-1097: the two lists, in the order of the front. *)
  Definition chosen (b : bool) (front : list nat) (act : list bool) : list nat :=
    map fst (filter (fun '(_, a) => Bool.eqb a b) (combine front act)).

  (** The state of the loop 993-1562: the seeds in the tree with their regions, the buffer
      interior_spheres with its regions, the tree, the front and num_lip. *)
  Record istate := IS { i_seeds : list (list F); i_regs : list nat; i_buf : list (list F); i_bregs : list nat;
                        i_tree : ptree; i_front : list nat; i_lip : nat }.
  (** An index below num_seeds is a seed, any other one an entry of the buffer (1014-1031). *)
  Definition sphere_at (s : istate) (k : nat) : res (list F) :=
    if (k <? length (i_seeds s))%nat then get (i_seeds s) k else get (i_buf s) (k - length (i_seeds s)).
  Definition region_at (s : istate) (k : nat) : res nat :=
    if (k <? length (i_seeds s))%nat then get (i_regs s) k else get (i_bregs s) (k - length (i_seeds s)).

  (** 1130-1158: the entries of the buffer within alpha r. *)
  Definition near_buffer (s : istate) (x : list F) (r : F) : list nat :=
    map fst (filter (fun '(_, b) => negb (r <? nsqrt (sq_distance b x))) (numbered (i_buf s))).
  (** 1160-1214: the spheres of a family that a dart of the seed (x, r) can reach. *)
  Definition near_family (Lip : F) (fam : family) (x : list F) (r : F) : res (list (list F)) :=
    match snd fam with
    | None => Ok []
    | Some t =>
      '(c, h) <- tree_closest (length (fst fam)) t x ;;
      sc <- get (fst fam) c ;;
      let rs := gv sc 3%nat + Lip * h in
      l <- tree_in_sphere (length (fst fam)) t x (n2 * r + (rs + n2 * r * Lip) / (n1 - Lip)) ;;
      mapr (get (fst fam)) l
    end.
  (** 1122-1265: all spheres near the seed; seeds and buffer entries carry their index. *)
  Definition gather (Lip : F) (s : istate) (surf edge corner : family) (sk : list F)
    : res (list (option nat * list F)) :=
    let r := gv sk 3%nat in
    let ar := nofZ 3 / (n1 - Lip) * r in
    l <- tree_in_sphere (length (i_seeds s)) (i_tree s) sk ar ;;
    a <- mapr (fun k => x <- get (i_seeds s) k ;; Ok (Some k, x)) l ;;
    b <- mapr (fun k => x <- get (i_buf s) k ;; Ok (Some (length (i_seeds s) + k)%nat, x)) (near_buffer s sk ar) ;;
    c <- near_family Lip surf sk r ;;
    d <- near_family Lip edge sk r ;;
    e <- near_family Lip corner sk r ;;
    Ok (a ++ b ++ map (fun x => (None, x)) (c ++ d ++ e)).
  (** 1286-1306: the first sphere that contains the dart ends the loop. *)
  Fixpoint scan (dart : list F) (l : list (option nat * list F)) (best : nat * F) : bool * (nat * F) :=
    match l with
    | [] => (true, best)
    | (o, y) :: t =>
      let hsq := sq_distance dart y in
      let best := match o with Some k => if hsq <? snd best then (k, hsq) else best | None => best end in
      if hsq <? gv y 3%nat * gv y 3%nat then (false, best) else scan dart t best
    end.
  (** 1269-1365: one dart of seed number k in direction [dir] with draw [u]; [new] are the
      spheres made so far. *)
  Definition throw_dart (Lip rmax : F) (s : istate) (sizing : family) (near : list (option nat * list F))
    (k : nat) (sk : list F) (dir : list F) (u : F) (new : list (list F)) : res (list (list F)) :=
    let r := gv sk 3%nat in
    let dart := map (fun d => gv sk d + (n1 + u) * r * gv dir d) (seq 0 3) in
    let '(good, (c, dsq)) := scan dart near (k, sq_distance dart sk) in
    let good := good && forallb (fun y => negb (sq_distance dart y <? gv y 3%nat * gv y 3%nat)) new in
    rk <- region_at s k ;; rc <- region_at s c ;;
    if good && (rk =? rc)%nat then
      sc <- sphere_at s c ;;
      let sz := nmin (gv sc 3%nat + Lip * nsqrt dsq) rmax in
      sz <- match snd sizing with
            | None => Ok sz
            | Some t => '(i, _) <- tree_closest (length (fst sizing)) t dart ;;
                        p <- get (fst sizing) i ;; Ok (nmin sz (gv p 3%nat))
            end ;;
      Ok (new ++ [dart ++ [sz]])
    else Ok new.
  (** 1103-1369: the twenty darts of seed number k. *)
  Definition throw_darts (Lip rmax : F) (s : istate) (surf edge corner sizing : family)
    (dir : nat -> list F) (u : nat -> F) (k : nat) : res (list (list F)) :=
    sk <- sphere_at s k ;;
    near <- gather Lip s surf edge corner sk ;;
    for_res 20 0 (fun d new => throw_dart Lip rmax s sizing near k sk (dir d) (u d) new) [].

  (** 1383-1419, 1489-1514: the buffer, and the new spheres, become seeds. *)
  Definition flush (s : istate) (new : list (list F)) (nregs : list nat) (front : list nat) : res istate :=
    let seeds := i_seeds s ++ i_buf s ++ new in
    t <- index_tree seeds ;;
    Ok (IS seeds (i_regs s ++ i_bregs s ++ nregs) [] [] t front (i_lip s)).

  (** The random draws of one round: exchanges of the front, directions and lengths of the
      darts of the active seeds. *)
  Record draws := DR { d_front : nat -> F; d_dir : nat -> nat -> list F; d_len : nat -> nat -> F }.

  (** 994-1562: one round; [true] ends the loop. *)
  Definition round (fuel : nat) (Lip rmax : F) (threads : nat) (surf edge corner sizing : family) (dr : draws)
    (s : istate) : res (istate * bool) :=
    front <- shuffle 0 (length (i_front s)) (d_front dr) (i_front s) ;;
    fs <- mapr (sphere_at s) front ;;
    act <- active_front Lip (100 * threads) fs ;;
    let active := chosen true front act in
    let inactive := chosen false front act in
    news <- mapr (fun '(a, k) => throw_darts Lip rmax s surf edge corner sizing (d_dir dr a) (d_len dr a) k)
              (numbered active) ;;
    let new := concat news in
    if (length new =? 0)%nat && (length inactive =? 0)%nat then
      if (length (i_buf s) =? 0)%nat then Ok (s, true) else s' <- flush s [] [] [] ;; Ok (s', true)
    else if (length new =? 0)%nat then
      Ok (IS (i_seeds s) (i_regs s) (i_buf s) (i_bregs s) (i_tree s) inactive (i_lip s), false)
    else
      regs <- mapr (fun '(k, l) => r <- region_at s k ;; Ok (repeat r (length (l : list (list F))))) (combine active news) ;;
      let nregs := concat regs in
      let front' := inactive ++ seq (length (i_seeds s) + length (i_buf s)) (length new) in
      if (length (i_buf s) + length new <? 1000 * threads)%nat then
        Ok (IS (i_seeds s) (i_regs s) (i_buf s ++ new) (i_bregs s ++ nregs) (i_tree s) front' (i_lip s), false)
      else
        s' <- flush s new nregs front' ;;
        if (2 * i_lip s' <? length (i_seeds s'))%nat then
          seeds <- lip_seeds fuel Lip (i_tree s') (i_seeds s') ;;
          Ok (IS seeds (i_regs s') [] [] (i_tree s') front' (length seeds), false)
        else Ok (s', false).

  (** 993-1562: the rounds.  [dr k] are the draws of round k; [lfuel] is the fuel of the
      smoothing passes. *)
  Fixpoint rounds (fuel lfuel : nat) (Lip rmax : F) (threads : nat) (surf edge corner sizing : family)
    (dr : nat -> draws) (k : nat) (s : istate) : res istate :=
    match fuel with
    | O => Fuel
    | S f => '(s', stop) <- round lfuel Lip rmax threads surf edge corner sizing (dr k) s ;;
             if (stop : bool) then Ok s' else rounds f lfuel Lip rmax threads surf edge corner sizing dr (S k) s'
    end.
  (** 839-1617. *)
  Definition generate_interior_seeds (fuel lfuel : nat) (Lip rmax : F) (threads : nat)
    (seeds : list (list F)) (regs : list nat) (surf edge corner sizing : list (list F)) (dr : nat -> draws)
    : res (list (list F) * list nat) :=
    t <- index_tree seeds ;;
    seeds <- lip_seeds lfuel Lip t seeds ;;
    sf <- make_family surf ;; ef <- make_family edge ;;
    cf <- undersized_family surf corner ;; zf <- undersized_family surf sizing ;;
    let front := map fst (filter (fun '(_, r) => negb (r =? 0)%nat) (combine (seq 0 (length seeds)) regs)) in
    s <- rounds fuel lfuel Lip rmax threads sf ef cf zf dr 0 (IS seeds regs [] [] t front (length seeds)) ;;
    seeds <- lip_seeds lfuel Lip (i_tree s) (i_seeds s) ;;
    Ok (seeds, i_regs s).
End Interior.
Arguments istate F : clear implicits.
Arguments draws F : clear implicits.

(** num_valid_seeds++ at 764 without synchronisation: thread t loads the counter, then stores
    the loaded value plus one.  [Fetch t] and [Put t] in the order in which they happen; the
    state is the counter and the value each thread has loaded. *)
Inductive counter_event := Fetch (t : nat) | Put (t : nat).
Definition counter_step (e : counter_event) (s : nat * (nat -> nat)) : nat * (nat -> nat) :=
  match e with
  | Fetch t => (fst s, fun t' => if t' =? t then fst s else snd s t')
  | Put t => (S (snd s t), snd s)
  end.
Definition run_counter (es : list counter_event) : nat := fst (fold_left (fun s e => counter_step e s) es (0, fun _ => 0)).
