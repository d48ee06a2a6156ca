(** Model of the active pool of MeshingVoroCrustSampler.cpp (2360-3108): the edges or faces
    still to be sampled, their subdivision and their removal.  The arrays of one pool are
    lists; [_active_pool_size] is their length.  A null [_active_pool_children] entry is
    [None].  Arrays grown by add_entry (MemoryHandler.v, C01) are lists extended at the
    end. *)
From Verif Require Import Base Num KdTree SmartTree DenseQR Geometry Spheres Sampling.

Section ActivePool.
  Context {F : Type} `{Num F}.
  Local Open Scope num_scope.

  Record pool := Pool {
    p_parent : list nat;                (* _active_pool_parent_face *)
    p_child : list (option (list bool));(* _active_pool_children *)
    p_cdf : list F;                     (* _active_pool_cdf *)
    p_level : nat                       (* _active_pool_ref_level *)
  }.
  Definition p_size (p : pool) : nat := length (p_parent p).
  (** An element of a pool under construction: parent, path, size (the three parallel
      arrays active_pool_parent_face, active_pool_children, active_pool_cdf). *)
  Definition entry : Type := nat * list bool * F.

  (** MeshingVoroCrustSampler.cpp:2487, 2947-2948  _active_pool_children[i][k]. *)
  Definition child_bit (p : pool) (i k : nat) : res bool :=
    o <- get (p_child p) i ;;
    match o with None => UB | Some l => get l k end.

  (** The copy of the three coordinates of points[ci] (2474-2478, 2932-2936). *)
  Definition corner (points : list (list F)) (ci : nat) : res (list F) :=
    row <- get points ci ;;
    if Nat.leb 3 (length row) then Ok (firstn 3 row) else UB.

  (** ** Edges *)
  (** MeshingVoroCrustSampler.cpp:2480-2483, 2505-2508: edge_corners[2] is the midpoint of
      corners 0 and 1 ([center2] of Spheres.v). *)
  Definition with_mid (a b : list F) : list F * list F * list F := (a, b, center2 a b).
  (** 2487-2508: one level of get_active_edge_corners. *)
  Definition edge_step (bo : bool) (c : list F * list F * list F) : list F * list F * list F :=
    let '(a, b, m) := c in if bo then with_mid m b else with_mid a m.
  (** MeshingVoroCrustSampler.cpp:2470-2513 get_active_edge_corners. *)
  Definition edge_corners (points : list (list F)) (edges : list (list nat)) (p : pool) (i : nat)
    : res (list F * list F * list F) :=
    iedge <- get (p_parent p) i ;;
    ed <- get edges iedge ;;
    i0 <- get ed 0 ;; a <- corner points i0 ;;
    i1 <- get ed 1 ;; b <- corner points i1 ;;
    for_res (p_level p) 0 (fun iref c => bo <- child_bit p i iref ;; Ok (edge_step bo c)) (with_mid a b).

  (** MeshingVoroCrustSampler.cpp:2360-2383 initiate_active_pool_edges. *)
  Definition start_edges (points : list (list F)) (edges : list (list nat)) : res pool :=
    sizes <- for_res (length edges) 0 (fun ied l =>
               ed <- get edges ied ;;
               i0 <- get ed 0 ;; a <- corner points i0 ;;
               i1 <- get ed 1 ;; b <- corner points i1 ;;
               Ok (l ++ [distance 3 (gv a) (gv b)])) [] ;;
    cdf <- make_cdf sizes ;;
    Ok (Pool (seq 0 (length edges)) (repeat None (length edges)) cdf 0).

  (** 2547-2550, 3044-3048: the first n bits of the path of element i. *)
  Definition copy_path (p : pool) (i n : nat) : res (list bool) :=
    for_res n 0 (fun k l => b <- child_bit p i k ;; Ok (l ++ [b])) [].

  (** 2527-2541 and 2551-2558: corners and last bit of child [ichild]. *)
  Definition edge_child (c : list F * list F * list F) (ichild : nat) : list F * list F * bool :=
    let '(a, b, m) := c in
    match ichild with
    | 0%nat => (a, m, false)
    | _ => (m, b, true)
    end.
  (** MeshingVoroCrustSampler.cpp:2515-2579 refine_active_edge.  The path array has
      2 * (level + 1) cells of which level + 1 are written; the list holds those. *)
  Definition refine_edge (p : pool) (i : nat) (c : list F * list F * list F) (buf : list entry) : res (list entry) :=
    for_res 2 0 (fun ichild buf =>
      let '(x, y, bit) := edge_child c ichild in
      path <- copy_path p i (p_level p) ;;
      parent <- get (p_parent p) i ;;
      Ok (buf ++ [(parent, path ++ [bit], distance 3 (gv x) (gv y))])) buf.

  (** MeshingVoroCrustSampler.cpp:2399-2403: body of the loop over the active edges. *)
  Definition process_edge (points : list (list F)) (edges : list (list nat))
    (edge_spheres corner_spheres : stree F) (Lip ratio : F) (p : pool) (i : nat) (buf : list entry) : res (list entry) :=
    c <- edge_corners points edges p i ;;
    let '(a, b, _) := c in
    covered <- edge_covered corner_spheres a b Lip n0 ;;
    covered <- (if (covered : bool) then Ok true else edge_covered edge_spheres a b Lip ratio) ;;
    if (covered : bool) then Ok buf else refine_edge p i c buf.

  (** 2409-2428 and 2815-2873: the entries become the pool; an empty list leaves the pool
      deleted (delete_active_pool, 3092-3107) with its level unchanged. *)
  Definition new_pool (level : nat) (l : list entry) : res pool :=
    cdf <- make_cdf (map (fun e => snd e) l) ;;
    match l with
    | [] => Ok (Pool [] [] [] level)
    | _ => Ok (Pool (map (fun e => fst (fst e)) l) (map (fun e => Some (snd (fst e))) l) cdf (level + 1))
    end.

  (** MeshingVoroCrustSampler.cpp:2385-2432 refine_active_pool_edges. *)
  Definition refine_pool_edges (points : list (list F)) (edges : list (list nat))
    (edge_spheres corner_spheres : stree F) (Lip ratio : F) (p : pool) : res pool :=
    l <- for_res (p_size p) 0 (process_edge points edges edge_spheres corner_spheres Lip ratio p) [] ;;
    new_pool (p_level p) l.

  (** ** Faces *)
  (** face_corners: the three corners and the midpoints 3 = (0,1), 4 = (1,2), 5 = (2,0). *)
  Definition six : Type := list F * list F * list F * (list F * list F * list F).
  (** MeshingVoroCrustSampler.cpp:2938-2943, 2986-2991. *)
  Definition with_mids (a b c : list F) : six := (a, b, c, (center2 a b, center2 b c, center2 c a)).
  (** 2947-2991: one level of get_active_face_corners. *)
  Definition face_step (bo b1 : bool) (s : six) : six :=
    let '(c0, c1, c2, (c3, c4, c5)) := s in
    if negb bo && negb b1 then with_mids c0 c3 c5
    else if negb bo && b1 then with_mids c3 c1 c4
    else if bo && negb b1 then with_mids c5 c4 c2
    else with_mids c3 c4 c5.
  (** MeshingVoroCrustSampler.cpp:2928-2995 get_active_face_corners (a face is the row
      [3; i; j; k]). *)
  Definition face_corners (points : list (list F)) (faces : list (list nat)) (p : pool) (i : nat) : res six :=
    iface <- get (p_parent p) i ;;
    f <- get faces iface ;;
    i0 <- get f 1 ;; a <- corner points i0 ;;
    i1 <- get f 2 ;; b <- corner points i1 ;;
    i2 <- get f 3 ;; c <- corner points i2 ;;
    for_res (p_level p) 0 (fun iref s =>
      bo <- child_bit p i (2 * iref) ;;
      b1 <- child_bit p i (2 * iref + 1) ;;
      Ok (face_step bo b1 s)) (with_mids a b c).

  Definition area3 (a b c : list F) : F := triangle_area (fun k => gv (nth k [a; b; c] [])).

  (** MeshingVoroCrustSampler.cpp:2584-2592: the patches.  Result: the number of patches
      (an in-out argument), min_index and max_index. *)
  Definition patch_range (num_faces active_patch num_patches : nat) : res (nat * nat * nat) :=
    match num_patches with
    | O => UB (* division by zero *)
    | _ =>
      let bin := (num_faces / num_patches)%nat in
      let '(np, bin) := if Nat.eqb bin 0 then (1%nat, num_faces) else (num_patches, bin) in
      let lo := (active_patch * bin)%nat in
      let hi := if Nat.eqb active_patch (np - 1) then num_faces else (lo + bin)%nat in
      Ok (np, lo, hi)
    end.
  (** 2596-2617: the entries of the pool; writing beyond max_index - min_index cells is
      out of bounds. *)
  Definition fill_faces (points : list (list F)) (faces : list (list nat)) (lo hi : nat) : res (list (nat * F)) :=
    for_res (length faces) 0 (fun iface l =>
      if Nat.leb lo iface && Nat.ltb iface hi then
        f <- get faces iface ;;
        i0 <- get f 1 ;; a <- corner points i0 ;;
        i1 <- get f 2 ;; b <- corner points i1 ;;
        i2 <- get f 3 ;; c <- corner points i2 ;;
        if Nat.ltb (length l) (hi - lo) then Ok (l ++ [(iface, area3 a b c)]) else UB
      else Ok l) [].
  (** MeshingVoroCrustSampler.cpp:2581-2623 initiate_active_pool.  (Cells not written would
      stay undefined: the length of the list is compared with the size.) *)
  Definition start_faces (points : list (list F)) (faces : list (list nat)) (active_patch num_patches : nat) : res (pool * nat) :=
    '(np, lo, hi) <- patch_range (length faces) active_patch num_patches ;;
    l <- fill_faces points faces lo hi ;;
    if Nat.eqb (length l) (hi - lo) then
      cdf <- make_cdf (map snd l) ;;
      Ok (Pool (map fst l) (repeat None (length l)) cdf 0, np)
    else UB.

  (** MeshingVoroCrustSampler.cpp:1427-1429: the loop over the patches of
      generate_surface_spheres; the pools with which the patches begin. *)
  Fixpoint patches (fuel : nat) (points : list (list F)) (faces : list (list nat)) (ipatch num_patches : nat) : res (list pool) :=
    match fuel with
    | O => Fuel
    | S f =>
      if Nat.ltb ipatch num_patches then
        '(p, np) <- start_faces points faces ipatch num_patches ;;
        r <- patches f points faces (S ipatch) np ;;
        Ok (p :: r)
      else Ok []
    end.

  (** 3008-3040 and 3049-3068: corners and last two bits of child [ichild]. *)
  Definition face_child (s : six) (ichild : nat) : list F * list F * list F * (bool * bool) :=
    let '(c0, c1, c2, (c3, c4, c5)) := s in
    match ichild with
    | 0%nat => (c0, c3, c5, (false, false))
    | 1%nat => (c3, c1, c4, (false, true))
    | 2%nat => (c5, c4, c2, (true, false))
    | _ => (c3, c4, c5, (true, true))
    end.
  (** MeshingVoroCrustSampler.cpp:2997-3090 refine_active_face. *)
  Definition refine_face (p : pool) (i : nat) (s : six) (buf : list entry) : res (list entry) :=
    for_res 4 0 (fun ichild buf =>
      let '(x, y, z, (bo, b1)) := face_child s ichild in
      path <- copy_path p i (2 * p_level p) ;;
      parent <- get (p_parent p) i ;;
      Ok (buf ++ [(parent, path ++ [bo; b1], area3 x y z)])) buf.

  (** MeshingVoroCrustSampler.cpp:2800-2807: the body of the loop over the faces of a
      thread ([continue] for an index beyond the pool). *)
  Definition process_face (points : list (list F)) (faces : list (list nat))
    (surface_spheres edge_spheres corner_spheres : stree F) (Lip ratio : F) (p : pool) (i : nat) (buf : list entry)
    : res (list entry) :=
    if Nat.leb (p_size p) i then Ok buf
    else
      s <- face_corners points faces p i ;;
      let '(a, b, c, _) := s in
      covered <- face_covered surface_spheres a b c Lip ratio ;;
      covered <- (if (covered : bool) then Ok true else face_covered edge_spheres a b c Lip n0) ;;
      covered <- (if (covered : bool) then Ok true else face_covered corner_spheres a b c Lip n0) ;;
      if (covered : bool) then Ok buf else refine_face p i s buf.
End ActivePool.
Arguments pool : clear implicits.
Arguments entry : clear implicits.
Arguments six : clear implicits.

(** ** Threads: 2779-2812 and 2815-2857.  Every thread owns one buffer and one loop counter;
    the pool, the points and the spheres are only read.  A schedule is the list of the
    threads in the order in which they execute one iteration. *)
Section Threads.
  Context {E : Type}.
  Variable process : nat -> list E -> res (list E).
  Variable k : nat. (* num_thread_faces *)
  Definition thread_state : Type := nat * res (list E).
  (** One iteration of thread [t] (2797-2808); a failed thread stays failed. *)
  Definition iteration (t : nat) (st : thread_state) : thread_state :=
    let '(iface, r) := st in
    if Nat.ltb iface k then (S iface, bind r (process (t * k + iface))) else st.
  Definition tick (sts : list thread_state) (t : nat) : list thread_state :=
    match nth_error sts t with
    | Some st => upd sts t (iteration t st)
    | None => sts
    end.
  Definition run_threads (num_threads : nat) (sched : list nat) : list thread_state :=
    fold_left tick sched (repeat (0, Ok []) num_threads).
  (** The build without OpenMP: thread 0 runs to its end, then thread 1, ... *)
  Definition in_order (num_threads : nat) : list nat := flat_map (fun t => repeat t k) (seq 0 num_threads).

  (** The buffers when all threads have finished. *)
  Fixpoint join (sts : list thread_state) : res (list (list E)) :=
    match sts with
    | [] => Ok []
    | (_, r) :: t => b <- r ;; bs <- join t ;; Ok (b :: bs)
    end.

  (** 2817: active_pool_size[t] += active_pool_size[t - 1]  for t = 1, 2, ... *)
  Definition prefix_sums (sizes : list nat) : res (list nat) :=
    for_res (length sizes - 1) 1 (fun t l => a <- get l t ;; b <- get l (t - 1) ;; set l t (a + b)) sizes.
  (** 2836-2847: thread [t] copies its buffer behind those of the threads before it. *)
  Definition copy_out (bufs : list (list E)) (ends : list nat) (t : nat) (cells : list (option E)) : res (list (option E)) :=
    n <- get ends t ;;
    prior <- (if Nat.ltb 0 t then get ends (t - 1) else Ok 0) ;;
    buf <- get bufs t ;;
    for_res (n - prior) 0 (fun iface cells => e <- get buf iface ;; set cells (prior + iface) (Some e)) cells.
  Fixpoint all_written (cells : list (option E)) : res (list E) :=
    match cells with
    | [] => Ok []
    | Some e :: t => l <- all_written t ;; Ok (e :: l)
    | None :: _ => UB
    end.
  (** 2820-2851: the new arrays have active_pool_size[num_threads - 1] cells. *)
  Definition gather (bufs : list (list E)) : res (list E) :=
    ends <- prefix_sums (map (@length E) bufs) ;;
    total <- get ends (length bufs - 1) ;;
    cells <- for_res (length bufs) 0 (copy_out bufs ends) (repeat None total) ;;
    all_written cells.
End Threads.

(** MeshingVoroCrustSampler.cpp:2757-2889 refine_active_pool.  [_num_threads] = 0 divides by
    zero (2770). *)
Definition refine_pool_faces {F} `{Num F} (points : list (list F)) (faces : list (list nat))
  (surface_spheres edge_spheres corner_spheres : stree F) (Lip ratio : F)
  (num_threads : nat) (sched : list nat) (p : pool F) : res (pool F) :=
  match num_threads with
  | O => UB
  | _ =>
    let k := (p_size p / num_threads + 1)%nat in
    bufs <- join (run_threads (process_face points faces surface_spheres edge_spheres corner_spheres Lip ratio p) k
                              num_threads sched) ;;
    l <- gather bufs ;;
    new_pool (p_level p) l
  end.
