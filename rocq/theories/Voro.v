(** Model of the construction of one cell of the volume mesh and of the loop over all cells:
    src/Meshing/MeshingVoronoiMesher.cpp, get_3d_Voronoi_cell (1951-2107),
    construct_initial_polytope (2109-2157), trim_vertex (2162-2291) and the first part of
    generate_3d_voronoi_mesh (1620-1671).
    Simplifications: the arrays corners, corners_neighbors and corners_seeds are one list of
    records, and corners_cap, which is doubled as soon as it is reached, is left out; SIZE_MAX
    as a neighbour is None; the seeds SIZE_MAX - k of the initial box are [Box k]. *)
From Verif Require Import Base Num KdTree SmartTree DenseQR Geometry Spheres PolyMesh Regions Interior.

Inductive cseed := Local (i : nat) | Box (k : nat).

Section Voro.
  Context {F : Type} `{Num F}.
  Local Open Scope num_scope.

  (** Corner: coordinates, three neighbours, three seeds. *)
  Record corner := Cn { c_pt : list F; c_nb : list (option nat); c_sd : list cseed }.
  (** 2264-2270. *)
  Definition deleted : corner := Cn [dbl_max; dbl_max; dbl_max] [None; None; None] [Box 0; Box 0; Box 0].
  (** 1987, 2030, 2048, 2063. *)
  Definition is_deleted (c : corner) : bool := gv (c_pt c) 0%nat =? dbl_max.

  (** 2119-2135: the corner of the box with the given signs. *)
  Definition box_pt (x : list F) (r : F) (s : bool * bool * bool) : list F :=
    let '(a, b, c) := s in
    let off (up : bool) v := if up then v + r else v - r in
    [off a (gv x 0%nat); off b (gv x 1%nat); off c (gv x 2%nat)].
  Definition box_corner (x : list F) (r : F) (s : bool * bool * bool) (nb sd : nat * nat * nat) : corner :=
    let '(n0, n1, n2) := nb in let '(s0, s1, s2) := sd in
    Cn (box_pt x r s) [Some n0; Some n1; Some n2] [Box s0; Box s1; Box s2].
  (** 2109-2157 construct_initial_polytope. *)
  Definition initial_polytope (x : list F) (r : F) : list corner :=
    [box_corner x r (true, false, true) (1, 2, 4)%nat (0, 4, 3)%nat;
     box_corner x r (true, false, false) (5, 3, 0)%nat (5, 0, 3)%nat;
     box_corner x r (true, true, true) (6, 0, 3)%nat (4, 0, 1)%nat;
     box_corner x r (true, true, false) (2, 1, 7)%nat (0, 5, 1)%nat;
     box_corner x r (false, false, true) (0, 6, 5)%nat (4, 2, 3)%nat;
     box_corner x r (false, false, false) (4, 7, 1)%nat (2, 5, 3)%nat;
     box_corner x r (false, true, true) (7, 4, 2)%nat (2, 4, 1)%nat;
     box_corner x r (false, true, false) (3, 5, 6)%nat (5, 2, 1)%nat].

  (** 2200-2201 and 2212-2213: the signed distance of p to the plane. *)
  Definition plane_dist (xo n p : list F) : F := range_sum 0 3 (fun d => gv n d * (gv p d - gv xo d)).
  (** Next and previous place among three (2224-2226, 2281-2282). *)
  Definition next3 (i : nat) : nat := if (i =? 2)%nat then 0%nat else S i.
  Definition prev3 (i : nat) : nat := if (i =? 0)%nat then 2%nat else (i - 1)%nat.
  Definition set_nb (c : corner) (i : nat) (o : option nat) : corner := Cn (c_pt c) (upd (c_nb c) i o) (c_sd c).
  Definition is_none {A} (o : option A) : bool := match o with None => true | _ => false end.
  Definition is_nb (k : nat) (o : option nat) : bool := match o with Some j => (j =? k)%nat | None => false end.
  (** Position of the first element that satisfies f. *)
  Fixpoint position {A} (f : A -> bool) (l : list A) : option nat :=
    match l with [] => None | a :: t => if f a then Some 0%nat else option_map S (position f t) end.
  (** 2168-2180: where the loop over the neighbours starts. *)
  Definition first_place (c : corner) (ci old : nat) : nat :=
    if (old =? ci)%nat then 0%nat else match position (is_nb old) (c_nb c) with Some i => next3 i | None => 0%nat end.
  (** 2214-2230: the corner on the edge from c (number ci, place i) to b (number ib). *)
  Definition cut_corner (seed : nat) (xi xj : F) (c b : corner) (i ib : nat) : corner :=
    let lam := xi / (xi - xj) in
    let lam := if lam <? n0 then n0 else lam in
    let lam := if n1 <? lam then n1 else lam in
    let pt := map (fun d => gv (c_pt c) d + lam * (gv (c_pt b) d - gv (c_pt c) d)) (seq 0 3) in
    let sd := upd (c_sd c) (next3 i) (Local seed) in
    Cn pt (upd [None; None; None] i (Some ib)) sd.
  (** 2238-2245: the corner b now ends at number k instead of ci. *)
  Definition redirect (b : corner) (ci k : nat) : corner :=
    match position (is_nb ci) (c_nb b) with Some j => set_nb b j (Some k) | None => b end.
  (** 2274-2287: new corner number i, of those from lo to hi - 1, in the ring. *)
  Definition close_one (lo hi i : nat) (p : list corner) : res (list corner) :=
    c <- get p i ;;
    let im := if (lo <? i)%nat then (i - 1)%nat else (hi - 1)%nat in
    let ip := if (S i =? hi)%nat then lo else S i in
    match position (fun o => negb (is_none o)) (c_nb c) with
    | None => Ok p
    | Some j => set p i (set_nb (set_nb c (next3 j) (Some ip)) (prev3 j) (Some im))
    end.

  (** 2162-2291 trim_vertex (the ring is closed by [trim]). *)
  Fixpoint trim_rec (fuel : nat) (seed : nat) (xo n : list F) (ci old : nat) (p : list corner) : res (list corner) :=
    match fuel with
    | O => Fuel
    | S f =>
      c <- get p ci ;;
      let io := first_place c ci old in
      p <- fold_res (fun ii p =>
             let i := if (3 <=? io + ii)%nat then (io + ii - 3)%nat else (io + ii)%nat in
             c <- get p ci ;;
             o <- get (c_nb c) i ;;
             match o with
             | None => Ok p
             | Some ib =>
               b <- get p ib ;;
               if existsb is_none (c_nb b) then Ok p
               else
                 let xj := plane_dist xo n (c_pt b) in
                 p <- set p ci (set_nb c i None) ;;
                 if nlit 1 10 <? xj then trim_rec f seed xo n ib ci p
                 else
                   let xi := plane_dist xo n (c_pt c) in
                   let k := length p in
                   p <- set p ib (redirect b ci k) ;;
                   Ok (p ++ [cut_corner seed xi xj c b i ib])
             end) [0; 1; 2]%nat p ;;
      set p ci deleted
    end.
  (** 2272-2288. *)
  Definition trim (fuel seed : nat) (xo n : list F) (ci : nat) (p : list corner) : res (list corner) :=
    let lo := length p in
    p <- trim_rec fuel seed xo n ci ci p ;;
    fold_res (close_one lo (length p)) (seq lo (length p - lo)) p.

  (** 1989-2007: the seed whose bisector the ray from x to v meets first, with the
      (smallest) lambda; [pts] are the local seeds. *)
  Definition first_cut (x v : list F) (pts : list (list F)) : F * nat :=
    fold_left (fun st '(ip, y) =>
      let xy := range_sum 0 3 (fun d => (gv y d - gv x d) * (gv y d - gv x d)) in
      let xv := range_sum 0 3 (fun d => (gv y d - gv x d) * (gv v d - gv x d)) in
      if xv <? nlit 1 10 then st
      else if xy / xv <? fst st then (xy / xv, ip) else st) (numbered pts) (dbl_max, length pts).
  (** 2010-2022: midpoint, unit normal. *)
  Definition bisector (x y : list F) : list F * list F :=
    let norm := nsqrt (range_sum 0 3 (fun d => (gv y d - gv x d) * (gv y d - gv x d))) in
    (map (fun d => nlit 5 1 * (gv y d + gv x d)) (seq 0 3), map (fun d => (gv y d - gv x d) / norm) (seq 0 3)).
  (** 1986-2024: corner number i. *)
  Definition clip_corner (fuel : nat) (x : list F) (pts : list (list F)) (i : nat) (p : list corner) : res (list corner) :=
    c <- get p i ;;
    if is_deleted c then Ok p
    else
      let '(lam, k) := first_cut x (c_pt c) pts in
      if n2 <? lam then Ok p
      else
        y <- get pts k ;;
        let '(xo, n) := bisector x y in
        if plane_dist xo n (c_pt c) <=? nlit 1 10 then Ok p
        else trim fuel k xo n i p.
  (** 1984-2025: the list grows while the loop runs. *)
  Fixpoint clip (fuel : nat) (x : list F) (pts : list (list F)) (i : nat) (p : list corner) : res (list corner) :=
    match fuel with
    | O => Fuel
    | S f => if (i <? length p)%nat then p <- clip_corner f x pts i p ;; clip f x pts (S i) p else Ok p
    end.
  (** 2027-2040. *)
  Definition sq_dist (x v : list F) : F := range_sum 0 3 (fun d => (gv v d - gv x d) * (gv v d - gv x d)).
  Definition farthest (x : list F) (p : list corner) : F :=
    nsqrt (fold_left (fun m c => if is_deleted c then m else if m <? sq_dist x (c_pt c) then sq_dist x (c_pt c) else m) p n0).

  (** 2068-2086: the smallest number of a non-ghost local seed as far from v as x; [local]
      are the numbers of the local seeds. *)
  Definition owner (x v : list F) (ghost : list bool) (local : list (nat * list F)) : res (option nat) :=
    fold_res (fun '(j, y) (o : option nat) =>
      g <- get ghost j ;;
      if (g : bool) then Ok o
      else
        let rv := nsqrt (sq_dist x v) in let sv := nsqrt (sq_dist y v) in
        if (nabs (rv - sv) <? nlit 1 10) && match o with None => true | Some k => (j <? k)%nat end then Ok (Some j) else Ok o)
      local None.
  (** A corner of the finished cell: coordinates, neighbours, seeds, seed it belongs to. *)
  Record vertex := Vx { v_pt : list F; v_nb : list nat; v_sd : list nat; v_own : option nat }.
  (** 2044-2052: new numbers; those of deleted corners are never set. *)
  Definition new_numbers (p : list corner) : list (option nat) :=
    rev (snd (fold_left (fun '(k, l) c => if is_deleted c then (k, None :: l) else (S k, Some k :: l)) p (0%nat, []))).
  Definition known (o : option nat) : res nat := match o with Some k => Ok k | None => UB end.
  (** 2044-2098. *)
  Definition finish (x : list F) (ghost : list bool) (local : list nat) (pts : list (list F)) (p : list corner) : res (list vertex) :=
    let nums := new_numbers p in
    mapr (fun c =>
      nb <- mapr (fun o => j <- known o ;; o' <- get nums j ;; known o') (c_nb c) ;;
      sd <- mapr (fun s => match s with Local i => get local i | Box _ => UB end) (c_sd c) ;;
      ow <- owner x (c_pt c) ghost (combine local pts) ;;
      Ok (Vx (c_pt c) nb sd ow)) (filter (fun c => negb (is_deleted c)) p).
  (** 1951-2107 get_3d_Voronoi_cell. *)
  Fixpoint voronoi_cell (fuel cfuel : nat) (n : nat) (sorted : list F) (lk : links) (root : nat) (ghost : list bool)
    (iseed : nat) (r : F) : res (list vertex) :=
    match fuel with
    | O => Fuel
    | S f =>
      let x := sorted_row sorted iseed in
      let r := r * n2 in
      local <- flat_in_sphere 3 sorted n lk root x r ;;
      if (length local =? 0)%nat then voronoi_cell f cfuel n sorted lk root ghost iseed r
      else
        let pts := map (sorted_row sorted) local in
        p <- clip cfuel x pts 0 (initial_polytope x (nofZ 10 * r)) ;;
        if n2 * farthest x p <? r + nlit 1 10 then finish x ghost local pts p
        else voronoi_cell f cfuel n sorted lk root ghost iseed r
    end.
  (** 1620-1671: the cells of all seeds, in the order of the seeds; None for a ghost. *)
  Definition voronoi_cells (fuel cfuel : nat) (seeds : list (list F)) (regs : list nat) (sizing : list F)
    : res (list (option (list vertex))) :=
    '(lk, root, old, sorted) <- index_tree seeds ;;
    ghost <- mapr (fun k => r <- get regs k ;; Ok (r =? 0)%nat) old ;;
    fold_res (fun i cells =>
      k <- get old i ;; g <- get ghost i ;;
      if (g : bool) then Ok cells
      else
        s <- get sizing k ;;
        vs <- voronoi_cell fuel cfuel (length seeds) sorted lk root ghost i (n2 * s) ;;
        vs <- mapr (fun v => sd <- mapr (get old) (v_sd v) ;; o <- known (v_own v) ;; o' <- get old o ;;
                             Ok (Vx (v_pt v) (v_nb v) sd (Some o'))) vs ;;
        set cells k (Some vs)) (seq 0 (length seeds)) (repeat None (length seeds)).
End Voro.
Arguments corner F : clear implicits.
Arguments vertex F : clear implicits.
