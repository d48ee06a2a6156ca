(** Model of the kd-trees: MeshingSmartTree.cpp (points as an array of
    pointers) and the copy in MeshingVoronoiMesher.cpp (points as one flat
    array).  Both are the same algorithms over "coordinate d of point i", so the
    core below is written over an accessor [crd]; the two storage layouts are the
    instances [row_crd] and [flat_crd] of SmartTree.v. *)
From Verif Require Import Base Num MemoryHandler.

Definition links : Type := list nat * list nat.      (* _tree_left, _tree_right *)

Section Core.
  Context {F : Type}.
  Variable ltb : F -> F -> bool.
  Variable crd : nat -> nat -> res F.     (* _points[i][d] *)
  Variable nd : nat.                      (* _num_dim *)

  (** d_index++; if (d_index == _num_dim) d_index = 0; *)
  Definition next_dim (d : nat) : nat := if d + 1 =? nd then 0 else d + 1.

  (** MeshingSmartTree.cpp:2052-2094, MeshingVoronoiMesher.cpp:2840-2884
      kd_tree_add_point: the descent; result: new links and branch_height. *)
  Fixpoint kd_add (fuel : nat) (lk : links) (seed parent d h : nat) : res (links * nat) :=
    match fuel with
    | O => Fuel
    | S f =>
      let '(lf, rt) := lk in
      cs <- crd seed d ;;
      cp <- crd parent d ;;
      if ltb cp cs then
        r <- get rt parent ;;
        if r =? parent then rt' <- set rt parent seed ;; Ok ((lf, rt'), h + 1)
        else kd_add f lk seed r (next_dim d) (h + 1)
      else
        l <- get lf parent ;;
        if l =? parent then lf' <- set lf parent seed ;; Ok ((lf', rt), h + 1)
        else kd_add f lk seed l (next_dim d) (h + 1)
    end.

  (** _tree_max_height update at the end of kd_tree_add_point. *)
  Definition kd_add_point (n : nat) (lk : links) (org seed height : nat) : res (links * nat) :=
    '(lk1, h) <- kd_add (S n) lk seed org 0 1 ;;
    Ok (lk1, if height <? h then h else height).

  (** MeshingSmartTree.cpp:2016-2050, MeshingVoronoiMesher.cpp:2803-2838
      kd_tree_quicksort_adjust_target_position.  [right_first] is the order of the
      two (mutually exclusive) recursive calls, which differs in the two copies. *)
  Definition node_key (dim : nat) (a : list nat) (i : nat) : res F :=
    p <- get a i ;; crd p dim.

  Fixpoint adjust (right_first : bool) (fuel : nat) (a : list nat) (target left right dim : nat)
    : res (list nat) :=
    match fuel with
    | O => Fuel
    | S f =>
      pivot <- node_key dim a ((left + right) / 2) ;;
      '(a1, i, j) <- partition ltb (node_key dim) (@aswap nat) (right + 2) (right + 2) a pivot left right ;;
      let go_left := (0 <? j) && (left <? j) && (left <=? target) && (target <=? j) in
      let go_right := (i <? right) && (i <=? target) && (target <=? right) in
      if right_first then
        a2 <- (if go_right then adjust right_first f a1 target i right dim else Ok a1) ;;
        (if go_left then adjust right_first f a2 target left j dim else Ok a2)
      else
        a2 <- (if go_left then adjust right_first f a1 target left j dim else Ok a1) ;;
        (if go_right then adjust right_first f a2 target i right dim else Ok a2)
    end.

  (** State of the construction: links, origin ([None] is the sentinel
      _tree_origin == _capacity, SIZE_MAX in the mesher), height, node order. *)
  Record bstate := BS { b_lk : links; b_org : option nat; b_h : nat; b_arr : list nat }.

  Definition b_insert (n : nat) (pos : nat) (s : bstate) : res bstate :=
    p <- get (b_arr s) pos ;;
    match b_org s with
    | None => Ok (BS (b_lk s) (Some p) (b_h s) (b_arr s))
    | Some o => '(lk1, h1) <- kd_add_point n (b_lk s) o p (b_h s) ;;
                Ok (BS lk1 (Some o) h1 (b_arr s))
    end.
  (** The calls  kd_tree_add_point(tree_nodes_sorted[left])  never test the origin. *)
  Definition b_insert_nonroot (n : nat) (pos : nat) (s : bstate) : res bstate :=
    p <- get (b_arr s) pos ;;
    match b_org s with
    | None => UB
    | Some o => '(lk1, h1) <- kd_add_point n (b_lk s) o p (b_h s) ;;
                Ok (BS lk1 (Some o) h1 (b_arr s))
    end.

  (** MeshingSmartTree.cpp:1993-2014 (left first), MeshingVoronoiMesher.cpp:
      2765-2801 (right first): kd_tree_balance_quicksort. *)
  Fixpoint balance (right_first : bool) (n fuel : nat) (s : bstate) (target left right dim : nat)
    : res bstate :=
    match fuel with
    | O => Fuel
    | S f =>
      a1 <- adjust right_first (S (right - left)) (b_arr s) target left right dim ;;
      s1 <- b_insert n target (BS (b_lk s) (b_org s) (b_h s) a1) ;;
      let dim1 := next_dim dim in
      let do_left := fun s =>
        if left + 1 <? target
        then balance right_first n f s ((left + target - 1) / 2) left (target - 1) dim1
        else if left <? target then b_insert_nonroot n left s else Ok s in
      let do_right := fun s =>
        if target + 1 <? right
        then balance right_first n f s ((target + 1 + right) / 2) (target + 1) right dim1
        else if target <? right then b_insert_nonroot n right s else Ok s in
      if right_first then s2 <- do_right s1 ;; do_left s2
      else s2 <- do_left s1 ;; do_right s2
    end.

  (** MeshingSmartTree.cpp:595-629 kd_tree_build_balanced,
      MeshingVoronoiMesher.cpp:2638-2662 build_balanced_kd_tree.
      num_points - 1 wraps around for an empty tree. *)
  Definition build (right_first : bool) (n : nat) : res (links * nat * nat) :=
    if n =? 0 then UB else
    let ids := seq 0 n in
    s <- balance right_first n (S n) (BS (ids, ids) None 0 ids) (n / 2) 0 (n - 1) 0 ;;
    match b_org s with
    | None => UB
    | Some o => Ok (b_lk s, o, b_h s)
    end.

  (** MeshingSmartTree.cpp:204-211, MeshingVoronoiMesher.cpp:3062-3070
      kd_tree_get_nodes_order: preorder, right branch first. *)
  Fixpoint nodes_order (fuel : nat) (lk : links) (node : nat) (acc : list nat) : res (list nat) :=
    match fuel with
    | O => Fuel
    | S f =>
      let '(lf, rt) := lk in
      let acc1 := acc ++ [node] in
      r <- get rt node ;;
      acc2 <- (if r =? node then Ok acc1 else nodes_order f lk r acc1) ;;
      l <- get lf node ;;
      if l =? node then Ok acc2 else nodes_order f lk l acc2
    end.

  (** MeshingSmartTree.cpp:168-173, MeshingVoronoiMesher.cpp:2675-2679:
      point_new_index[ordered_indices[i]] = i. *)
  Definition new_index (n : nat) (ord : list nat) : res (list nat) :=
    for_res n 0 (fun i ni => c <- get ord i ;; set ni c i) (repeat 0 n).

  (** MeshingSmartTree.cpp:181-192 and MeshingVoronoiMesher.cpp:2686-2693: the
      relabelled link arrays. *)
  Fixpoint relabel (ni : list nat) (lk : list nat) (ord : list nat) : res (list nat) :=
    match ord with
    | [] => Ok []
    | c :: t => l <- get lk c ;; m <- get ni l ;; r <- relabel ni lk t ;; Ok (m :: r)
    end.
  Fixpoint gather {A} (xs : list A) (ord : list nat) : res (list A) :=
    match ord with
    | [] => Ok []
    | c :: t => x <- get xs c ;; r <- gather xs t ;; Ok (x :: r)
    end.

  (** MeshingSmartTree.cpp:161-202 / MeshingVoronoiMesher.cpp:2664-2703
      re_enumerate_points_for_better_memory_access: new links, new origin and the
      old index of every new position. *)
  Definition re_enumerate (n : nat) (lk : links) (org : nat) : res (links * nat * list nat) :=
    ord <- nodes_order (S n) lk org [] ;;
    ni <- new_index n ord ;;
    lf <- relabel ni (fst lk) (firstn n ord) ;;
    rt <- relabel ni (snd lk) (firstn n ord) ;;
    o <- get ni org ;;
    Ok ((lf, rt), o, ord).
End Core.
Arguments BS b_lk b_org b_h b_arr : rename.

Section Queries.
  Context {F : Type} `{Num F}.
  Variable crd : nat -> nat -> res F.
  Variable nd : nat.
  Variable lk : links.
  Local Open Scope num_scope.

  (** d_index == _num_dim wraps at the start of each call. *)
  Definition wrap (d : nat) : nat := if (d =? nd)%nat then 0%nat else d.

  (** for idim: dx = x[idim] - _points[node][idim]; dst_sq += dx * dx. *)
  Fixpoint dst_sq_from (x : list F) (node k n : nat) (s : F) : res F :=
    match n with
    | O => Ok s
    | S m => a <- get x k ;; b <- crd node k ;;
             let dx := a - b in dst_sq_from x node (S k) m (s + dx * dx)
    end.
  Definition dst_sq (x : list F) (node : nat) : res F := dst_sq_from x node 0 nd n0.

  (** The eligible point [node] is compared with the best one so far. *)
  Definition nn_visit (elig : nat -> res bool) (x : list F) (node : nat) (best : nat * F)
    : res (nat * F) :=
    e <- elig node ;;
    if (e : bool) then
      q <- dst_sq x node ;;
      if q <? snd best * snd best then Ok (node, nsqrt q) else Ok best
    else Ok best.

  (** kd_tree_get_closest_seed and its variants in MeshingSmartTree.cpp
      (2166-2237 other than a tree point, 2239-2307 any point, 2309-2379 index at
      most max_index, 2381-2985 not smooth with respect to given normals, 2987-3059
      not in a list): identical code around the test that says whether the node may
      be returned, here [elig]. *)
  Fixpoint nn (fuel : nat) (elig : nat -> res bool) (x : list F) (d node : nat) (best : nat * F)
    : res (nat * F) :=
    match fuel with
    | O => Fuel
    | S f =>
      let d := wrap d in
      best1 <- nn_visit elig x node best ;;
      r <- get (snd lk) node ;;
      l <- get (fst lk) node ;;
      xd <- get x d ;;
      p <- crd node d ;;
      let '(check_right, check_left) :=
        if snd best1 =? dbl_max then (negb (r =? node)%nat, negb (l =? node)%nat)
        else (negb (r =? node)%nat && (p <? xd + snd best1),
              negb (l =? node)%nat && (xd - snd best1 <? p)) in
      if check_right && check_left then
        if p <? xd then
          b2 <- nn f elig x (S d) r best1 ;;
          if xd - snd b2 <? p then nn f elig x (S d) l b2 else Ok b2
        else
          b2 <- nn f elig x (S d) l best1 ;;
          if p <? xd + snd b2 then nn f elig x (S d) r b2 else Ok b2
      else if check_right then nn f elig x (S d) r best1
      else if check_left then nn f elig x (S d) l best1
      else Ok best1
    end.

  (** MeshingVoronoiMesher.cpp:2886-2925, 2927-2968, 2970-3012
      kd_tree_get_closest_seed: distance instead of squared distance, no ordering of
      the two branches.  [elig] is the test on the direction and on the index. *)
  Definition nn2_visit (elig : nat -> res bool) (x : list F) (node : nat) (best : nat * F)
    : res (nat * F) :=
    q <- dst_sq x node ;;
    e <- elig node ;;
    let dst := nsqrt q in
    if (dst <? snd best) && e then Ok (node, dst) else Ok best.
  Fixpoint nn2 (fuel : nat) (elig : nat -> res bool) (x : list F) (d node : nat) (best : nat * F)
    : res (nat * F) :=
    match fuel with
    | O => Fuel
    | S f =>
      let d := wrap d in
      best1 <- nn2_visit elig x node best ;;
      r <- get (snd lk) node ;;
      l <- get (fst lk) node ;;
      xd <- get x d ;;
      p <- crd node d ;;
      best2 <- (if negb (r =? node)%nat && (p <? xd + snd best1)
                then nn2 f elig x (S d) r best1 else Ok best1) ;;
      if negb (l =? node)%nat && (xd - snd best2 <? p)
      then nn2 f elig x (S d) l best2 else Ok best2
    end.

  (** MeshingSmartTree.cpp:2096-2129 and 2131-2164, MeshingVoronoiMesher.cpp:
      3014-3060 kd_tree_get_seeds_in_sphere.  [accept] is the bound the squared
      distance must be below ((1+2e-6) r r, or r r + 1e-6 with an index limit); the
      growable result array is a list (see add_entries_correct in C02). *)
  Fixpoint in_sphere (fuel : nat) (elig : nat -> res bool) (accept : F) (x : list F) (r : F)
    (d node : nat) (acc : list nat) : res (list nat) :=
    match fuel with
    | O => Fuel
    | S f =>
      let d := wrap d in
      e <- elig node ;;
      acc1 <- (if (e : bool) then
                 q <- dst_sq x node ;;
                 Ok (if q <? accept then acc ++ [node] else acc)
               else Ok acc) ;;
      rt <- get (snd lk) node ;;
      lf <- get (fst lk) node ;;
      xd <- get x d ;;
      p <- crd node d ;;
      acc2 <- (if negb (rt =? node)%nat && (p <? xd + r)
               then in_sphere f elig accept x r (S d) rt acc1 else Ok acc1) ;;
      if negb (lf =? node)%nat && (xd - r <? p)
      then in_sphere f elig accept x r (S d) lf acc2 else Ok acc2
    end.

  (** MeshingSmartTree.cpp:2117  (1 + 2.0E-6) * r * r. *)
  Definition sphere_bound (r : F) : F := (n1 + nlit 2 6) * r * r.

  (** MeshingSmartTree.cpp:3062-3145 kd_tree_trim_spoke. *)
  Fixpoint spoke_dots (seed origin dir : list F) (node k n : nat) (s : F * F) : res (F * F) :=
    match n with
    | O => Ok s
    | S m =>
      q <- crd node k ;; c <- get seed k ;; o <- get origin k ;; e <- get dir k ;;
      let xmid := (n1 / n2) * (q + c) in
      let normal := q - c in
      spoke_dots seed origin dir node (S k) m
        (fst s + (xmid - o) * normal, snd s + e * normal)
    end.
  Definition spoke_visit (elig : nat -> res bool) (seed origin dir : list F) (node : nat)
    (best : nat * F) : res (nat * F) :=
    ok <- elig node ;;
    if (ok : bool) then
      '(dot_o, dot_e) <- spoke_dots seed origin dir node 0 nd (n0, n0) ;;
      let dot_o := if dot_o <? n0 then n0 else dot_o in
      if (nlit 1 8 <? nabs dot_e) && (n0 <? dot_e) then
        let t := dot_o / dot_e in
        if (- nlit 1 8 <? t) && (t <? snd best) then Ok (node, t) else Ok best
      else Ok best
    else Ok best.
  Fixpoint trim (fuel : nat) (elig : nat -> res bool) (seed origin dir : list F) (odst : F)
    (d node : nat) (best : nat * F) : res (nat * F) :=
    match fuel with
    | O => Fuel
    | S f =>
      let d := wrap d in
      best1 <- spoke_visit elig seed origin dir node best ;;
      r <- get (snd lk) node ;;
      l <- get (fst lk) node ;;
      od <- get origin d ;;
      p <- crd node d ;;
      let h := nabs (p - od) in
      let '(check_right, check_left) :=
        if h <? n2 * (snd best1 + odst) + nlit 1 8
        then (negb (r =? node)%nat, negb (l =? node)%nat)
        else (negb (r =? node)%nat && (p <? od), negb (l =? node)%nat && (od <? p)) in
      if check_right && check_left then
        if p <? od then
          b2 <- trim f elig seed origin dir odst (S d) r best1 ;;
          if h <? n2 * (snd b2 + odst) + nlit 1 10
          then trim f elig seed origin dir odst (S d) l b2 else Ok b2
        else
          b2 <- trim f elig seed origin dir odst (S d) l best1 ;;
          if h <? n2 * (snd b2 + odst) + nlit 1 10
          then trim f elig seed origin dir odst (S d) r b2 else Ok b2
      else if check_right then trim f elig seed origin dir odst (S d) r best1
      else if check_left then trim f elig seed origin dir odst (S d) l best1
      else Ok best1
    end.
End Queries.
