(** Model of the class MeshingSmartTree: the object around the kd-tree core of
    KdTree.v (storage, growth, bounding box, queries).

    Simplifications: the arrays of capacity _capacity are lists holding the
    _num_points cells in use, so reading an uninitialised cell is [UB]; a write at
    index _num_points is checked against the capacity.  A null array is [None].
    _marked_only is a predicate on the node (always true when it is off).
    num_nodes_visited (a statistic) is not modelled. *)
From Verif Require Import Base Num MemoryHandler KdTree.

Section SmartTree.
  Context {F : Type} `{Num F}.

  Record stree := ST {
    st_nd : nat;                              (* _num_dim *)
    st_cap : nat;                             (* _capacity *)
    st_pts : list (list F);                   (* _points *)
    st_nrm : option (list (list F));          (* _points_normal *)
    st_att : option (list (option (list nat)));   (* _points_attrib *)
    st_lk : links;                            (* _tree_left, _tree_right *)
    st_org : nat;                             (* _tree_origin *)
    st_h : nat;                               (* _tree_max_height *)
    st_min : list F;                          (* _xmin *)
    st_max : list F                           (* _xmax *)
  }.

  Definition st_n (s : stree) : nat := length (st_pts s).      (* _num_points *)

  (** _points[i][d]. *)
  Definition row_crd (pts : list (list F)) (i d : nat) : res F :=
    row <- get pts i ;; get row d.

  (** MeshingSmartTree.cpp:52-61, constructor with a number of dimensions. *)
  Definition st_new (nd : nat) : stree :=
    ST nd 0 [] None None ([], []) 0 0 (repeat dbl_max nd) (repeat (- dbl_max)%num nd).

  (** MeshingSmartTree.cpp:403-407  _xmin[idim] = fmin(_xmin[idim], x[idim]) and
      the same with fmax; also 73-81 (there with  < and > ), which is the same
      function of the coordinates. *)
  Fixpoint zip_box (f : F -> F -> F) (b x : list F) : res (list F) :=
    match b with
    | [] => Ok []
    | b0 :: bt => match x with
                  | [] => UB
                  | x0 :: xt => r <- zip_box f bt xt ;; Ok (f b0 x0 :: r)
                  end
    end.

  (** MeshingSmartTree.cpp:415-441, 449-463: attrib[0] entries are copied. *)
  Definition copy_attrib (a : option (list nat)) : res (option (list nat)) :=
    match a with
    | None => Ok None
    | Some l => m <- get l 0 ;;
                if m <=? length l then Ok (Some (firstn m l)) else UB
    end.
  (** The stored normal: zeros when none is given. *)
  Definition copy_normal (nd : nat) (v : option (list F)) : res (list F) :=
    match v with
    | None => Ok (repeat n0 nd)
    | Some l => if nd <=? length l then Ok (firstn nd l) else UB
    end.

  (** MeshingSmartTree.cpp:595-629 on the current points; the links are rebuilt. *)
  Definition st_build (s : stree) : res stree :=
    '(lk, o, h) <- build nltb (row_crd (st_pts s)) (st_nd s) false (st_n s) ;;
    Ok (ST (st_nd s) (st_cap s) (st_pts s) (st_nrm s) (st_att s) lk o h (st_min s) (st_max s)).

  (** MeshingSmartTree.cpp:63-85, constructor from an array of points. *)
  Definition st_of_points (nd : nat) (pts : list (list F)) : res stree :=
    mn <- (fix go b l := match l with [] => Ok b
             | p :: t => b1 <- zip_box nmin b p ;; go b1 t end) (repeat dbl_max nd) pts ;;
    mx <- (fix go b l := match l with [] => Ok b
             | p :: t => b1 <- zip_box nmax b p ;; go b1 t end) (repeat (- dbl_max)%num nd) pts ;;
    st_build (ST nd (length pts) pts None None ([], []) 0 0 mn mx).

  (** MeshingSmartTree.cpp:388-496 add_tree_point; [x] has num_dim entries.
      [need] is the test  _auto_balance && _tree_max_height > log2(1+_num_points)*10
      at the end, as a function of height and number of points. *)
  Definition add_point (need : nat -> nat -> bool) (s : stree) (x : list F)
    (normal : option (list F)) (attrib : option (list nat)) : res stree :=
    let nd := st_nd s in
    let n := st_n s in
    mn <- zip_box nmin (st_min s) x ;;
    mx <- zip_box nmax (st_max s) x ;;
    nv <- copy_normal nd normal ;;
    av <- copy_attrib attrib ;;
    if n =? 0 then
      Ok (ST nd 100 [x] (Some [nv]) (Some [av]) ([0], [0]) 0 1 mn mx)
    else
      match st_nrm s, st_att s with
      | Some nrm, Some att =>
        if n <? st_cap s then
          let pts := st_pts s ++ [x] in
          let '(lf, rt) := st_lk s in
          '(lk, h) <- kd_add_point nltb (row_crd pts) nd (S n) (lf ++ [n], rt ++ [n]) (st_org s) n (st_h s) ;;
          let cap := if S n =? st_cap s then st_cap s * 2 else st_cap s in
          let s1 := ST nd cap pts (Some (nrm ++ [nv])) (Some (att ++ [av])) lk (st_org s) h mn mx in
          if need h (S n) then st_build s1 else Ok s1
        else UB
      | _, _ => UB
      end.

  (** The rebuild test with _auto_balance: 2^height > (1+n)^10, exactly. *)
  Definition auto_balance (h n : nat) : bool :=
    (N.of_nat (1 + n) ^ 10 <? 2 ^ N.of_nat h)%N.

  (** MeshingSmartTree.cpp:161-202 re_enumerate_points_for_better_memory_access. *)
  Definition st_reenumerate (s : stree) : res stree :=
    match st_nrm s, st_att s with
    | Some nrm, Some att =>
      '(lk, o, ord) <- re_enumerate (st_n s) (st_lk s) (st_org s) ;;
      pts <- gather (st_pts s) (firstn (st_n s) ord) ;;
      nr <- gather nrm (firstn (st_n s) ord) ;;
      at' <- gather att (firstn (st_n s) ord) ;;
      Ok (ST (st_nd s) (st_cap s) pts (Some nr) (Some at') lk o (st_h s) (st_min s) (st_max s))
    | _, _ => UB
    end.

  (** Operations a user can apply to a tree, in any order. *)
  Inductive op :=
  | OpAdd (x : list F) (normal : option (list F)) (attrib : option (list nat))
  | OpBuild
  | OpReenumerate.
  Definition step (need : nat -> nat -> bool) (s : stree) (o : op) : res stree :=
    match o with
    | OpAdd x nv av => add_point need s x nv av
    | OpBuild => st_build s
    | OpReenumerate => st_reenumerate s
    end.
  Fixpoint run (need : nat -> nat -> bool) (s : stree) (l : list op) : res stree :=
    match l with
    | [] => Ok s
    | o :: t => s1 <- step need s o ;; run need s1 t
    end.

  (** MeshingSmartTree.cpp:642-651 get_closest_tree_point(x, ...): returns the
      closest point and distance given the initial distance; 1 when empty. *)
  Definition closest (s : stree) (marked : nat -> bool) (x : list F) (d0 : F) : res (nat * (nat * F)) :=
    if st_n s =? 0 then Ok (1, (0, d0))
    else b <- nn (row_crd (st_pts s)) (st_nd s) (st_lk s) (S (st_n s)) (fun i => Ok (marked i)) x 0
               (st_org s) (st_n s, d0) ;;
         Ok (0, b).
  (** MeshingSmartTree.cpp:631-640 get_closest_tree_point(index, ...): the query is
      a tree point, which is not its own neighbour. *)
  Definition closest_to (s : stree) (marked : nat -> bool) (q : nat) (d0 : F) : res (nat * F) :=
    x <- get (st_pts s) q ;;
    nn (row_crd (st_pts s)) (st_nd s) (st_lk s) (S (st_n s))
       (fun i => Ok (marked i && negb (q =? i))) x 0 (st_org s) (st_n s, d0).
  (** MeshingSmartTree.cpp:653-661 get_closest_tree_point(x, n, excluded, ...). *)
  Definition closest_except (s : stree) (marked : nat -> bool) (ex : list nat) (x : list F) (d0 : F) : res (nat * F) :=
    nn (row_crd (st_pts s)) (st_nd s) (st_lk s) (S (st_n s))
       (fun i => Ok (marked i && negb (existsb (Nat.eqb i) ex))) x 0 (st_org s) (st_n s, d0).
  (** MeshingSmartTree.cpp:697-705 get_tree_points_in_sphere. *)
  Definition points_in_sphere (s : stree) (marked : nat -> bool) (x : list F) (r : F) : res (list nat) :=
    in_sphere (row_crd (st_pts s)) (st_nd s) (st_lk s) (S (st_n s)) (fun i => Ok (marked i))
      (sphere_bound r) x r 0 (st_org s) [].
  (** MeshingSmartTree.cpp:2309-2379 and 2131-2164: the overloads that ignore points
      with an index above [m] (never called in the repository). *)
  Definition closest_upto (s : stree) (m : nat) (x : list F) (d0 : F) : res (nat * F) :=
    nn (row_crd (st_pts s)) (st_nd s) (st_lk s) (S (st_n s)) (fun i => Ok (i <=? m)) x 0 (st_org s) (st_n s, d0).
  Definition points_in_sphere_upto (s : stree) (m : nat) (x : list F) (r : F) : res (list nat) :=
    in_sphere (row_crd (st_pts s)) (st_nd s) (st_lk s) (S (st_n s)) (fun i => Ok (i <=? m))
      (r * r + nlit 1 6)%num x r 0 (st_org s) [].

  (** dot += dx * normal[idim]; dst += dx * dx  (2506-2513 and the like). *)
  Fixpoint dir_sums (s : stree) (v x : list F) (node k m : nat) (a : F * F) : res (F * F) :=
    match m with
    | O => Ok a
    | S m' => xd <- get x k ;; p <- row_crd (st_pts s) node k ;; nv <- get v k ;;
              let dx := (xd - p)%num in
              dir_sums s v x node (S k) m' (fst a + dx * nv, snd a + dx * dx)%num
    end.
  Definition sums_to (s : stree) (v x : list F) (node : nat) : res (F * F) :=
    dir_sums s v x node 0 (st_nd s) (n0, n0).
  Definition normal_of (s : stree) (node : nat) : res (list F) :=
    match st_nrm s with None => UB | Some nrm => get nrm node end.
  Definition sin_of (dot dst : F) : F := let c := (dot / dst)%num in nsqrt (n1 - c * c)%num.

  (** MeshingSmartTree.cpp:2505-2521: not smooth seen from x, outside a tolerance. *)
  Definition nonsmooth (s : stree) (x : list F) (tol thr : F) (node : nat) : res bool :=
    v <- normal_of s node ;;
    '(dot, q) <- sums_to s v x node ;;
    let dst := nsqrt q in
    let d := if nltb tol dst then sin_of dot dst else n1 in
    Ok (negb (nltb thr d)).
  (** MeshingSmartTree.cpp:2600-2619: with a normal at x. *)
  Definition nonsmooth_normal (s : stree) (x xn : list F) (thr : F) (node : nat) : res bool :=
    v <- normal_of s node ;;
    '(dp, q) <- sums_to s v x node ;;
    '(dx, _) <- sums_to s xn x node ;;
    let dst := nsqrt q in
    Ok (negb (if nltb (nlit 1 10) dst
              then nltb thr (sin_of dp dst) && nltb thr (sin_of dx dst) else true)).
  (** MeshingSmartTree.cpp:2697-2725: with several normals at x; the tolerance is
      compared with the squared distance. *)
  Fixpoint vdot (a b : list F) (k m : nat) (s : F) : res F :=
    match m with
    | O => Ok s
    | S m' => x <- get a k ;; y <- get b k ;; vdot a b (S k) m' (s + x * y)%num
    end.
  Fixpoint some_aligned (nd : nat) (thr : F) (v : list F) (ns : list (list F)) : res bool :=
    match ns with
    | [] => Ok false
    | u :: t => d <- vdot u v 0 nd n0 ;; if nltb thr (nabs d) then Ok true else some_aligned nd thr v t
    end.
  Definition nonsmooth_normals (s : stree) (x : list F) (ns : list (list F)) (thr : F) (node : nat) : res bool :=
    v <- normal_of s node ;;
    '(dot, q) <- sums_to s v x node ;;
    let d := if nltb (nlit 1 10) q then sin_of dot (nsqrt q) else n1 in
    if nltb thr d then b <- some_aligned (st_nd s) thr v ns ;; Ok (negb b) else Ok true.
  (** MeshingSmartTree.cpp:2803-2819: along an edge the stored vector is a tangent. *)
  Definition nonsmooth_edge (s : stree) (x : list F) (tol thr : F) (node : nat) : res bool :=
    v <- normal_of s node ;;
    '(dot, q) <- sums_to s v x node ;;
    let dst := nsqrt q in
    let d := if nltb tol dst then nabs (dot / dst)%num else n1 in
    Ok (negb (nltb thr d)).
  (** MeshingSmartTree.cpp:665-696: the four searches. *)
  Definition closest_filtered (s : stree) (elig : nat -> res bool) (x : list F) (d0 : F) : res (nat * F) :=
    nn (row_crd (st_pts s)) (st_nd s) (st_lk s) (S (st_n s)) elig x 0 (st_org s) (st_n s, d0).
  Definition closest_nonsmooth s x tol thr := closest_filtered s (nonsmooth s x tol thr) x.
  Definition closest_nonsmooth_normal s x xn thr := closest_filtered s (nonsmooth_normal s x xn thr) x.
  Definition closest_nonsmooth_normals s x ns thr := closest_filtered s (nonsmooth_normals s x ns thr) x.
  Definition closest_nonsmooth_edge s x tol thr := closest_filtered s (nonsmooth_edge s x tol thr) x.

  (** MeshingSmartTree.cpp:1031-1092 trim_spoke: the search, and a second one from
      DBL_MAX when the end point turns out to be closer to a seed that is not
      involved. *)
  Definition trim_search (s : stree) (marked : nat -> bool) (involved : list nat) (c o dir : list F)
    (odst : F) (best : nat * F) : res (nat * F) :=
    trim (row_crd (st_pts s)) (st_nd s) (st_lk s) (S (st_n s))
      (fun i => Ok (marked i && negb (existsb (Nat.eqb i) involved))) c o dir odst 0 (st_org s) best.
  Fixpoint spoke_end (o dir : list F) (len : F) (k m : nat) : res (list F) :=
    match m with
    | O => Ok []
    | S m' => a <- get o k ;; e <- get dir k ;; r <- spoke_end o dir len (S k) m' ;; Ok (a + len * e :: r)%num
    end.
  Definition trim_spoke (s : stree) (marked : nat -> bool) (involved : list nat)
    (c o dir : list F) (len : F) (nb : nat) : res (nat * F) :=
    q <- dst_sq (fun _ d => get c d) (st_nd s) o 0 ;;
    b <- trim_search s marked involved c o dir (nsqrt q) (nb, len) ;;
    match involved with
    | [] => Ok b
    | _ =>
      xend <- spoke_end o dir (snd b) 0 (st_nd s) ;;
      q2 <- dst_sq (fun _ d => get c d) (st_nd s) xend 0 ;;
      '(_, (ic, hc)) <- closest s marked xend dbl_max ;;
      if negb (existsb (Nat.eqb ic) involved) && nltb hc (nsqrt q2 - nlit 1 6)%num
      then trim_search s marked involved c o dir (nsqrt q) (fst b, dbl_max)
      else Ok b
    end.

  (** MeshingSmartTree.cpp:498-501 get_tree_point. *)
  Definition get_point (s : stree) (i : nat) : res (list F) :=
    row <- get (st_pts s) i ;;
    if st_nd s <=? length row then Ok (firstn (st_nd s) row) else UB.
  (** MeshingSmartTree.cpp:510-516 get_tree_point_attrib: None is "return false". *)
  Definition get_attrib (s : stree) (i k : nat) : res (option nat) :=
    match st_att s with
    | None => UB
    | Some att =>
      b <- get att i ;;
      match b with
      | None => Ok None
      | Some blk => m <- get blk 0 ;;
                    if m <=? k then Ok None else v <- get blk (1 + k) ;; Ok (Some v)
      end
    end.
  (** MeshingSmartTree.cpp:523-527 set_tree_point_attrib. *)
  Definition set_attrib (s : stree) (i k v : nat) : res stree :=
    match st_att s with
    | None => UB
    | Some att =>
      b <- get att i ;;
      match b with
      | None => UB
      | Some blk => blk' <- set blk (1 + k) v ;; att' <- set att i (Some blk') ;;
                    Ok (ST (st_nd s) (st_cap s) (st_pts s) (st_nrm s) (Some att') (st_lk s) (st_org s)
                          (st_h s) (st_min s) (st_max s))
      end
    end.
End SmartTree.
Arguments stree F : clear implicits.
Arguments op F : clear implicits.

(** Points of the mesher: one flat array, points[i * num_dim + d]
    (MeshingVoronoiMesher.cpp:2638-3070). *)
Section Flat.
  Context {F : Type} `{Num F}.
  Variables (nd : nat) (pts : list F).
  Definition flat_crd (i d : nat) : res F := get pts (i * nd + d).

  (** MeshingVoronoiMesher.cpp:2638-2662 build_balanced_kd_tree. *)
  Definition flat_build (n : nat) : res (links * nat * nat) := build nltb flat_crd nd true n.

  (** MeshingVoronoiMesher.cpp:2664-2703: points_sorted gets the first three
      coordinates of each point (num_dim is 3 in every call). *)
  Definition flat_reenumerate (n : nat) (lk : links) (org : nat) : res (links * nat * list nat * list F) :=
    '(lk', o, ord) <- re_enumerate n lk org ;;
    sorted <- (fix go l := match l with
               | [] => Ok []
               | c :: t => a <- flat_crd c 0 ;; b <- flat_crd c 1 ;; d <- flat_crd c 2 ;;
                           r <- go t ;; Ok (a :: b :: d :: r)
               end) (firstn n ord) ;;
    Ok (lk', o, ord, sorted).

  (** sum of e_dir[d] (points[node][d] - x[d]) >= 0; a null direction gives 0
      (MeshingVoronoiMesher.cpp:2937-2947, 2980-2990). *)
  Fixpoint dir_dot (x dir : list F) (node k m : nat) (s : F) : res F :=
    match m with
    | O => Ok s
    | S m' => a <- get x k ;; b <- flat_crd node k ;; e <- get dir k ;;
              dir_dot x dir node (S k) m' (s + (b - a) * e)%num
    end.
  Definition ahead (x : list F) (dir : option (list F)) (node : nat) : res bool :=
    match dir with
    | None => Ok (nleb n0 n0)
    | Some dv => s <- dir_dot x dv node 0 nd n0 ;; Ok (nleb n0 s)
    end.

  (** MeshingVoronoiMesher.cpp:2706-2748: the three get_closest_tree_point. *)
  Definition flat_closest (n : nat) (lk : links) (org : nat) (x : list F) (d0 : F) : res (nat * (nat * F)) :=
    if n =? 0 then Ok (1, (n, d0))
    else b <- nn2 flat_crd nd lk (S n) (fun _ => Ok true) x 0 org (n, d0) ;; Ok (0, b).
  Definition flat_closest_dir (n : nat) (lk : links) (org : nat) (x : list F) (dir : option (list F)) (d0 : F)
    : res (nat * (nat * F)) :=
    if n =? 0 then Ok (1, (n, d0))
    else b <- nn2 flat_crd nd lk (S n) (ahead x dir) x 0 org (n, d0) ;; Ok (0, b).
  Definition flat_closest_to (n : nat) (lk : links) (org : nat) (q : nat) (dir : option (list F)) (d0 : F)
    : res (nat * (nat * F)) :=
    if n =? 0 then Ok (1, (n, d0))
    else
      x <- (fix go k m := match m with O => Ok [] | S m' => a <- flat_crd q k ;; r <- go (S k) m' ;; Ok (a :: r) end) 0 nd ;;
      b <- nn2 flat_crd nd lk (S n) (fun i => a <- ahead x dir i ;; Ok (a && negb (q =? i))) x 0 org (n, d0) ;;
      Ok (0, b).
  (** MeshingVoronoiMesher.cpp:2751-2766 get_tree_points_in_sphere. *)
  Definition flat_in_sphere (n : nat) (lk : links) (org : nat) (x : list F) (r : F) : res (list nat) :=
    in_sphere flat_crd nd lk (S n) (fun _ => Ok true) (sphere_bound r) x r 0 org [].
End Flat.
