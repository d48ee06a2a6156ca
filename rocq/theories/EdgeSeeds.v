(** Model of src/Meshing/MeshingVoronoiMesher.cpp:55-448,
    ensure_sharp_edge_spheres_are_Delaunay: for every edge sphere and its two neighbours
    along the sharp edge, a seed is put on the circle in which the two spheres meet, unless
    enough seeds are near it.

    Spheres are rows [x; y; z; r] as in Interior.v.  The answers of
    sample_uniformly_from_unit_sphere are two streams of directions, one for the calls with
    three coordinates (243) and one for the calls with two (281); Sampling.v models the
    sampler itself.  Printing and the growth of the added_seeds arrays (370-384) are left
    out; the arrays are lists. *)
From Verif Require Import Base Num KdTree SmartTree DenseQR Geometry Spheres PolyMesh Regions Interior.

Section EdgeSeeds.
  Context {F : Type} `{Num F}.
  Local Open Scope num_scope.

  (** edge_spheres_new_index[isphere] (2664-2684): the position of [i] in old_index. *)
  Fixpoint new_index (old : list nat) (i : nat) : nat :=
    match old with [] => 0%nat | j :: t => if (j =? i)%nat then 0%nat else S (new_index t i) end.

  (** 203-231: the neighbour of edge sphere number [i] (the row [so]) on the side [dir], and
      its distance.  A search without answer leaves iclosest at the number of points, which
      the test against SIZE_MAX at 211 does not see: the read of old_index is then out of
      its bounds. *)
  Definition edge_neighbour (ef cf : family) (i : nat) (so : list F) (dir : option (list F)) : res (list F * F) :=
    match snd ef with
    | None => UB
    | Some (lk, root, old, sorted) =>
      '(_, (ic, h)) <- flat_closest_to 3 sorted (length (fst ef)) lk root (new_index old i) dir dbl_max ;;
      j <- get old ic ;;
      sj <- get (fst ef) j ;;
      if h <? gv so 3%nat + gv sj 3%nat then Ok (sj, h)
      else
        match snd cf with
        | None => UB
        | Some (lk', root', old', sorted') =>
          '(_, (jc, h')) <- flat_closest_dir 3 sorted' (length (fst cf)) lk' root' so dir dbl_max ;;
          j' <- get old' jc ;;
          sj' <- get (fst cf) j' ;;
          Ok (sj', h')
        end
    end.

  Definition dotp (a b : list F) : F := range_sum 0 3 (fun d => gv a d * gv b d).
  Definition row3 (f : nat -> F) : list F := map f (seq 0 3).
  (** 233-239: the unit vector from the neighbour to the sphere.  Two spheres with one centre
      make every coordinate of it not a number, and then every later search fails. *)
  Definition axis_of (so sn : list F) : res (list F) :=
    let v := row3 (fun d => gv so d - gv sn d) in
    let norm := nsqrt (dotp v v) in
    if norm =? n0 then UB else Ok (row3 (fun d => gv v d / norm)).
  (** 241-257: directions are drawn until one is not parallel to the axis; the second answer
      is the number of draws so far. *)
  Fixpoint tangent (fuel : nat) (eo : list F) (dir3 : nat -> list F) (k : nat) : res (list F * nat) :=
    match fuel with
    | O => Fuel
    | S f =>
      let e := dir3 k in
      let dot := dotp e eo in
      let e1 := row3 (fun d => gv e d - dot * gv eo d) in
      let norm := nsqrt (dotp e1 e1) in
      if norm <? nlit 1 3 then tangent f eo dir3 (S k)
      else Ok (row3 (fun d => gv e1 d / norm), S k)
    end.
  (** 259-261. *)
  Definition cross3 (a b : list F) : list F :=
    [gv a 1%nat * gv b 2%nat - gv a 2%nat * gv b 1%nat;
     gv a 2%nat * gv b 0%nat - gv a 0%nat * gv b 2%nat;
     gv a 0%nat * gv b 1%nat - gv a 1%nat * gv b 0%nat].
  (** 263-268: centre and radius of the circle.  The radius of spheres that do not meet is
      not a number, and then every search of the ten trials fails. *)
  Definition circle_of (so sn : list F) (dst : F) : res (list F) :=
    let ro := gv so 3%nat in
    let rn := gv sn 3%nat in
    let h := (ro * ro - rn * rn + dst * dst) / (n2 * dst) in
    let q := ro * ro - h * h in
    if q <? n0 then UB
    else Ok (row3 (fun d => gv so d + (h / dst) * (gv sn d - gv so d)) ++ [nsqrt q]).

  (** 282: the point of the circle in direction [y]. *)
  Definition circle_point (pv e1 e2 y : list F) : list F :=
    row3 (fun d => gv pv d + gv pv 3%nat * (gv y 0%nat * gv e1 d + gv y 1%nat * gv e2 d)).
  (** 279-350: one of the ten trials; [best] is (h_best, x_best, id_best). *)
  Definition trial (Lip : F) (n : nat) (t : ptree) (regs : list nat) (sf : family) (pv x : list F)
    (best : F * (list F * nat)) : res (F * (list F * nat)) :=
    ok <- outside_family Lip sf x ;;
    if negb ok then Ok best
    else
      '(c, h) <- tree_closest n t x ;;
      r <- get regs c ;;
      if (r =? 0)%nat then Ok best
      else if fst best <? h then Ok (h, (x ++ [gv pv 3%nat], r)) else Ok best.

  (** 201-385: one side of one edge sphere; the answer is the seed added, if any, the axis and
      the numbers of directions drawn. *)
  Definition side (fuel : nat) (Lip : F) (n : nat) (t : ptree) (regs : list nat) (sf ef cf : family)
    (dir3 dir2 : nat -> list F) (i : nat) (so : list F) (dir : option (list F)) (k3 k2 : nat)
    : res (list (list F * nat) * list F * nat * nat) :=
    '(sn, dst) <- edge_neighbour ef cf i so dir ;;
    eo <- axis_of so sn ;;
    '(e1, k3) <- tangent fuel eo dir3 k3 ;;
    let e2 := cross3 eo e1 in
    pv <- circle_of so sn dst ;;
    l <- tree_in_sphere n t pv (gv pv 3%nat) ;;
    if (2 <? length l)%nat then Ok ([], eo, k3, k2)
    else
      best <- for_res 10 0 (fun m best => trial Lip n t regs sf pv (circle_point pv e1 e2 (dir2 (k2 + m)%nat)) best)
                (n0, ([], 0%nat)) ;;
      if fst best <? nlit 1 10 then Ok ([], eo, k3, (k2 + 10)%nat)
      else Ok ([snd best], eo, k3, (k2 + 10)%nat).

  (** 194-386: both sides of edge sphere number [i]; the second search goes away from the
      first neighbour. *)
  Definition edge_sphere (fuel : nat) (Lip : F) (n : nat) (t : ptree) (regs : list nat) (sf ef cf : family)
    (dir3 dir2 : nat -> list F) (i : nat) (st : list (list F * nat) * nat * nat)
    : res (list (list F * nat) * nat * nat) :=
    let '(added, k3, k2) := st in
    so <- get (fst ef) i ;;
    '(a, eo, k3, k2) <- side fuel Lip n t regs sf ef cf dir3 dir2 i so None k3 k2 ;;
    '(b, _, k3, k2) <- side fuel Lip n t regs sf ef cf dir3 dir2 i so (Some eo) k3 k2 ;;
    Ok (added ++ a ++ b, k3, k2).

  (** 55-448.  [lfuel] is the fuel of the smoothing of the seed sizes (77-86). *)
  Definition ensure_edge_seeds (fuel lfuel : nat) (Lip : F) (seeds : list (list F)) (regs : list nat)
    (surf edge corner sizing : list (list F)) (dir3 dir2 : nat -> list F) : res (list (list F) * list nat) :=
    t <- index_tree seeds ;;
    seeds <- lip_seeds lfuel Lip t seeds ;;
    sf <- make_family surf ;; ef <- make_family edge ;;
    cf <- undersized_family surf corner ;; _ <- undersized_family surf sizing ;;
    '(added, _, _) <- for_res (length edge) 0
                        (edge_sphere fuel Lip (length seeds) t regs sf ef cf dir3 dir2) ([], 0%nat, 0%nat) ;;
    Ok (seeds ++ map fst added, regs ++ map snd added).
End EdgeSeeds.
