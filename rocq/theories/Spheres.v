(** Model of src/Meshing/MeshingSpheresMethods.cpp.  A sphere is a point of a tree with
    three dimensions stored with four numbers: centre and radius.  Vectors of known
    length are functions of the component index (Geometry.v). *)
From Verif Require Import Base Num MemoryHandler DenseQR KdTree SmartTree Geometry.

Section Spheres.
  Context {F : Type} `{Num F}.
  Local Open Scope num_scope.

  (** MeshingSmartTree.cpp:504-508 get_tree_point(i, 4, x): four numbers are copied. *)
  Definition get_sphere (s : stree F) (i : nat) : res (list F) :=
    row <- get (st_pts s) i ;;
    if Nat.leb 4 (length row) then Ok (firstn 4 row) else UB.
  (** MeshingSmartTree.cpp:518-521 get_tree_point_attrib(i, 0):  _points[i][_num_dim + 0]. *)
  Definition get_radius (s : stree F) (i : nat) : res F :=
    row <- get (st_pts s) i ;; get row (st_nd s).
  (** MeshingSmartTree.cpp:529-533 set_tree_point_attrib(i, 0, r). *)
  Definition set_radius (s : stree F) (i : nat) (r : F) : res (stree F) :=
    row <- get (st_pts s) i ;;
    row' <- set row (st_nd s) r ;;
    pts <- set (st_pts s) i row' ;;
    Ok (ST (st_nd s) (st_cap s) pts (st_nrm s) (st_att s) (st_lk s) (st_org s) (st_h s) (st_min s) (st_max s)).
  (** An array of numbers as a vector. *)
  Definition gv (x : list F) : gvec := fun d => nth d x n0.
  Definition any : nat -> bool := fun _ => true.

  (** The test  h < (beta + 1E-8) * r + 1E-8  (55, 82, 126, 173). *)
  Definition within (beta : F) (p : gvec) (sphere : gvec) : bool :=
    distance 3 p sphere <? (beta + nlit 1 8) * sphere 3%nat + nlit 1 8.
  (** MeshingSpheresMethods.cpp:52-53, 64-65. *)
  Definition beta_of (alpha : F) : F := if nlit 1 10 <? alpha then nsqrt (n1 - alpha * alpha) else n1.

  (** MeshingSpheresMethods.cpp:50-57 point_covered(point, sphere, alpha). *)
  Definition point_covered1 (point : gvec) (sphere : gvec) (alpha : F) : bool :=
    within (beta_of alpha) point sphere.

  (** The loops over the neighbours (77-89, 117-132, 164-178): is there one whose sphere
      passes the test for all the corners? *)
  Fixpoint some_covers (s : stree F) (beta : F) (corners : list gvec) (l : list nat) : res bool :=
    match l with
    | [] => Ok false
    | i :: t => sp <- get_sphere s i ;;
                if forallb (fun p => within beta p (gv sp)) corners then Ok true
                else some_covers s beta corners t
    end.

  (** The radius estimated at [x] from the closest sphere (67-72, 108-111, 153-158). *)
  Definition estimate (s : stree F) (x : list F) (Lip : F) : res F :=
    '(_, (c, d)) <- closest s any x dbl_max ;;
    r <- get_radius s c ;;
    Ok (r + Lip * d).

  (** MeshingSpheresMethods.cpp:59-94 point_covered(point, spheres, Lip, alpha). *)
  Definition point_covered (s : stree F) (point : list F) (Lip alpha : F) : res bool :=
    if Nat.eqb (st_n s) 0 then Ok false
    else
      est <- estimate s point Lip ;;
      l <- points_in_sphere s any point (est / (n1 - Lip)) ;;
      some_covers s (beta_of alpha) [gv point] l.

  (** MeshingSpheresMethods.cpp:97-137 edge_covered and 139-202 face_covered: the same
      with two and three corners; the block under  if (false)  is left out. *)
  Definition center2 (a b : list F) : list F := map (fun d => nlit 5 1 * (gv a d + gv b d)) (seq 0 3).
  Definition center3 (a b c : list F) : list F := map (fun d => (gv a d + gv b d + gv c d) / nofZ 3) (seq 0 3).
  Definition corners_covered (s : stree F) (center : list F) (corners : list gvec) (Lip alpha : F) : res bool :=
    if Nat.eqb (st_n s) 0 then Ok false
    else
      est <- estimate s center Lip ;;
      l <- points_in_sphere s any center (est * (n1 + Lip) / (n1 - Lip) + est) ;;
      some_covers s (nsqrt (n1 - alpha * alpha)) corners l.
  Definition edge_covered (s : stree F) (a b : list F) (Lip alpha : F) : res bool :=
    corners_covered s (center2 a b) [gv a; gv b] Lip alpha.
  Definition face_covered (s : stree F) (a b c : list F) (Lip alpha : F) : res bool :=
    corners_covered s (center3 a b c) [gv a; gv b; gv c] Lip alpha.

  (** MeshingSpheresMethods.cpp:220-236, body of the double loop of the brute force
      version; the flag says that a radius was written. *)
  Definition relax (Lip : F) (i j : nat) (st : stree F * bool) : res (stree F * bool) :=
    let '(s, ch) := st in
    si <- get_sphere s i ;;
    sj <- get_sphere s j ;;
    let hij := distance 3 (gv si) (gv sj) in
    let rLip := nmin (gv si 3%nat) (gv sj 3%nat) + Lip * hij in
    '(s1, ch1) <- (if rLip <? gv si 3%nat then s1 <- set_radius s i rLip ;; Ok (s1, true) else Ok (s, ch)) ;;
    if rLip <? gv sj 3%nat then s2 <- set_radius s1 j rLip ;; Ok (s2, true) else Ok (s1, ch1).
  (** 216-238: one pass over the pairs i < j. *)
  Definition sweep (Lip : F) (s : stree F) : res (stree F * bool) :=
    for_res (st_n s) 0 (fun i => for_res (st_n s - S i) (S i) (relax Lip i)) (s, false).
  (** MeshingSpheresMethods.cpp:205-245 impose_lipschitz_continuity_brute: passes until
      one changes nothing; returns the tree and [shrunk]. *)
  Fixpoint brute (fuel : nat) (Lip : F) (s : stree F) (shrunk : bool) : res (stree F * bool) :=
    match fuel with
    | O => Fuel
    | S f => '(s1, ch) <- sweep Lip s ;;
             if (ch : bool) then brute f Lip s1 true else Ok (s1, shrunk)
    end.
  Definition impose_lipschitz_brute (fuel : nat) (Lip : F) (s : stree F) : res (stree F * bool) :=
    brute fuel Lip s false.

  (** MeshingSpheresMethods.cpp:281-303: the neighbours of sphere i; the radius r is
      new_radii[i].  (The value of overlapped is not used.) *)
  Fixpoint shrink (Lip : F) (s : stree F) (i : nat) (si : list F) (l : list nat) (st : F * bool) : res (F * bool) :=
    match l with
    | [] => Ok st
    | j :: t =>
      if Nat.eqb j i then shrink Lip s i si t st
      else
        sj <- get_sphere s j ;;
        let lr := gv sj 3%nat + Lip * distance 3 (gv si) (gv sj) in
        shrink Lip s i si t (if lr <? fst st then (lr, true) else st)
    end.
  (** 268-307: one iteration over the spheres in the order I = [ord]. *)
  Fixpoint shrink_all (Lip : F) (s : stree F) (ord : list nat) (st : list F * bool) : res (list F * bool) :=
    match ord with
    | [] => Ok st
    | i :: t =>
      si <- get_sphere s i ;;
      l <- points_in_sphere s any si (n2 * gv si 3%nat) ;;
      r <- get (fst st) i ;;
      '(r', ch) <- shrink Lip s i si l (r, snd st) ;;
      new <- set (fst st) i r' ;;
      shrink_all Lip s t (new, ch)
    end.
  (** 309-312. *)
  Definition write_radii (s : stree F) (new : list F) : res (stree F) :=
    for_res (st_n s) 0 (fun i s' => r <- get new i ;; set_radius s' i r) s.
  Fixpoint lip_iter (fuel : nat) (Lip : F) (ord : list nat) (s : stree F) (new : list F) (shrunk : bool)
    : res (stree F * bool) :=
    match fuel with
    | O => Fuel
    | S f =>
      '(new1, ch) <- shrink_all Lip s ord (new, false) ;;
      s1 <- write_radii s new1 ;;
      if (ch : bool) then lip_iter f Lip ord s1 new1 true else Ok (s1, shrunk)
    end.
  (** MeshingSpheresMethods.cpp:247-318 impose_lipschitz_continuity.  With no sphere the
      upper bound num_spheres - 1 of the sort is SIZE_MAX and it reads outside R. *)
  Fixpoint radii_from (s : stree F) (i m : nat) : res (list F) :=
    match m with
    | O => Ok []
    | S m' => r <- get_radius s i ;; t <- radii_from s (S i) m' ;; Ok (r :: t)
    end.
  Definition impose_lipschitz (fuel : nat) (Lip : F) (s : stree F) (shrunk : bool) : res (stree F * bool) :=
    if Nat.eqb (st_n s) 0 then UB
    else
      new <- radii_from s 0 (st_n s) ;;
      '(_, ord) <- quicksort2 nltb (map nopp new) (seq 0 (st_n s)) 0 (st_n s - 1)%nat ;;
      lip_iter fuel Lip ord s new shrunk.

  (** MeshingSpheresMethods.cpp:345-370: the neighbours that overlap the sphere, in the
      order of the query. *)
  Fixpoint overlapping_among (s : stree F) (sphere : gvec) (l : list nat) : res (list nat) :=
    match l with
    | [] => Ok []
    | i :: t =>
      sp <- get_sphere s i ;;
      r <- overlapping_among s sphere t ;;
      Ok (if overlapping_spheres 3 sphere (gv sp) then i :: r else r)
    end.
  (** MeshingSpheresMethods.cpp:320-373 get_overlapping_spheres. *)
  Definition get_overlapping_spheres (sphere : list F) (s : stree F) (Lip : F) : res (list nat) :=
    if Nat.eqb (st_n s) 0 then Ok []
    else
      est <- estimate s sphere Lip ;;
      let r := if est <? gv sphere 3%nat then gv sphere 3%nat else est in
      l <- points_in_sphere s any sphere (r * (n1 + Lip) / (n1 - Lip) + r) ;;
      overlapping_among s (gv sphere) l.

  (** MeshingSpheresMethods.cpp:435-458 get_power_vertex of two spheres: [None] (return
      value 1) leaves the result unset. *)
  Definition sm_power_vertex2 (num_dim : nat) (co : gvec) (ro : F) (c1 : gvec) (r1 : F) : option gvec :=
    let h := nsqrt (range_sum 0 num_dim (fun d => (c1 d - co d) * (c1 d - co d))) in
    if h <? nlit 1 10 then None
    else
      let ho := nlit 5 1 * (h * h + ro * ro - r1 * r1) / h in
      Some (fun d => co d + ho * (c1 d - co d) / h).

  (** MeshingSpheresMethods.cpp:375-432 resolve_sliver.  The points where the three spheres
      i, j, k meet; [pv] and [normal] are what get_power_vertex(3, 3, ...) (461-564, the
      same code as MeshingGeometricalMethods.cpp:116-227) and get_3d_triangle_normal leave
      in their arguments (their return values are ignored). *)
  Definition meeting (si : gvec) (pv normal : gvec) (up : bool) : gvec :=
    let h := distance 3 pv si in
    let v := nsqrt (si 3%nat * si 3%nat - h * h) in
    fun d => if up then pv d + v * normal d else pv d - v * normal d.
  (** 408-425: sphere l against the two points. *)
  Definition sliver_check (sp : nat -> gvec) (fixed : nat -> bool) (i j k l : nat) (up lo : gvec)
    (best : nat * F * F) : nat * F * F :=
    if fixed l || Nat.eqb l i || Nat.eqb l j || Nat.eqb l k then best
    else
      let hmin := nmin (distance 3 (sp l) up) (distance 3 (sp l) lo) in
      if sp l 3%nat - nlit 1 10 <? hmin then best
      else
        let hmin := hmin * nlit 95 2 in
        let dr := sp l 3%nat - hmin in
        let '(_, _, dr_min) := best in
        if dr <? dr_min then (l, hmin, dr) else best.
  Fixpoint sliver_spheres (n l : nat) (sp : nat -> gvec) (fixed : nat -> bool) (i j k : nat) (up lo : gvec)
    (best : nat * F * F) : nat * F * F :=
    match n with
    | O => best
    | S m => sliver_spheres m (S l) sp fixed i j k up lo (sliver_check sp fixed i j k l up lo best)
    end.
  (** 386-390: the triplets i < j < k in the order of the loops. *)
  Definition triplets (n : nat) : list (nat * nat * nat) :=
    flat_map (fun i => flat_map (fun j => map (fun k => (i, j, k)) (seq (S j) (n - S j)))
                                (seq (S i) (n - S i))) (seq 0 n).
  (** The result: sliver_sphere_index (n when there is none), sliver_sphere_radius, dr_min. *)
  Definition resolve_sliver (n : nat) (sp : nat -> gvec) (fixed : nat -> bool)
    (pv normal : nat -> nat -> nat -> gvec) : nat * F * F :=
    fold_left (fun best t =>
      let '(i, j, k) := t in
      let up := meeting (sp i) (pv i j k) (normal i j k) true in
      let lo := meeting (sp i) (pv i j k) (normal i j k) false in
      sliver_spheres n 0 sp fixed i j k up lo best) (triplets n) (n, n0, dbl_max).
End Spheres.
