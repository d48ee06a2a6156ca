(** Model of generate_surface_seeds (MeshingVoroCrustSampler.cpp:3112-3576), of the
    coverage test with excluded spheres (MeshingPolyMesh.cpp:1010-1048) and of the merging
    of the seeds (MeshingVoroCrustSampler.cpp:1694-1719).  The spheres are the points of
    three trees: surface [ss], edge [es] and corner [cs], numbered one after the other. *)
From Verif Require Import Base Num KdTree SmartTree DenseQR Geometry Spheres.

Section SeedPairs.
  Context {F : Type} `{Num F}.
  Local Open Scope num_scope.

  (** 3206-3211, 3223-3228, 3343-3357: the sphere of a number. *)
  Definition sphere_at (ss es cs : stree F) (i : nat) : res (list F) :=
    if Nat.ltb i (st_n ss) then get_sphere ss i
    else if Nat.ltb i (st_n ss + st_n es) then get_sphere es (i - st_n ss)
    else get_sphere cs (i - st_n ss - st_n es).

  (** MeshingPolyMesh.cpp:1029-1043: the neighbours that cover the point. *)
  Fixpoint covering_among (s : stree F) (beta : F) (p : list F) (si sj sk : nat) (l : list nat) : res (list nat) :=
    match l with
    | [] => Ok []
    | i :: t =>
      r <- (if Nat.eqb i si || Nat.eqb i sj || Nat.eqb i sk then Ok []
            else sp <- get_sphere s i ;;
                 Ok (if distance 3 (gv p) (gv sp) <? beta * gv sp 3%nat + nlit 1 10 then [i] else [])) ;;
      r2 <- covering_among s beta p si sj sk t ;;
      Ok (r ++ r2)
    end.
  (** MeshingPolyMesh.cpp:1010-1048 point_covered; returns the covering spheres (covered is
      set when there is one). *)
  Definition pm_covering (s : stree F) (p : list F) (Lip alpha : F) (si sj sk : nat) : res (list nat) :=
    if Nat.eqb (st_n s) 0 then Ok []
    else
      est <- estimate s p Lip ;;
      l <- points_in_sphere s any p (est / (n1 - Lip)) ;;
      covering_among s (nsqrt (n1 - alpha * alpha)) p si sj sk l.
  Definition nonempty (l : list nat) : bool := match l with [] => false | _ => true end.

  (** 3288-3290, 3294-3299, 3308-3313: the numbers to exclude in each tree (the number of points of the
      tree: none). *)
  Definition in_surface (ns ne nc i : nat) : nat := if Nat.leb ns i then ns else i.
  Definition in_edges (ns ne nc i : nat) : nat := if Nat.ltb i ns || Nat.leb (ns + ne) i then ne else (i - ns)%nat.
  Definition in_corners (ns ne nc i : nat) : nat := if Nat.ltb i (ns + ne) then nc else (i - (ns + ne))%nat.
  (** 3283-3319: coverage of the two points: upper_covered, lower_covered, covering_spheres. *)
  Definition coverage (ss es cs : stree F) (Lip : F) (i j k : nat) (up lo : list F) : res (bool * bool * list nat) :=
    let ns := st_n ss in let ne := st_n es in let nc := st_n cs in
    let f := in_surface ns ne nc in
    u1 <- pm_covering ss up Lip n0 (f i) (f j) (f k) ;;
    l1 <- pm_covering ss lo Lip n0 (f i) (f j) (f k) ;;
    let f := in_edges ns ne nc in
    u2 <- (if nonempty u1 then Ok [] else pm_covering es up Lip n0 (f i) (f j) (f k)) ;;
    l2 <- (if nonempty l1 then Ok [] else pm_covering es lo Lip n0 (f i) (f j) (f k)) ;;
    let f := in_corners ns ne nc in
    let u12 := nonempty u1 || nonempty u2 in
    let l12 := nonempty l1 || nonempty l2 in
    u3 <- (if u12 then Ok [] else pm_covering cs up Lip n0 (f i) (f j) (f k)) ;;
    l3 <- (if l12 then Ok [] else pm_covering cs lo Lip n0 (f i) (f j) (f k)) ;;
    Ok (u12 || nonempty u3, l12 || nonempty l3,
        u1 ++ l1 ++ map (Nat.add ns) (u2 ++ l2) ++ map (Nat.add (ns + ne)) (u3 ++ l3)).

  (** A pair of seeds: the points with their radius, the normal and attrib[2..4]. *)
  Record pair := MkPair { p_up : list F; p_lo : list F; p_nrm : list F; p_att : nat * nat * nat }.
  Definition in_touch (a b : list F) : bool :=
    negb (gv a 3%nat + gv b 3%nat - nlit 1 10 <? distance 3 (gv a) (gv b)).
  Definition three (a b c : list F) : nat -> gvec := fun i => match i with 0%nat => gv a | 1%nat => gv b | _ => gv c end.
  (** 3213-3281: the two points where the spheres i, j, k meet; [None]: continue.  [darts]
      are the directions drawn by get_power_vertex; when it fails c_ijk keeps what it
      held, [stale].  [fc] are the corners of the face of sphere i. *)
  Definition meeting_pair (ss es cs : stree F) (darts : nat -> gvec) (stale : gvec) (fc : nat -> gvec) (i j k : nat) : res (option pair) :=
    a <- sphere_at ss es cs i ;;
    b <- sphere_at ss es cs j ;;
    if negb (in_touch a b) then Ok None else
    c <- sphere_at ss es cs k ;;
    if negb (in_touch a c) then Ok None else
    if negb (in_touch b c) then Ok None else
    let centers := three a b c in
    pv <- power_vertex 3 3 centers (fun m => centers m 3%nat) darts ;;
    let x := match pv with Some v => v | None => stale end in
    let h := distance 3 x (gv a) in
    if gv a 3%nat - nlit 1 10 <? h then Ok None else
    let v := nsqrt (gv a 3%nat * gv a 3%nat - h * h) in
    if triangle_area centers <? nlit 1 10 then Ok None else
    let n := snd (triangle_normal centers) in
    let m := snd (triangle_normal fc) in
    let flip := dot_product 3 m n <? n0 in
    let n' := fun d => if flip then nopp (n d) else n d in
    let r := nmin (nmin (gv a 3%nat) (gv b 3%nat)) (gv c 3%nat) in
    Ok (Some {| p_up := map (fun d => x d + v * n' d) (seq 0 3) ++ [r];
                p_lo := map (fun d => x d - v * n' d) (seq 0 3) ++ [r];
                p_nrm := map n' (seq 0 3);
                p_att := if flip then (i, k, j) else (i, j, k) |}).

  (** 3379-3413: a valid pair is added to the trees unless its points are there. *)
  Definition find_seed (t : stree F) (x : list F) : res nat :=
    '(_, (c, h)) <- closest t any x dbl_max ;;
    Ok (if h <? nlit 1 10 then c else st_n t).
  Definition record_of_pair (p : pair) (partner : nat) : list nat :=
    let '(a2, a3, a4) := p_att p in [6; partner; a2; a3; a4; 0]%nat.
  Definition add_pair (need : nat -> nat -> bool) (ups los : stree F) (p : pair) : res (stree F * stree F) :=
    li <- find_seed los (p_lo p) ;;
    ui <- find_seed ups (p_up p) ;;
    los' <- (if Nat.eqb li (st_n los) then add_point need los (p_lo p) (Some (p_nrm p)) (Some (record_of_pair p ui)) else Ok los) ;;
    ups' <- (if Nat.eqb ui (st_n ups) then add_point need ups (p_up p) (Some (p_nrm p)) (Some (record_of_pair p li)) else Ok ups) ;;
    Ok (ups', los').

  (** 3362-3374: the radius asked for a sphere is the least of those found. *)
  Fixpoint record_sliver (i : nat) (r : F) (l : list (nat * F)) : list (nat * F) :=
    match l with
    | [] => [(i, r)]
    | (j, q) :: t => if Nat.eqb j i then (j, if r <? q then r else q) :: t else (j, q) :: record_sliver i r t
    end.
  (** What the loops over the triples change: the seeds and the spheres to shrink. *)
  Record seeding := MkSeeding { g_up : stree F; g_lo : stree F; g_sliver : list (nat * F) }.
  (** Values that the model leaves open: the corners of the face of each surface sphere,
      the directions drawn and the leftovers, and what resolve_sliver computes
      for the triples of a list of spheres. *)
  Record oracle := MkOracle {
    o_need : nat -> nat -> bool;
    o_face : nat -> nat -> @gvec F;
    o_darts : nat -> nat -> nat -> nat -> @gvec F;
    o_stale : nat -> nat -> nat -> @gvec F;
    o_pv : list nat -> nat -> nat -> nat -> @gvec F;
    o_nrm : list nat -> nat -> nat -> nat -> @gvec F }.

  (** 3329-3376: a sliver. *)
  Fixpoint spheres_at (ss es cs : stree F) (l : list nat) : res (list (list F)) :=
    match l with
    | [] => Ok []
    | i :: t => a <- sphere_at ss es cs i ;; r <- spheres_at ss es cs t ;; Ok (a :: r)
    end.
  Definition one_sliver (o : oracle) (ss es cs : stree F) (cover : list nat) (l : list (nat * F)) : res (list (nat * F)) :=
    sp <- spheres_at ss es cs cover ;;
    let '(w, r, _) := resolve_sliver (length cover) (fun m => gv (nth m sp [])) (fun m => negb (Nat.ltb (nth m cover 0%nat) (st_n ss)))
                        (o_pv o cover) (o_nrm o cover) in
    if Nat.ltb w (length cover) then i <- get cover w ;; Ok (record_sliver i r l) else Ok l.
  (** 3213-3416: one triple i < j < k. *)
  Definition one_triple (o : oracle) (ss es cs : stree F) (Lip : F) (i j k : nat) (g : seeding) : res seeding :=
    m <- meeting_pair ss es cs (o_darts o i j k) (o_stale o i j k) (o_face o i) i j k ;;
    match m with
    | None => Ok g
    | Some p =>
      '(cu, cl, cover) <- coverage ss es cs Lip i j k (p_up p) (p_lo p) ;;
      if negb (Bool.eqb cu cl) then
        l <- one_sliver o ss es cs (cover ++ [i; j; k]) (g_sliver g) ;;
        Ok (MkSeeding (g_up g) (g_lo g) l)
      else if (match g_sliver g with [] => true | _ => false end) && negb cu && negb cl then
        '(u, l) <- add_pair (o_need o) (g_up g) (g_lo g) p ;;
        Ok (MkSeeding u l (g_sliver g))
      else Ok g
    end.
  (** 3156-3177: the spheres that overlap sphere i. *)
  Definition near_by (ss es cs : stree F) (Lip : F) (a : list F) : res (list nat) :=
    l1 <- get_overlapping_spheres a ss Lip ;;
    l2 <- get_overlapping_spheres a es Lip ;;
    l3 <- get_overlapping_spheres a cs Lip ;;
    Ok (l1 ++ map (Nat.add (st_n ss)) l2 ++ map (Nat.add (st_n ss + st_n es)) l3).
  Definition each {A S : Type} (f : A -> S -> res S) (l : list A) (s : S) : res S :=
    fold_left (fun r x => s <- r ;; f x s) l (Ok s).
  (** 3144-3421: all triples.  (The test of the pair i, j is repeated for each k by
      [meeting_pair]; in the code it is made once.) *)
  Definition all_triples (o : oracle) (ss es cs : stree F) (Lip : F) (g : seeding) : res seeding :=
    for_res (st_n ss) 0 (fun i g =>
      a <- get_sphere ss i ;;
      near <- near_by ss es cs Lip a ;;
      each (fun j g => if Nat.leb j i then Ok g else
        each (fun k g => if Nat.leb k i || Nat.leb k j then Ok g else one_triple o ss es cs Lip i j k g) near g) near g) g.

  (** 3436-3449: spheres that make slivers shrink; feature spheres do not. *)
  Definition shrink_slivers (ss : stree F) (l : list (nat * F)) : res (stree F * bool) :=
    each (fun (e : nat * F) (st : stree F * bool) => let '(i, r) := e in
      if Nat.ltb i (st_n ss) then s1 <- set_radius (fst st) i r ;; Ok (s1, true) else Ok st) l (ss, false).
  (** 3467-3498, 3506-3537: which surface spheres have a seed too close to another of the
      same tree [t]; note that the third sphere is read from attrib[3]. *)
  Definition least_radius (ss : stree F) (ids : list nat) : res F :=
    each (fun i r => if Nat.ltb i (st_n ss) then sp <- get_sphere ss i ;; Ok (if gv sp 3%nat <? r then gv sp 3%nat else r) else Ok r) ids dbl_max.
  Definition mark_spheres (ss : stree F) (ids : list nat) (f : list bool) : res (list bool) :=
    each (fun i f => if Nat.ltb i (st_n ss) then set f i true else Ok f) ids f.
  Definition close_seeds (ss t : stree F) (st : list bool * bool) : res (list bool * bool) :=
    for_res (st_n t) 0 (fun q st =>
      match st_att t with
      | None => UB
      | Some att =>
        rec <- get att q ;;
        match rec with
        | None => UB
        | Some rec =>
          a2 <- get rec 2 ;; a3 <- get rec 3 ;;
          let ids := [a2; a3; a3] in
          r <- least_radius ss ids ;;
          '(_, h) <- closest_to t any q dbl_max ;;
          if h / r <? nlit 1 2 then f <- mark_spheres ss ids (fst st) ;; Ok (f, true) else Ok st
        end
      end) st.
  (** 3553-3560: the marked spheres shrink by 0.95. *)
  Definition shrink_marked (ss : stree F) (f : list bool) : res (stree F) :=
    for_res (st_n ss) 0 (fun i s =>
      b <- get f i ;;
      if (b : bool) then sp <- get_sphere s i ;; set_radius s i (gv sp 3%nat * nlit 95 2) else Ok s) ss.

  (** MeshingSmartTree.cpp:535-594 clear_memory (of a tree without random samplers). *)
  Definition clear_tree (t : stree F) : stree F := st_new (st_nd t).
  (** MeshingVoroCrustSampler.cpp:3112-3576 generate_surface_seeds: the surface spheres, the seeds and
      shrunk_s.  The distances that are only reported are left out. *)
  Definition generate_surface_seeds (o : oracle) (ss es cs : stree F) (Lip : F) (ups los : stree F)
    : res (stree F * stree F * stree F * bool) :=
    g <- all_triples o ss es cs Lip (MkSeeding (clear_tree ups) (clear_tree los) []) ;;
    match g_sliver g with
    | _ :: _ =>
      '(ss', sh) <- shrink_slivers ss (g_sliver g) ;;
      Ok (ss', clear_tree (g_up g), clear_tree (g_lo g), sh)
    | [] =>
      st1 <- close_seeds ss (g_up g) (repeat false (st_n ss), false) ;;
      '(f, sh) <- close_seeds ss (g_lo g) st1 ;;
      if (sh : bool) then
        ss' <- shrink_marked ss f ;; Ok (ss', clear_tree (g_up g), clear_tree (g_lo g), true)
      else Ok (ss, g_up g, g_lo g, false)
    end.

  (** MeshingVoroCrustSampler.cpp:1694-1719: upper seeds, with the number of upper seeds added to
      attrib[1], then lower seeds. *)
  Definition copy_seed (need : nat -> nat -> bool) (t : stree F) (shift : nat) (i : nat) (seeds : stree F) : res (stree F) :=
    match st_nrm t, st_att t with
    | Some nrm, Some att =>
      x <- get (st_pts t) i ;; nv <- get nrm i ;; av <- get att i ;;
      match av with
      | None => UB
      | Some a => p <- get a 1 ;; a' <- set a 1 (p + shift)%nat ;; add_point need seeds x (Some nv) (Some a')
      end
    | _, _ => UB
    end.
  Definition merge_seeds (need : nat -> nat -> bool) (ups los seeds : stree F) : res (stree F) :=
    s1 <- for_res (st_n ups) 0 (copy_seed need ups (st_n ups)) seeds ;;
    for_res (st_n los) 0 (copy_seed need los 0) s1.
End SeedPairs.
Arguments pair F : clear implicits.
Arguments oracle F : clear implicits.
Arguments seeding F : clear implicits.
