(** Model of the part of color_surface_seeds that decides which seeds are on the same side of the surface
    (MeshingVoroCrustSampler.cpp:1721-2210).

    Every seed has a partner, attrib[1], and comes from three spheres, attrib[2..4]; these do not change
    here and are given with the point.  The marker attrib[5] of the seeds is a list.  The calls
    seeds->graph_connect_nodes are collected in a list of pairs, in the order they are made; the graph they
    make is in Graph.v and what is done with it in Coloring.v.  Reading or writing outside an array is [UB],
    a loop that does not end is [Fuel]. *)
From Verif Require Import Base Num DenseQR Geometry MemoryHandler Graph.

Record pseed (F : Type) := MkPSeed { q_x : list F; q_pair : nat; q_tri : nat * nat * nat }.
Arguments MkPSeed {F} _ _ _.
Arguments q_x {F} _.
Arguments q_pair {F} _.
Arguments q_tri {F} _.

(** 1758-1761 and the same loop elsewhere: (si, sj, sk) is rotated until si is the sphere; returns (sj, sk).
    The loop does not end if the sphere is not one of the three. *)
Definition rotate (i : nat) (t : nat * nat * nat) : res (nat * nat) :=
  let '(a, b, c) := t in
  if a =? i then Ok (b, c) else if b =? i then Ok (c, a) else if c =? i then Ok (a, b) else Fuel.

(** 1776-1787: the markers of a seed and of its partner. *)
Definition put_marks (positive : bool) (s1 s2 im ip : nat) (col : list nat) : res (list nat) :=
  if positive then c <- set col s1 im ;; set c s2 ip
  else c <- set col s1 ip ;; set c s2 im.

(** 1744-1749, 1904-1909, 2201-2206: no marker. *)
Fixpoint clear_marks (ss : list nat) (col : list nat) : res (list nat) :=
  match ss with
  | [] => Ok col
  | s :: t => c <- set col s 0 ;; clear_marks t c
  end.

(** 1868-1874, 2190-2196: the seeds of [l] with marker c. *)
Fixpoint with_mark (c : nat) (l : list nat) (col : list nat) : res (list nat) :=
  match l with
  | [] => Ok []
  | s :: t => v <- get col s ;; r <- with_mark c t col ;; Ok (if c =? v then s :: r else r)
  end.
(** 1863-1878, 2184-2199: seeds with the same marker are connected. *)
Fixpoint link_equal (ss : list nat) (col : list nat) : res (list (nat * nat)) :=
  match ss with
  | [] => Ok []
  | s :: t => c <- get col s ;; l <- with_mark c t col ;; r <- link_equal t col ;; Ok (map (pair s) l ++ r)
  end.

Section Sides.
  Context {F : Type} `{Num F}.
  Local Open Scope num_scope.
  (** The centres of the spheres and the seeds. *)
  Variables (sph : list (list F)) (seeds : list (pseed F)).

  (** 1763-1775, 1834-1845, 2081-2092, 2153-2164: dot > 0.0 for a seed, its partner and the triangle of the
      spheres i, j, k. *)
  Definition partner_above (i j k s1 s2 : nat) : res bool :=
    q1 <- get seeds s1 ;; q2 <- get seeds s2 ;;
    a <- get sph i ;; b <- get sph j ;; c <- get sph k ;;
    let n := snd (triangle_normal (fun m d => nth d (nth m [a; b; c] []) n0)) in
    let dot := range_sum 0 3 (fun d => (nth d (q_x q2) n0 - nth d (q_x q1) n0) * n d) in
    Ok (n0 <? dot).
  (** A seed and its partner are marked with im (inside) and ip (outside). *)
  Definition mark_pair (i im ip s j k : nat) (col : list nat) : res (list nat) :=
    q <- get seeds s ;;
    b <- partner_above i j k s (q_pair q) ;;
    put_marks b s (q_pair q) im ip col.

  (** 1797-1815, 2057-2073, 2113-2131: the first seed without a marker whose other two spheres satisfy [ok],
      with these spheres.  (Around edge spheres the marker is tested before the rotation, and the search for
      "done" does not stop at the first such seed; that makes a difference only if a rotation does not
      end.) *)
  Fixpoint find_seed (i : nat) (ok : nat -> nat -> bool) (ss : list nat) (col : list nat)
    : res (option (nat * nat * nat)) :=
    match ss with
    | [] => Ok None
    | s :: t =>
      q <- get seeds s ;; '(sj, sk) <- rotate i (q_tri q) ;; c <- get col s ;;
      if Nat.eqb c 0 && ok sj sk then Ok (Some (s, sj, sk)) else find_seed i ok t col
    end.

  (** 1793-1861, 2108-2181: from triangle to triangle around the sphere.  [stop] is the test after a triangle
      was marked (1856: back at the first neighbour, 2176: an edge or a corner sphere).  Every round gives a
      marker to a seed without one, so the fuel at the calls is enough. *)
  Fixpoint walk (fuel : nat) (i im ip : nat) (stop : nat -> bool) (ss : list nat) (j : nat) (col : list nat)
    : res (list nat) :=
    match fuel with
    | O => Fuel
    | S f =>
      o <- find_seed i (fun sj sk => Nat.eqb sj j || Nat.eqb sk j) ss col ;;
      match o with
      | None => Ok col
      | Some (s, sj, sk) =>
        let k := if Nat.eqb sj j then sk else sj in
        c <- mark_pair i im ip s j k col ;;
        if stop k then Ok c else walk f i im ip stop ss k c
      end
    end.

  (** 1733-1890: a surface sphere with its seeds ([ss]; the first entry is read without a test, the list of
      a sphere in the graph is never empty).  Returns the markers and the pairs. *)
  Definition surface_sphere (i : nat) (ss : list nat) (col : list nat) : res (list nat * list (nat * nat)) :=
    col0 <- clear_marks ss col ;;
    s1 <- get ss 0 ;;
    q <- get seeds s1 ;;
    '(sj, sk) <- rotate i (q_tri q) ;;
    col1 <- mark_pair i 1 2 s1 sj sk col0 ;;
    col2 <- walk (S (length ss)) i 1 2 (fun k => Nat.eqb k sj) ss sk col1 ;;
    l <- link_equal ss col2 ;;
    col3 <- clear_marks ss col2 ;;
    Ok (col3, l).

  (** 1911-1936: the first edge or corner sphere among the neighbours. *)
  Fixpoint feature_neighbor (ns i : nat) (ss : list nat) : res nat :=
    match ss with
    | [] => Ok i
    | s :: t =>
      q <- get seeds s ;; '(sj, sk) <- rotate i (q_tri q) ;;
      if Nat.leb ns sj then Ok sj else if Nat.leb ns sk then Ok sk else feature_neighbor ns i t
    end.
  (** 1938-1953: the seeds of the triangles with the sphere [nb]. *)
  Fixpoint count_at (i nb : nat) (ss : list nat) : res nat :=
    match ss with
    | [] => Ok 0%nat
    | s :: t =>
      q <- get seeds s ;; '(sj, sk) <- rotate i (q_tri q) ;; r <- count_at i nb t ;;
      Ok (if Nat.eqb sj nb || Nat.eqb sk nb then S r else r)
    end.
  (** 1956-1990: the third spheres of these triangles; [cap] entries were allocated. *)
  Fixpoint first_layer (cap i nb : nat) (ss : list nat) (js : list nat) : res (list nat) :=
    match ss with
    | [] => Ok js
    | s :: t =>
      q <- get seeds s ;; '(sj, sk) <- rotate i (q_tri q) ;;
      if negb (Nat.eqb sj nb || Nat.eqb sk nb) then first_layer cap i nb t js
      else
        let k := if Nat.eqb sj nb then sk else sj in
        if existsb (Nat.eqb k) js then first_layer cap i nb t js
        else if Nat.leb cap (length js) then UB
        else first_layer cap i nb t (js ++ [k])
    end.

  (** 1992-2021: the basis e1, e2, e3 at the sphere with centre xi; e1 points to xn, e2 to the side of xj. *)
  Definition edge_basis (xi xn xj : list F) : (nat -> F) * (nat -> F) * (nat -> F) :=
    let a := fun d => nth d xn n0 - nth d xi n0 in
    let na := nsqrt (range_sum 0 3 (fun d => a d * a d)) in
    let e1 := fun d => a d / na in
    let b := fun d => nth d xj n0 - nth d xi n0 in
    let dot := range_sum 0 3 (fun d => b d * e1 d) in
    let b' := fun d => b d - dot * e1 d in
    let nb := nsqrt (range_sum 0 3 (fun d => b' d * b' d)) in
    let e2 := fun d => b' d / nb in
    (e1, e2, cross e1 e2).
  (** 2024-2038: the angle of a sphere around e1.  get_point_angle is a parameter. *)
  Variable angle : F -> F -> F.
  Definition layer_angle (xi : list F) (e2 e3 : nat -> F) (j : nat) : res F :=
    xj <- get sph j ;;
    Ok (angle (range_sum 0 3 (fun d => (nth d xj n0 - nth d xi n0) * e2 d))
              (range_sum 0 3 (fun d => (nth d xj n0 - nth d xi n0) * e3 d))).
  Fixpoint layer_angles (xi : list F) (e2 e3 : nat -> F) (js : list nat) : res (list F) :=
    match js with
    | [] => Ok []
    | j :: t => a <- layer_angle xi e2 e3 j ;; r <- layer_angles xi e2 e3 t ;; Ok (a :: r)
    end.

  (** 2041-2182: the sheets of triangles, one after the other; [js] are the entries of jsphere from iloop on
      (each is changed only in its own round). *)
  Fixpoint mark_sheets (ns i nb loops iloop : nat) (js : list nat) (ss : list nat) (col : list nat)
    : res (list nat) :=
    match js with
    | [] => Ok col
    | jl :: t =>
      let im := S iloop in
      let ip := if Nat.ltb loops (S im) then 1%nat else S im in
      o <- find_seed i (fun sj sk => (Nat.eqb sj nb || Nat.eqb sj jl) && (Nat.eqb sk nb || Nat.eqb sk jl)) ss col ;;
      '(col1, j) <- match o with
                    | None => Ok (col, jl)
                    | Some (s, sj, sk) =>
                      let j := if Nat.eqb sj nb then sj else sk in
                      let k := if Nat.eqb sj nb then sk else sj in
                      c <- mark_pair i im ip s j k col ;; Ok (c, k)
                    end ;;
      col2 <- walk (S (length ss)) i im ip (fun k => Nat.leb ns k) ss j col1 ;;
      mark_sheets ns i nb loops (S iloop) t ss col2
    end.

  (** 1895-2210: an edge sphere with its seeds; [ns] is the number of surface spheres. *)
  Definition edge_sphere (ns i : nat) (ss : list nat) (col : list nat) : res (list nat * list (nat * nat)) :=
    col0 <- clear_marks ss col ;;
    nb <- feature_neighbor ns i ss ;;
    ct <- count_at i nb ss ;;
    js <- first_layer (Nat.div2 ct) i nb ss [] ;;
    xi <- get sph i ;; xn <- get sph nb ;; j0 <- get js 0 ;; xj <- get sph j0 ;;
    let '(e1, e2, e3) := edge_basis xi xn xj in
    theta <- layer_angles xi e2 e3 js ;;
    '(_, js') <- quicksort2 nltb theta js 0 (length js - 1) ;;
    col1 <- mark_sheets ns i nb (length js) 0 js' ss col0 ;;
    l <- link_equal ss col1 ;;
    col2 <- clear_marks ss col1 ;;
    Ok (col2, l).

  (** 1735-1742, 1899-1902: one sphere; nothing is done for a sphere without seeds. *)
  Definition at_sphere (step : nat -> list nat -> list nat -> res (list nat * list (nat * nat)))
    (g : pgraph) (i : nat) (st : list nat * list (nat * nat)) : res (list nat * list (nat * nat)) :=
    o <- graph_neighbors g i ;;
    match o with
    | None => Ok st
    | Some ss => '(c, l) <- step i ss (fst st) ;; Ok (c, snd st ++ l)
    end.
  (** 1721-1728: which seeds come from a sphere; [cap] is the capacity of the tree of spheres. *)
  Definition seed_calls : list gop :=
    flat_map (fun s => match nth_error seeds s with
                       | Some q => let '(a, b, c) := q_tri q in [GConnect a s; GConnect b s; GConnect c s]
                       | None => []
                       end) (seq 0 (length seeds)).
  (** 1721-2210: the graph of the spheres, the surface spheres, the edge spheres (corner spheres are not
      looked at).  The markers are 0 when the seeds are made.  Returns the markers and the links. *)
  Definition same_side_links (cap ns ne : nat) : res (list nat * list (nat * nat)) :=
    g <- grun (g_new (length sph) cap) seed_calls ;;
    st <- for_res ns 0 (at_sphere surface_sphere g) (repeat 0%nat (length seeds), []) ;;
    for_res ne ns (at_sphere (edge_sphere ns) g) st.
End Sides.
