(** Model of src/Meshing/MeshingGeometricalMethods.cpp.  Vectors of known length are
    functions of the component index; the sampler's darts are an argument. *)
From Verif Require Import Base Num DenseQR.

Section Geometry.
  Context {F : Type} `{Num F}.
  Local Open Scope num_scope.
  Definition gvec := nat -> F.

  (** MeshingGeometricalMethods.cpp:67-79 distance. *)
  Definition distance (num_dim : nat) (x y : gvec) : F :=
    nsqrt (range_sum 0 num_dim (fun d => (y d - x d) * (y d - x d))).

  (** MeshingGeometricalMethods.cpp:262-272 dot_product. *)
  Definition dot_product (num_dim : nat) (v1 v2 : gvec) : F := range_sum 0 num_dim (fun d => v1 d * v2 d).

  (** MeshingGeometricalMethods.cpp:81-96 cos_angle. *)
  Definition cos_angle (num_dim : nat) (x y z : gvec) : F :=
    let hxy := distance num_dim x y in
    let hyz := distance num_dim y z in
    if (hxy <? nlit 1 10) || (hyz <? nlit 1 10) then n1
    else range_sum 0 num_dim (fun d => (x d - y d) * (z d - y d)) / (hxy * hyz).

  (** MeshingGeometricalMethods.cpp:98-114 get_power_vertex of two spheres. *)
  Definition power_vertex2 (num_dim : nat) (co : gvec) (ro : F) (c1 : gvec) (r1 : F) : gvec :=
    let h := nsqrt (range_sum 0 num_dim (fun d => (c1 d - co d) * (c1 d - co d))) in
    let ho := (h * h + ro * ro - r1 * r1) / (n2 * h) in
    fun d => co d + ho * (c1 d - co d) / h.

  (** MeshingGeometricalMethods.cpp:229-260 get_normal_component: the return code (0 is
      [true]), the vector and the value left in [norm]. *)
  Fixpoint subtract_components (num_basis ib : nat) (comp : nat -> F) (basis : nat -> gvec) (vect : gvec) : gvec :=
    match num_basis with
    | O => vect
    | S m => subtract_components m (S ib) comp basis (fun d => vect d - comp ib * basis ib d)
    end.
  Definition normal_component (num_dim num_basis : nat) (basis : nat -> gvec) (vect : gvec) : bool * gvec * F :=
    let comp := fun ib => range_sum 0 num_dim (fun d => vect d * basis ib d) in
    let v := subtract_components num_basis 0 comp basis vect in
    let norm := range_sum 0 num_dim (fun d => v d * v d) in
    if nabs norm <? nlit 1 10 then (false, v, norm)
    else let norm := n1 / nsqrt norm in (true, (fun d => v d * norm), norm).

  (** MeshingGeometricalMethods.cpp:274-287 normalize_vector. *)
  Definition normalize_vector (num_dim : nat) (vec : gvec) : bool * gvec :=
    let norm := nsqrt (range_sum 0 num_dim (fun d => vec d * vec d)) in
    if norm <? nlit 1 10 then (false, vec) else (true, fun d => vec d / norm).

  (** MeshingGeometricalMethods.cpp:289-298 overlapping_spheres. *)
  Definition overlapping_spheres (num_dim : nat) (si sj : gvec) : bool :=
    distance num_dim si sj <? si num_dim + sj num_dim + nlit 1 10.

  (** The cross product, written out at MeshingGeometricalMethods.cpp:309-311, 332-334. *)
  Definition cross (a b : gvec) : gvec := fun d =>
    match d with
    | 0%nat => a 1%nat * b 2%nat - a 2%nat * b 1%nat
    | 1%nat => a 2%nat * b 0%nat - a 0%nat * b 2%nat
    | _ => a 0%nat * b 1%nat - a 1%nat * b 0%nat
    end.
  Definition edge (corners : nat -> gvec) (i j : nat) : gvec := fun d => corners j d - corners i d.

  (** MeshingGeometricalMethods.cpp:300-316 get_3d_triangle_area. *)
  Definition triangle_area (corners : nat -> gvec) : F :=
    let n := cross (edge corners 0 1) (edge corners 0 2) in
    nlit 5 1 * nsqrt (n 0%nat * n 0%nat + n 1%nat * n 1%nat + n 2%nat * n 2%nat).

  (** MeshingGeometricalMethods.cpp:318-347 get_3d_triangle_normal. *)
  Definition triangle_normal (corners : nat -> gvec) : bool * gvec :=
    let '(ga, a) := normalize_vector 3 (edge corners 0 1) in
    let '(gb, b) := normalize_vector 3 (edge corners 0 2) in
    if negb (ga && gb) then (false, fun _ => n0)
    else
      let n := cross a b in
      let norm := nsqrt (n 0%nat * n 0%nat + n 1%nat * n 1%nat + n 2%nat * n 2%nat) in
      if nabs norm <? nlit 1 10 then (false, n) else (true, fun d => n d / norm).

  (** MeshingGeometricalMethods.cpp:419-441 project_to_3d_line_segment: q, proj_dist. *)
  Definition project_segment (p xo xn : gvec) : gvec * F :=
    let a := fun d => p d - xo d in
    let b := fun d => xn d - xo d in
    let u := dot_product 3 a b / range_sum 0 3 (fun d => b d * b d) in
    let u := if u <? n0 then n0 else u in
    let u := if n1 <? u then n1 else u in
    let q := fun d => xo d + u * (xn d - xo d) in
    (q, distance 3 p q).

  (** MeshingGeometricalMethods.cpp:443-457 project_to_3d_line. *)
  Definition project_line (p xo edir : gvec) : gvec * F :=
    let u := dot_product 3 (fun d => p d - xo d) edir in
    let q := fun d => xo d + u * edir d in
    (q, distance 3 p q).

  (** MeshingGeometricalMethods.cpp:361-378: the inside test of project_to_3d_triangle;
      corner im = i-1 (cyclic) is replaced by q. *)
  Definition replaced (corners : nat -> gvec) (im : nat) (q : gvec) : nat -> gvec :=
    fun k => if Nat.eqb k im then q else corners k.
  Definition before (i : nat) : nat := if Nat.ltb 0 i then (i - 1)%nat else 2.
  Definition after (i : nat) : nat := if Nat.eqb (i + 1) 3 then 0%nat else (i + 1)%nat.
  Definition side_ok (corners : nat -> gvec) (n q : gvec) (i : nat) : bool :=
    let '(good, m) := triangle_normal (replaced corners (before i) q) in
    if good then negb (dot_product 3 m n <? nopp (nlit 1 10)) else true.
  (** MeshingGeometricalMethods.cpp:390-414, one pass over edge i. *)
  Definition closer_edge (p : gvec) (corners : nat -> gvec) (i : nat) (best : gvec * F) : gvec * F :=
    let '(a, h) := project_segment p (corners i) (corners (after i)) in
    let h := distance 3 a p in
    if h <? snd best then (a, h) else best.
  (** MeshingGeometricalMethods.cpp:349-417 project_to_3d_triangle. *)
  Definition project_triangle (p : gvec) (corners : nat -> gvec) : gvec * F :=
    let n := snd (triangle_normal corners) in
    let dot := dot_product 3 (fun d => corners 0%nat d - p d) n in
    let q := fun d => p d + dot * n d in
    if side_ok corners n q 0 && side_ok corners n q 1 && side_ok corners n q 2
    then (q, distance 3 p q)
    else
      let '(q, _) := closer_edge p corners 2 (closer_edge p corners 1 (closer_edge p corners 0 (q, dbl_max))) in
      (q, distance 3 p q).

  (** MeshingGeometricalMethods.cpp:140-176: one spoke of the n-sphere power vertex: the
      direction, and the nearest remaining power hyperplane along it. *)
  Definition spoke_dir (num_dim ispoke : nat) (basis : nat -> gvec) (dart : gvec) : gvec :=
    fun d => range_sum ispoke num_dim (fun jb => dart (jb - ispoke)%nat * basis jb d).
  Fixpoint trim_spoke (n ip num_dim : nat) (c : nat -> gvec) (r : nat -> F) (xst dir : gvec) (best : F * nat) : F * nat :=
    match n with
    | O => best
    | S m =>
      let qv := power_vertex2 num_dim (c 0%nat) (r 0%nat) (c ip) (r ip) in
      let mv := fun d => c ip d - c 0%nat d in
      let dot_1 := range_sum 0 num_dim (fun d => (qv d - xst d) * mv d) in
      let dot_2 := range_sum 0 num_dim (fun d => dir d * mv d) in
      let best :=
        if nabs dot_2 <? nlit 1 10 then best
        else let alpha := dot_1 / dot_2 in
             if nabs alpha <? nabs (fst best) then (alpha, ip) else best in
      trim_spoke m (S ip) num_dim c r xst dir best
    end.
  (** MeshingGeometricalMethods.cpp:197-211: the remaining basis vectors; each is the
      first axis with a component normal to the vectors before it. *)
  Fixpoint first_axis (n idim num_dim jb : nat) (basis : nat -> gvec) (last : gvec) : gvec :=
    match n with
    | O => last
    | S m =>
      let '(_, v, norm) := normal_component num_dim jb basis (fun d => if Nat.eqb d idim then n1 else n0) in
      if nlit 1 1 <? norm then v else first_axis m (S idim) num_dim jb basis v
    end.
  Definition set_vec (basis : nat -> gvec) (i : nat) (v : gvec) : nat -> gvec := fun k => if Nat.eqb k i then v else basis k.
  Fixpoint complete_basis (n jb num_dim : nat) (basis : nat -> gvec) (vect : gvec) : (nat -> gvec) * gvec :=
    match n with
    | O => (basis, vect)
    | S m =>
      let v := first_axis num_dim 0 num_dim jb basis vect in
      complete_basis m (S jb) num_dim (set_vec basis jb v) v
    end.
  Definition swap_at {A} (c : nat -> A) (i j : nat) : nat -> A :=
    fun k => if Nat.eqb k i then c j else if Nat.eqb k j then c i else c k.
  Record pv_state := { pv_c : nat -> gvec; pv_r : nat -> F; pv_basis : nat -> gvec; pv_xst : gvec; pv_vect : gvec }.
  Fixpoint pv_loop (n ispoke num_dim num_points : nat) (darts : nat -> gvec) (s : pv_state) : option pv_state :=
    match n with
    | O => Some s
    | S m =>
      let dir := spoke_dir num_dim ispoke (pv_basis s) (darts ispoke) in
      let '(alpha, nb) := trim_spoke (num_points - S ispoke)%nat (S ispoke) num_dim (pv_c s) (pv_r s) (pv_xst s) dir (dbl_max, 0%nat) in
      if Nat.eqb nb 0 then None
      else
        let xst := fun d => pv_xst s d + alpha * dir d in
        let c := swap_at (pv_c s) nb (S ispoke) in
        let r := swap_at (pv_r s) nb (S ispoke) in
        let '(_, v, _) := normal_component num_dim ispoke (pv_basis s) (fun d => c (S ispoke) d - c 0%nat d) in
        let '(basis, v) := complete_basis (num_dim - S ispoke)%nat (S ispoke) num_dim (set_vec (pv_basis s) ispoke v) v in
        pv_loop m (S ispoke) num_dim num_points darts {| pv_c := c; pv_r := r; pv_basis := basis; pv_xst := xst; pv_vect := v |}
    end.
  (** MeshingGeometricalMethods.cpp:216-223: one vector of the basis of the complement. *)
  Fixpoint project_out (n jb num_dim : nat) (basis : nat -> gvec) (vect : gvec) : gvec :=
    match n with
    | O => vect
    | S m =>
      let dot := range_sum 0 num_dim (fun d => vect d * basis jb d) in
      project_out m (S jb) num_dim basis (fun d => vect d - dot * basis jb d)
    end.
  (** MeshingGeometricalMethods.cpp:116-227 get_power_vertex of n spheres; [darts k] is the
      unit vector drawn for spoke k; [None]: false is returned.  With no sphere c[0] is out
      of range; with more than num_dim + 1 the basis is overrun. *)
  Definition power_vertex (num_dim num_points : nat) (centers : nat -> gvec) (radii : nat -> F) (darts : nat -> gvec) : res (option gvec) :=
    if Nat.eqb num_points 0 || Nat.ltb (num_dim + 1) num_points then UB
    else
      let axes := fun i d => if Nat.eqb d i then n1 else n0 in
      match pv_loop (num_points - 1)%nat 0 num_dim num_points darts
              {| pv_c := centers; pv_r := radii; pv_basis := axes; pv_xst := centers 0%nat; pv_vect := fun _ => n0 |} with
      | None => Ok None
      | Some s =>
        let v := project_out (num_dim - (num_points - 1))%nat (num_points - 1)%nat num_dim (pv_basis s)
                   (fun d => pv_xst s d - pv_c s 0%nat d) in
        Ok (Some (fun d => pv_c s 0%nat d + v d))
      end.
End Geometry.
