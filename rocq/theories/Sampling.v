(** Model of the sampling functions of MeshingRandomSampler.cpp and of the
    active-pool searches of MeshingVoroCrustSampler.cpp.  The random generator
    is the stream [u : nat -> F] of the numbers it returns (RandomSampler.v shows
    they are in [0,1)); [k] is the number of draws already made. *)
From Verif Require Import Base Num MemoryHandler.
From Coq Require Import Reals.

Section Sampling.
  Context {F : Type} `{Num F}.
  Variable u : nat -> F.
  Local Open Scope num_scope.

  (** MeshingRandomSampler.cpp:165-175 sample_uniformly_from_box
      (num_dim = length of xmin; one draw per coordinate). *)
  Fixpoint box_sample (k : nat) (xmin xmax : list F) : res (list F) :=
    match xmin, xmax with
    | [], _ => Ok []
    | a :: ta, b :: tb =>
      t <- box_sample (S k) ta tb ;; Ok ((a + u k * (b - a)) :: t)
    | _ :: _, [] => UB
    end.

  (** MeshingRandomSampler.cpp:205-211: u[0]=0, u[1..n-1] random, u[n]=1. *)
  Definition simplex_breaks (k n : nat) : list F :=
    n0 :: map (fun i => u (k + i)) (seq 0 (n - 1)) ++ [n1].

  (** MeshingRandomSampler.cpp:216  v[ic] = u[ic+1] - u[ic]. *)
  Fixpoint diffs (l : list F) : list F :=
    match l with
    | a :: (b :: _) as t => (b - a) :: diffs t
    | _ => []
    end.

  (** MeshingRandomSampler.cpp:222  dart[idim] += v[ic] * x[ic][idim]
      for every idim < num_dim. *)
  Fixpoint axpy (v : F) (x dart : list F) : res (list F) :=
    match dart, x with
    | [], _ => Ok []
    | d :: td, c :: tc => t <- axpy v tc td ;; Ok ((d + v * c) :: t)
    | _ :: _, [] => UB
    end.
  Fixpoint combine_corners (v : list F) (x : list (list F)) (dart : list F) : res (list F) :=
    match v, x with
    | [], _ => Ok dart
    | a :: tv, c :: tx => d <- axpy a c dart ;; combine_corners tv tx d
    | _ :: _, [] => UB
    end.

  (** MeshingRandomSampler.cpp:202-229 sample_uniformly_from_simplex.  [n] is
      num_corners; num_corners = 0 would give u[0]=1 only, with n = 0 the C++
      sorts the single cell 0. *)
  Definition simplex_sample (k num_dim n : nat) (x : list (list F)) : res (list F) :=
    let br := if (n =? 0)%nat then [n1] else simplex_breaks k n in
    s <- quicksort nltb br 0 n ;;
    combine_corners (diffs s) x (repeat n0 num_dim).

  (** MeshingRandomSampler.cpp:246-262, the binary search over the cdf.  [fuel]
      bounds the number of iterations of  while (true). *)
  Fixpoint cdf_search (fuel : nat) (cdf : list F) (U : F) (ist iend : nat) : res nat :=
    match fuel with
    | O => Fuel
    | S f =>
      let imid := ((ist + iend) / 2)%nat in
      ulo <- (if (0 <? imid)%nat then get cdf (imid - 1) else Ok n0) ;;
      uhi <- get cdf imid ;;
      if (ulo <=? U) && (U <=? uhi) then Ok imid
      else if U <? ulo then cdf_search f cdf U ist imid
      else cdf_search f cdf U (imid + 1) iend
    end.

  (** MeshingRandomSampler.cpp:231-264 sample_uniformly_from_discrete_cdf. *)
  Definition discrete_sample (k num_cells : nat) (cdf : list F) : res nat :=
    if (num_cells =? 0)%nat then UB (* cdf[num_cells - 1] *)
    else
      last <- get cdf (num_cells - 1) ;;
      if last =? n0 then
        let icell := Z.to_nat (ntrunc (nofZ (Z.of_nat num_cells) * u k)) in
        Ok (if (icell =? num_cells)%nat then (icell - 1)%nat else icell)
      else cdf_search (S num_cells) cdf (u k * last) 0 (num_cells - 1).

  (** MeshingVoroCrustSampler.cpp:2438-2454 and 2897-2913, the search shared by
      sample_active_edges_uniformly and sample_active_faces_uniformly. *)
  Fixpoint pool_search (fuel : nat) (cdf : list F) (U : F) (ist iend : nat) : res nat :=
    match fuel with
    | O => Fuel
    | S f =>
      if (ist <? iend)%nat then
        let imid := ((ist + iend) / 2)%nat in
        c <- get cdf imid ;;
        if U <? c then pool_search f cdf U ist imid
        else if c <? U then pool_search f cdf U (imid + 1) iend
        else Ok imid
      else Ok ist
    end.

  (** [size_t iend(_active_pool_size - 1)] with an empty pool wraps around. *)
  Definition pool_pick (U : F) (cdf : list F) : res nat :=
    match cdf with
    | [] => UB
    | _ => pool_search (S (length cdf)) cdf U 0 (length cdf - 1)
    end.

  (** MeshingVoroCrustSampler.cpp:2378, 2413, 2842
      for i = 1..n-1: cdf[i] += cdf[i-1]. *)
  Definition cumulate (cdf : list F) : res (list F) :=
    for_res (length cdf - 1) 1
      (fun i c => a <- get c i ;; b <- get c (i - 1) ;; set c i (a + b)) cdf.
  (** MeshingVoroCrustSampler.cpp:2379, 2414, 2843
      for i = 0..n-1: cdf[i] /= cdf[n-1]  (in place, the last one last). *)
  Definition normalise (cdf : list F) : res (list F) :=
    for_res (length cdf) 0
      (fun i c => a <- get c i ;; b <- get c (length cdf - 1) ;; set c i (a / b)) cdf.
  Definition make_cdf (sizes : list F) : res (list F) :=
    c <- cumulate sizes ;; normalise c.
End Sampling.

(** MeshingRandomSampler.cpp:178-200 sample_uniformly_from_unit_sphere, over the
    reals: [sample_uniformly_from_unit_sphere] calls log, cos, sin.  log(0) is
    minus infinity in C++ (the dart is then NaN) and is [UB] here, as is the
    division by a zero norm; num_dim = 0 writes dart[0] before testing. *)
Section UnitSphere.
  Variable u : nat -> R.
  Local Open Scope R_scope.
  Fixpoint gauss_fill (pairs : nat) (k : nat) (todo : nat) : res (list R) :=
    match pairs with
    | O => Fuel
    | S f =>
      let u1 := u k in
      let u2 := u (S k) in
      if Rleb u1 0 then UB else
      let r := sqrt (- 2 * ln u1) in
      let theta := 2 * PI * u2 in
      match todo with
      | O => UB
      | S O => Ok [r * cos theta]
      | S (S O) => Ok [r * cos theta; r * sin theta]
      | S (S m) => t <- gauss_fill f (S (S k)) m ;; Ok (r * cos theta :: r * sin theta :: t)
      end
    end.
  Definition sumsq (l : list R) : R := fold_left (fun s x => s + x * x) l 0.
  Definition unit_sphere_sample (k num_dim : nat) : res (list R) :=
    d <- gauss_fill (S num_dim) k num_dim ;;
    let norm := sumsq d in
    if Reqb norm 0 then UB else
    Ok (map (fun x => x * (1 / sqrt norm)) d).
End UnitSphere.
