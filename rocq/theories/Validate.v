(** Model of validate_surface_mesh (MeshingVoroCrustSampler.cpp:3581-3700) and of the
    triangles it is given (1592-1602).  What is printed and the file surface_mesh.obj are not modelled.  A
    face is the list of its three corners (see PolyMesh.v). *)
From Verif Require Import Base Num KdTree SmartTree DenseQR Geometry Spheres PolyMesh.

Section Validate.
  Context {F : Type} `{Num F}.
  Local Open Scope num_scope.

  (** 3652-3658: if (i1 < ns) sphere[3] *= 0.95. *)
  Definition shrink_corner (i : nat) (ss : stree F) : res (stree F) :=
    if Nat.ltb i (st_n ss) then sp <- get_sphere ss i ;; set_radius ss i (gv sp 3%nat * nlit 95 2) else Ok ss.
  (** 3646-3683: the edge from corner i1 to corner i2. *)
  Definition check_edge (faces pf : list (list nat)) (i1 i2 : nat) (st : stree F * bool) : res (stree F * bool) :=
    let '(ss, wt) := st in
    let surf := Nat.ltb i1 (st_n ss) || Nat.ltb i2 (st_n ss) in
    num <- get_num_edge_faces faces pf i1 i2 ;;
    '(ss1, wt1) <- (if Nat.eqb num 1
                    then s1 <- shrink_corner i1 ss ;; s2 <- shrink_corner i2 s1 ;; Ok (s2, if surf then false else wt)
                    else Ok (ss, wt)) ;;
    if Nat.ltb 2 num && surf
    then s1 <- shrink_corner i1 ss1 ;; s2 <- shrink_corner i2 s1 ;; Ok (s2, false)
    else Ok (ss1, wt1).
  (** 3638-3684: the three edges of a face. *)
  Definition check_face (faces pf : list (list nat)) (f : list nat) (st : stree F * bool) : res (stree F * bool) :=
    fold_res (fun i st => i1 <- get f i ;; i2 <- get f (wrap3 i) ;; check_edge faces pf i1 i2 st) [0; 1; 2]%nat st.
  (** 3581-3700; the incidences (3607-3636) are built as in [build_point_faces]. *)
  Definition validate_surface_mesh (ss es cs : stree F) (faces : list (list nat)) : res (stree F * bool) :=
    pf <- build_point_faces (st_n ss + st_n es + st_n cs) faces ;;
    fold_res (check_face faces pf) faces (ss, true).

  (** 1592-1602: the triangles of the seeds: attrib[2..4]. *)
  Definition seed_face (a : option (list nat)) : res (list nat) :=
    match a with
    | None => UB
    | Some r => x <- get r 2 ;; y <- get r 3 ;; z <- get r 4 ;; Ok [x; y; z]
    end.
  Fixpoint each_face (l : list (option (list nat))) : res (list (list nat)) :=
    match l with
    | [] => Ok []
    | a :: t => f <- seed_face a ;; r <- each_face t ;; Ok (f :: r)
    end.
  Definition seed_faces (t : stree F) : res (list (list nat)) :=
    match st_att t with
    | None => if Nat.eqb (st_n t) 0 then Ok [] else UB
    | Some l => each_face (firstn (st_n t) l)
    end.
End Validate.
