(** What the model read from OBJ files should be. *)
From Coq Require Import Reals Lra.
From Verif Require Import Base Vec KdSpec Text TextSpec PolyMeshSpec.
Local Open Scope R_scope.

(** The same point, or one closer than eps. *)
Definition near (eps : R) (x y : list R) : Prop := x = y \/ vdist 3 (vec x) (vec y) < eps.

(** The triangles of a file, and of the model, by the places of their corners. *)
Definition file_triangles (o : obj R) : list (list (list R)) :=
  map (map (fun z => nth (Z.to_nat z) (ob_pts o) [])) (ob_faces o).
Definition model_triangles (pts : list (list R)) (faces : list (list nat)) : list (list (list R)) :=
  map (map (fun c => nth c pts [])) faces.

(** Two corners of the triangle are taken for one point q. *)
Definition shrinks (eps : R) (q : list R) (t : list (list R)) : Prop :=
  exists i j, (i < j < length t)%nat /\ near eps (nth i t []) q /\ near eps (nth j t []) q.

(** The model [pts], [faces] holds the triangles of the files [os]: *)
Record holds (eps : R) (os : list (obj R)) (pts : list (list R)) (faces : list (list nat)) : Prop := {
  (* its points are points of the files, and no two are closer than 10^-8; *)
  h_points : forall p, In p pts -> exists o, In o os /\ In p (ob_pts o);
  h_apart : forall i j, (i < length pts)%nat -> (j < length pts)%nat -> i <> j ->
    1 / 10 ^ 8 <= vdist 3 (vec (nth i pts [])) (vec (nth j pts []));
  (* every point of the files has one near it; *)
  h_near : forall o p, In o os -> In p (ob_pts o) -> exists q, In q pts /\ near eps p q;
  (* its faces are triangles of its points; *)
  h_valid : forall f, In f faces -> length f = 3%nat /\ forall c, In c f -> (c < length pts)%nat;
  (* the triangles of the files are those of the model, up to eps at each corner, and
     some of which two corners were taken for one point; *)
  h_triangles : exists kept lost,
    Permutation (flat_map file_triangles os) (kept ++ lost)
    /\ Forall2 (Forall2 (near eps)) kept (model_triangles pts faces)
    /\ forall t, In t lost -> exists o q, In o os /\ In q (ob_pts o) /\ shrinks eps q t;
  (* no face has a corner twice, unless one of a file has. *)
  h_proper : (forall o f, In o os -> In f (ob_faces o) -> NoDup f) -> forall f, In f faces -> NoDup f }.
