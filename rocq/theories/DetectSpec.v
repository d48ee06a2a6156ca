(** What the detection of sharp features should report: Euclidean notions over R.  A cloud is a
    list of points, each with a unit vector and the number of its face or edge (the record
    cpoint of PointCloud.v). *)
From Coq Require Import Reals.
From Verif Require Import Base Num Vec KdSpec GeometrySpec PointCloud PointCloudSpec.
Local Open Scope R_scope.

Definition cpt : Type := @cpoint R.
(** From the cloud point [e] to [y], and the distance. *)
Definition view (y : list R) (e : cpt) : nat -> R := fun d => vec y d - vec (cp_x e) d.
Definition away (y : list R) (e : cpt) : R := norm 3 (view y e).
(** Cosine of the angle between the line of sight and the vector of the cloud point; the sine. *)
Definition cos_to (y : list R) (e : cpt) : R := dot 3 (view y e) (vec (cp_normal e)) / away y e.
Definition sin_to (y : list R) (e : cpt) : R := sqrt (1 - cos_to y e * cos_to y e).

(** [y] and the cloud point may lie on one smooth sheet: it is within the tolerance, or it is
    seen near its tangent plane.  On one smooth curve: seen near its tangent. *)
Definition same_sheet (thr tol : R) (y : list R) (e : cpt) : Prop := away y e <= tol \/ thr < sin_to y e.
Definition same_curve (thr tol : R) (y : list R) (e : cpt) : Prop := away y e <= tol \/ thr < Rabs (cos_to y e).
(** The sheet through [y] with one of the normals [ns]. *)
Definition explained (thr : R) (ns : list (list R)) (y : list R) (e : cpt) : Prop :=
  (away y e * away y e <= 1 / 10 ^ 10 \/ thr < sin_to y e)
  /\ exists n, In n ns /\ thr < Rabs (dot 3 (vec n) (vec (cp_normal e))).
(** [e] is the nearest point of the cloud that is not the same. *)
Definition facing (same : cpt -> Prop) (C : list cpt) (y : list R) (e : cpt) : Prop :=
  In e C /\ ~ same e /\ forall e', In e' C -> ~ same e' -> away y e <= away y e'.
Definition blind (same : cpt -> Prop) (C : list cpt) : Prop := forall e, In e C -> same e.

(** [h] is the distance from [y] to the face: not more than the distance to any of its points,
    and reached at a point of it (or of a sliver along one of its edges). *)
Definition face_dist (points : list (list R)) (f : list nat) (y : nat -> R) (h : R) : Prop :=
  let c := tri points f in
  (forall x, in_triangle c x -> h <= vdist 3 y x)
  /\ exists q m, h = vdist 3 y q /\ barycentric c m q /\ forall k, (k < 3)%nat -> 0 <= m k \/ sliver (moved c k q).
(** Edge [i] (0, 1, 2) of a face: smaller index first; its midpoint. *)
Definition next (i : nat) : nat := match i with 2%nat => 0%nat | _ => S i end.
Definition edge_of (f : list nat) (i : nat) : list nat :=
  let a := nth (S i) f 0%nat in let b := nth (S (next i)) f 0%nat in [Nat.min a b; Nat.max a b].
Definition middle (points : list (list R)) (f : list nat) (i : nat) : nat -> R :=
  fun d => (tri points f i d + tri points f (next i) d) / 2.
Definition centre (points : list (list R)) (f : list nat) : list R :=
  let c := tri points f in
  let x := fun d => (c 0%nat d + c 1%nat d + c 2%nat d) / 3 in [x 0%nat; x 1%nat; x 2%nat].

(** Distances h of [y] and h' of [z] from a face (or edge): [y] is clear of it and [z] touches it. *)
Definition parted (rmin h h' : R) : Prop := rmin < h /\ h' < rmin / 10.

(** A cloud of the faces: its points lie on their faces and have their normals; the corners of every face and the
    midpoints of its edges are among them. *)
Definition surface_cloud_of (points : list (list R)) (faces : list (list nat)) (C : list cpt) : Prop :=
  (forall e, In e C -> exists f, nth_error faces (cp_face e) = Some f /\ on_face points f (cp_x e) /\ normal_to points f (cp_normal e))
  /\ forall j f x, nth_error faces j = Some f -> In x (landmarks points f) -> exists e, In e C /\ cp_face e = j /\ cp_x e = x.

Section Features.
  Variables (points : list (list R)) (faces : list (list nat)) (thr rmin : R) (C : list cpt).
  Definition face (e : cpt) : list nat := nth (cp_face e) faces [].
  (** The face of the nearest cloud point that is not smooth seen from [y] parts (does not part) [y] and [z]. *)
  Definition face_parts (y : list R) (z : nat -> R) : Prop :=
    exists e h h', facing (same_sheet thr rmin y) C y e /\ face_dist points (face e) (vec y) h
      /\ face_dist points (face e) z h' /\ parted rmin h h'.
  Definition face_joins (y : list R) (z : nat -> R) : Prop :=
    exists e h h', facing (same_sheet thr rmin y) C y e /\ face_dist points (face e) (vec y) h
      /\ face_dist points (face e) z h' /\ ~ parted rmin h h'.
  (** Edge [i] of face [f] is sharp: a face that is not smooth with some point of [f], and clear of it,
      touches the midpoint of the edge. *)
  Definition sharp (f : list nat) (i : nat) : Prop :=
    exists y, on_face points f y /\ face_parts y (middle points f i).
  (** It is not: nothing that is not smooth is as near to the centre as the corners, or 100 points of the
      face show no such face. *)
  Definition blunt (f : list nat) (i : nat) : Prop :=
    (forall e, In e C -> ~ same_sheet thr rmin (centre points f) e ->
       forall k, (k < 3)%nat -> vdist 3 (vec (centre points f)) (tri points f k) < away (centre points f) e)
    \/ exists ys, length ys = 100%nat
         /\ forall y, In y ys -> on_face points f y /\ face_joins y (middle points f i).

  (** [w] is the normal of a face within rmin of the point, or the opposite of one that makes a small angle with [v]. *)
  Definition near_normal (x v : nat -> R) (w : list R) : Prop :=
    exists f n h, In f faces /\ normal_to points f n /\ face_dist points f x h /\ h < rmin
      /\ (w = n \/ w = map Ropp n /\ thr < dot 3 v (vec n)).
  (** The normals at point p: none if no face has p, else the normal of the first face with p and others near p
      at more than the smooth angle; the nearest cloud point they do not explain is too far, on a face that is too
      far, or has one of these normals up to the smooth angle. *)
  Definition corner_of (p : nat) (f : list nat) : Prop := exists i, (1 <= i <= 3)%nat /\ nth_error f i = Some p.
  Definition good_normals (feature : R) (p : nat) (ns : list (list R)) : Prop :=
    let x := nth p points [] in
    ((forall f, In f faces -> ~ corner_of p f) /\ ns = [])
    \/ (exists j f v rest, nth_error faces j = Some f /\ corner_of p f
          /\ (forall k g, (k < j)%nat -> nth_error faces k = Some g -> ~ corner_of p g)
          /\ normal_to points f v /\ ns = v :: rest
          /\ Forall (near_normal (vec x) (vec v)) rest
          /\ ForallOrdPairs (fun a b => dot 3 (vec a) (vec b) <= thr) ns
          /\ ((forall e, In e C -> ~ explained thr ns x e -> feature <= away x e)
              \/ exists e h, facing (explained thr ns x) C x e /\ face_dist points (face e) (vec x) h
                   /\ (rmin <= h \/ exists n, In n ns /\ thr < dot 3 (vec n) (vec (cp_normal e))))).

  Section Edges.
    Variable es : list (list nat).
    Definition end1 (i : nat) : nat := nth 0 (nth i es []) 0%nat.
    Definition end2 (i : nat) : nat := nth 1 (nth i es []) 0%nat.
    Definition at1 (i : nat) : nat -> R := vec (nth (end1 i) points []).
    Definition at2 (i : nat) : nat -> R := vec (nth (end2 i) points []).
    Definition length_of (i : nat) : R := vdist 3 (at1 i) (at2 i).
    Definition all_length : R := sumn (length es) length_of.
    (** The points of the cloud on edge i: its ends and the points that divide it in [num] + 1 equal parts, each
        with the unit direction of the edge.  The parts are shorter than [sp]; there are at least six of them, and not
        more than needed. *)
    Definition edge_samples (sp : R) (i : nat) (l : list cpt) : Prop :=
      exists num dir, (5 <= num)%nat /\ length_of i < sp * INR (num + 1) /\ (num = 5%nat \/ INR num * sp <= length_of i)
        /\ length dir = 3%nat /\ unit 3 (vec dir) /\ (forall d, (d < 3)%nat -> vec dir d = (at2 i d - at1 i d) / length_of i)
        /\ length l = S (S num)
        /\ (forall e, In e l -> length (cp_x e) = 3%nat /\ cp_normal e = dir /\ cp_face e = i)
        /\ (forall e d, nth_error l 0 = Some e -> (d < 3)%nat -> vec (cp_x e) d = at1 i d)
        /\ (forall e d, nth_error l 1 = Some e -> (d < 3)%nat -> vec (cp_x e) d = at2 i d)
        /\ (forall j e d, (1 <= j <= num)%nat -> nth_error l (S j) = Some e -> (d < 3)%nat ->
              vec (cp_x e) d = at1 i d + INR j / INR (num + 1) * (at2 i d - at1 i d)).
    (** The whole edge cloud. *)
    Definition edge_cloud_of (sp : R) (E : list cpt) : Prop :=
      exists blocks, E = concat blocks /\ length blocks = length es
        /\ forall i l, nth_error blocks i = Some l -> edge_samples sp i l.

    Variables (sp : R) (E : list cpt).
    (** Distance from an edge. *)
    Definition edge_dist (i : nat) (y : nat -> R) (h : R) : Prop :=
      exists q, on_segment (at1 i) (at2 i) q /\ h = vdist 3 y q /\ forall x, on_segment (at1 i) (at2 i) x -> h <= vdist 3 y x.
    Definition edge_parts (y : list R) (z : nat -> R) : Prop :=
      exists e h h', facing (same_curve thr (1 / 10 ^ 10) y) E y e /\ edge_dist (cp_face e) (vec y) h
        /\ edge_dist (cp_face e) z h' /\ parted rmin h h'.
    Definition edge_joins (y : list R) (z : nat -> R) : Prop :=
      exists e h h', facing (same_curve thr (1 / 10 ^ 10) y) E y e /\ edge_dist (cp_face e) (vec y) h
        /\ edge_dist (cp_face e) z h' /\ ~ parted rmin h h'.
    (** [y] is a point of edge i within twice the spacing of one of its ends. *)
    Definition near_end (i : nat) (y : list R) : Prop :=
      length y = 3%nat /\ on_segment (at1 i) (at2 i) (vec y)
      /\ (vdist 3 (vec y) (at1 i) <= 2 * sp \/ vdist 3 (vec y) (at2 i) <= 2 * sp).
    Definition mid_edge (i : nat) : list R :=
      let m := fun d => (at1 i d + at2 i d) / 2 in [m 0%nat; m 1%nat; m 2%nat].
    (** Point p, an end of edge i, is a corner because of the edge: seen from a place near an end of
        the edge, another edge or a face that is not smooth and clear of the place touches p. *)
    Definition turns (i p : nat) : Prop :=
      exists y, near_end i y /\ (edge_parts y (vec (nth p points [])) \/ face_parts y (vec (nth p points []))).
    Definition goes_on (y : list R) (p : nat) : Prop :=
      edge_joins y (vec (nth p points [])) /\ face_joins y (vec (nth p points [])).
    (** Edge i alone gives no corner: nothing across within half its length from its midpoint; or 100 places near
        its ends, the ends among them, show nothing for an end that is not in [M]. *)
    Definition examined (M : nat -> Prop) (i : nat) : Prop :=
      (forall e, In e E -> ~ same_curve thr (1 / 10 ^ 10) (mid_edge i) e -> length_of i / 2 < away (mid_edge i) e)
      \/ exists ys, length ys = 100%nat
           /\ (forall d, (d < 3)%nat -> vec (nth 0 ys []) d = at1 i d) /\ (forall d, (d < 3)%nat -> vec (nth 50 ys []) d = at2 i d)
           /\ forall y, In y ys -> near_end i y
                /\ (M (end1 i) \/ goes_on y (end1 i)) /\ (M (end2 i) \/ goes_on y (end2 i)).
    (** The corners: the points where an edge turns, the points with three normals or more, and the points with two
        normals on no sharp edge. *)
    Definition good_corners (normals : list (list (list R))) (l : list nat) : Prop :=
      NoDup l /\ exists M : nat -> Prop,
        (forall p, M p -> exists i, (i < length es)%nat /\ (p = end1 i \/ p = end2 i) /\ turns i p)
        /\ (forall i, (i < length es)%nat -> examined M i)
        /\ forall p, In p l <-> (p < length points)%nat
             /\ (M p \/ (2 < length (nth p normals []))%nat
                 \/ (1 < length (nth p normals []))%nat /\ forall i, (i < length es)%nat -> p <> end1 i /\ p <> end2 i).
  End Edges.

  (** The sharp edges, face by face. *)
  Definition good_edges (es : list (list nat)) : Prop :=
    exists pick : nat -> nat -> bool,
      es = flat_map (fun j => map (edge_of (nth j faces [])) (filter (pick j) [0; 1; 2]%nat)) (seq 0 (length faces))
      /\ forall j f i, nth_error faces j = Some f -> (i < 3)%nat -> if pick j i then sharp f i else blunt f i.
End Features.

(** Faces the detection can work with: three different points, no sliver, edges of 1e-10 or more. *)
Definition good_face (points : list (list R)) (f : list nat) : Prop :=
  valid_face points f /\ ~ degenerate points f
  /\ forall i, (i < 3)%nat -> 1 / 10 ^ 10 <= vdist 3 (tri points f i) (tri points f (next i)).
(** Coordinates for which distances stay below DBL_MAX. *)
Definition in_range (points : list (list R)) : Prop :=
  forall p, In p points -> length p = 3%nat /\ forall d, Rabs (vec p d) <= @dbl_max R _ / 4.
