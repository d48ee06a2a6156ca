(** C86: what a surface mesh holds after its construction. *)
From Coq Require Import Floats Reals Lra.
From Verif Require Import Base Num Vec Geometry GeometrySpec PolyMesh PolyMeshSpec FeatureSpec MeshFeatures MeshFeaturesSpec
  MeshFeaturesProofs MeshFeaturesBuildProofs PropsPolyMesh.
Local Open Scope list_scope.
Local Open Scope nat_scope.

(** The points in use in their order, the faces renumbered and perhaps all turned around, their normals, and exactly
    the sharp edges and corners; the query finds the sharp edges; the reported angle is the smallest. *)
Theorem C86_construction garbage (thr : R) (points : list (list R)) (faces : list (list nat)) :
  proper_triangles (length points) faces -> clean points faces -> consistent faces -> faces <> [] -> bounded points ->
  exists m K faces1, process_model garbage thr points faces = Ok m
    (* the points in use *)
    /\ ascending K /\ (forall p, In p K <-> used faces p)
    /\ map Some (pm_points m) = map (nth_error points) K
    (* the faces *)
    /\ map (shape (pm_points m)) faces1 = map (shape points) faces
    /\ (pm_faces m = faces1 \/ all_turned faces1 (pm_faces m))
    /\ proper_triangles (length (pm_points m)) (pm_faces m) /\ consistent (pm_faces m)
    (* their normals *)
    /\ length (pm_normals m) = length (pm_faces m)
    /\ (forall i d, i < length (pm_faces m) -> d < 3 -> at_point (pm_normals m) i d = unit_normal (pm_points m) (nth i (pm_faces m) []) d)
    (* the features *)
    /\ right_features thr (pm_points m) (pm_faces m) (pm_edges m) (pm_corners m)
    /\ least_facing thr (pm_points m) (pm_faces m) (pm_smooth m)
    (* the query *)
    /\ forall a b, a < length (pm_points m) -> a <> b ->
         exists r, pm_sharp_edge m a b = Ok r /\ (r = true <-> is_sharp_edge thr (pm_points m) (pm_faces m) a b).
Proof. exact (@process_ok garbage thr points faces). Qed.

(** Turning all faces does not change which edges and corners are sharp, nor the tips of cones. *)
Theorem C86_turned_same (thr : R) pts faces faces' : proper_triangles (length pts) faces -> all_turned faces faces' ->
  (forall a b, is_sharp_edge thr pts faces a b <-> is_sharp_edge thr pts faces' a b)
  /\ (forall p, is_mesh_corner thr pts faces p <-> is_mesh_corner thr pts faces' p).
Proof.
  intros Hp (L & Ht).
  assert (Sc : same_corners faces faces'). { split; auto. intros i f f' E1 E2. apply (Ht i f f' E1 E2). }
  assert (Fc : forall i j, i < length faces -> j < length faces -> facing pts faces' i j = facing pts faces i j).
  { intros i j Hi Hj. unfold facing.
    assert (N : forall k, k < length faces -> forall d, d < 3 -> unit_normal pts (nth k faces' []) d = (- unit_normal pts (nth k faces []) d)%R).
    { intros k Hk d Hd. destruct Hp as (Hl & Hn). assert (Hin : In (nth k faces []) faces) by (apply nth_In; auto).
      destruct (Ht k (nth k faces []) (nth k faces' [])) as (P & O); try (apply nth_error_nth'; lia).
      apply unit_turned; auto; [apply Hl; auto|]. intros x y. symmetry. apply O. }
    rewrite !GeometryProofs.dot3, !N by (auto; lia). ring. }
  assert (Wl : forall a b k, In k (faces_with faces a b) -> k < length faces).
  { intros a b k Hk. apply PolyMeshProofs.faces_with_in in Hk. tauto. }
  assert (W : forall a b, faces_with faces a b = faces_with faces' a b) by (intros; now apply PolyMeshOrientProofs.same_corners_with).
  assert (S : forall a b, is_sharp_edge thr pts faces a b <-> is_sharp_edge thr pts faces' a b).
  { intros a b. unfold is_sharp_edge. rewrite <- W. split; intros (H1 & H2); (split; auto); intros i j E; specialize (H2 i j E);
      assert (Hi : i < length faces) by (apply (Wl a b); rewrite E; simpl; auto);
      assert (Hj : j < length faces) by (apply (Wl a b); rewrite E; simpl; auto);
      specialize (Fc i j Hi Hj); unfold facing in Fc; congruence. }
  split; auto. intros p. unfold is_mesh_corner, is_sharp_corner, cone_tip. rewrite L.
  assert (I : forall i q, In q (nth i faces []) <-> In q (nth i faces' [])).
  { intros i q. pose proof (PolyMeshOrientProofs.same_corners_nth i Sc) as P. split; apply Permutation_in; auto. now symmetry. }
  assert (C1 : forall Q : list nat, (forall q, In q Q <-> q <> p /\ is_sharp_edge thr pts faces p q) <-> (forall q, In q Q <-> q <> p /\ is_sharp_edge thr pts faces' p q)).
  { intros Q. split; intros H q; rewrite H, (S p q); tauto. }
  assert (C2 : forall i j, (forall q, In q (nth i faces []) /\ In q (nth j faces []) <-> q = p) <-> (forall q, In q (nth i faces' []) /\ In q (nth j faces' []) <-> q = p)).
  { intros i j. split; intros H q; specialize (H q); rewrite (I i q), (I j q) in *; auto. }
  split; intros [(Q & H1 & H2 & H3)|(H1 & i & j & Hi & Hj & Hij & H2 & H3)].
  - left. exists Q. split; auto. split; auto. now apply C1.
  - right. split; [intros q Hq Hs; apply (H1 q Hq); now apply S|]. exists i, j. rewrite Fc by auto. split; auto. split; auto. split; auto. split; auto. now apply C2.
  - left. exists Q. split; auto. split; auto. now apply C1.
  - right. split; [intros q Hq Hs; apply (H1 q Hq); now apply S|]. exists i, j. rewrite Fc in H3 by auto. split; auto. split; auto. split; auto. split; auto. now apply C2.
Qed.

(** ** What fails *)
Definition toF (pts : list (list Z)) : list (list float) := map (map (@nofZ float _)) pts.
(** Six times the volume enclosed by the faces, positive if they run anticlockwise seen from outside. *)
Definition volume6 (pts : list (list Z)) (faces : list (list nat)) : Z :=
  fold_right Z.add 0%Z (map (fun f =>
    let x (k d : nat) := nth d (nth (nth k f 0) pts []) 0%Z in
    (x 0%nat 0%nat * (x 1%nat 1%nat * x 2%nat 2%nat - x 1%nat 2%nat * x 2%nat 1%nat) - x 0%nat 1%nat * (x 1%nat 0%nat * x 2%nat 2%nat - x 1%nat 2%nat * x 2%nat 0%nat) + x 0%nat 2%nat * (x 1%nat 0%nat * x 2%nat 1%nat - x 1%nat 1%nat * x 2%nat 0%nat))%Z) faces).

(** A closed surface whose faces all look outward is turned inside out: the face examined is the first at the point nearest
    to a corner outside the box, and it need not look towards that corner. *)
Theorem C86_outward_refuted : exists (pts : list (list Z)) faces,
  proper_triangles (length pts) faces /\ consistent faces /\ (forall f a b, In f faces -> runs f a b -> length (faces_with faces a b) = 2)
  /\ (0 < volume6 pts faces)%Z
  /\ exists m, process_model false (nlit 9 1) (toF pts) faces = Ok m /\ pm_points m = toF pts /\ (volume6 pts (pm_faces m) < 0)%Z.
Proof.
  exists [[0; 0; 0]; [10; 0; 0]; [10; 1; 0]; [10; 0; 1]]%Z, [[0; 3; 2]; [0; 2; 1]; [0; 1; 3]; [1; 2; 3]]. split; [apply properb_ok; reflexivity|].
  split; [apply consistentb_ok; [simpl; intuition (subst; reflexivity)|reflexivity]|]. split.
  { intros f a b Hf Hr. simpl in Hf. destruct Hf as [<-|[<-|[<-|[<-|[]]]]]; apply PolyMeshOrientProofs.runs3 in Hr;
      destruct Hr as [(-> & ->)|[(-> & ->)|(-> & ->)]]; reflexivity. }
  split; [vm_compute; reflexivity|].
  eexists. split; [vm_compute; reflexivity|]. split; vm_compute; reflexivity.
Qed.
(** Faces that are not consistent are made so, but their normals are not: the edge between two faces in one plane is sharp. *)
Theorem C86_flat_refuted : exists (pts : list (list Z)) faces m,
  (forall p, In p pts -> nth 2 p 0%Z = 0%Z)
  /\ process_model false (nlit 9 1) (toF pts) faces = Ok m /\ pm_points m = toF pts
  /\ consistent (pm_faces m) /\ faces_with (pm_faces m) 1 2 = [0; 1] /\ In (1, 2) (pm_edges m).
Proof.
  exists [[0; 0; 0]; [1; 0; 0]; [0; 1; 0]; [1; 1; 0]]%Z, [[0; 1; 2]; [1; 2; 3]]. eexists.
  split; [simpl; intuition (subst; reflexivity)|]. split; [vm_compute; reflexivity|]. split; [reflexivity|].
  split; [apply consistentb_ok; [simpl; intuition (subst; reflexivity)|reflexivity]|]. split; [reflexivity|]. simpl. tauto.
Qed.

(** ** Examples *)
Example C86_hypotheses : proper_triangles (length corner4) tetra /\ clean corner4 tetra /\ consistent tetra /\ tetra <> [] /\ bounded corner4.
Proof.
  assert (Hp : proper_triangles (length corner4) tetra) by (apply properb_ok; reflexivity).
  split; auto. split; [now apply corner4_clean|]. split; [apply consistentb_ok; [simpl; intuition (subst; reflexivity)|reflexivity]|].
  split; [discriminate|]. intros p d Hin Hd. apply Rle_trans with 1%R; [|apply IZR_le; vm_compute; discriminate].
  simpl in Hin. destruct d as [|[|[|]]]; try lia; intuition (subst; cbn [nth]; unfold Rabs; destruct (Rcase_abs _); lra).
Qed.
(** Two tetrahedra tip to tip and a point in no face; only angles above 160 degrees count: the tip is the only feature. *)
Definition tip_to_tip : list (list Z) := [[7; 7; 7]; [0; 0; 0]; [1; 0; 0]; [0; 1; 0]; [0; 0; 1]; [-1; 0; 0]; [0; -1; 0]; [0; 0; -1]]%Z.
Definition tip_faces : list (list nat) :=
  [[1; 3; 2]; [1; 2; 4]; [1; 4; 3]; [2; 3; 4]; [1; 5; 6]; [1; 7; 5]; [1; 6; 7]; [5; 7; 6]].
Example C86_run : exists m, process_model false (- nlit 94 2)%num (toF tip_to_tip) tip_faces = Ok m
  /\ pm_points m = tl (toF tip_to_tip) /\ length (pm_faces m) = 8 /\ pm_edges m = [] /\ pm_corners m = [0].
Proof. eexists. split; [vm_compute; reflexivity|]. repeat split; reflexivity. Qed.
(** A cube corner with a threshold of 0.9: every edge and every point. *)
Example C86_run_tetra : exists m, process_model false (nlit 9 1) (toF [[0; 0; 0]; [1; 0; 0]; [0; 1; 0]; [0; 0; 1]]%Z) tetra = Ok m
  /\ pm_edges m <> [] /\ length (pm_edges m) = 6 /\ pm_corners m = [0; 1; 2; 3] /\ pm_sharp_edge m 3 1 = Ok true.
Proof. eexists. split; [vm_compute; reflexivity|]. repeat split; try reflexivity. discriminate. Qed.

Print Assumptions C86_construction.
Print Assumptions C86_turned_same.
Print Assumptions C86_outward_refuted.
Print Assumptions C86_flat_refuted.
