(** C41, C70: the files of the volume mesh. *)
From Coq Require Import Reals Lra.
From Verif Require Import Base Num SamplingSpec Vec KdSpec DenseQR Geometry GeometrySpec GeometryProofs Spheres PolyMesh PolyMeshProofs
  Regions RegionsSpec RegionsProofs Interior InteriorSpec InteriorTreeProofs InteriorProofs InteriorRunProofs SurfaceShrinkProofs
  MeshFiles MeshFilesSpec MeshFilesProofs.
Local Open Scope R_scope.
Notation fl := FloatInst.of_Z.

(** The cells are numbered 1, 2, ... without gaps in the order of the seeds, one line for each
    seed that is not a ghost, with its coordinates, its region and the sum of the pyramids
    over its faces; one line for each face in the order of the faces, with the numbers of its
    cells (the first one twice when the other side is a ghost), the midpoint of the seeds, the
    unit vector from the first to the second, and, for a plane convex face, its area.  The
    numbers announced are the numbers of lines. *)
Theorem C41_pflotran (seeds vertices : list (list R)) (regs : list nat) (faces rows : list (list nat)) m :
  length regs = length seeds -> mesh_of (length regs) faces ->
  (forall f, In f faces -> exists l i j, f = row l i j /\ (3 <= length l)%nat
     /\ Forall (fun k => (k < length vertices)%nat) l /\ nth i regs 0%nat <> 0%nat) ->
  (exists s, (s < length regs)%nat /\ nth s regs 0%nat <> 0%nat) ->
  cell_faces regs faces = Ok (rows, m) ->
  exists file idx (area : nat -> R), save_vcg seeds regs vertices faces rows = Ok file
    /\ meshed_seeds regs idx
    /\ vcg_ncells file = length (vcg_cells file) /\ vcg_nlinks file = length (vcg_links file)
    /\ length (vcg_cells file) = length idx /\ length (vcg_links file) = length faces
    /\ (forall k s, nth_error idx k = Some s -> exists c, nth_error (vcg_cells file) k = Some c
          /\ vc_number c = S k /\ vc_region c = nth s regs 0%nat
          /\ (forall d, (d < 3)%nat -> nth d (vc_seed c) 0 = nth d (nth s seeds []) 0)
          /\ vc_volume c = rsum (map (fun q => area q *
                (let f := nth q faces [] in
                 cdist (nth (nth (hd 0%nat f + 1) f 0%nat) seeds []) (nth (nth (hd 0%nat f + 2) f 0%nat) seeds []) / 2) / 3)
                (faces_around faces s)))
    /\ (forall k l i j, nth_error faces k = Some (row l i j) -> exists e a b, nth_error (vcg_links file) k = Some e
          /\ vl_from e = S a /\ vl_to e = S b /\ nth_error idx a = Some i
          /\ (nth j regs 0%nat <> 0%nat -> nth_error idx b = Some j) /\ (nth j regs 0%nat = 0%nat -> b = a)
          /\ (forall d, (d < 3)%nat -> nth d (vl_mid e) 0 = (nth d (nth i seeds []) 0 + nth d (nth j seeds []) 0) / 2)
          /\ (forall d, (d < 3)%nat -> nth d (vl_dir e) 0 = (nth d (nth j seeds []) 0 - nth d (nth i seeds []) 0) / cdist (nth i seeds []) (nth j seeds []))
          /\ vl_area e = area k
          /\ forall n, convex_polygon n (map (fun c => nth c vertices []) l) -> area k = polygon_area n (map (fun c => nth c vertices []) l)).
Proof.
  intros Hlen Hm Hc (s0 & Hs0 & Hn0) Hr.
  destruct (@new_index_ok regs) as (index & Ei & Li & Gi).
  destruct (@area_height_ok seeds regs vertices faces Hlen Hm Hc) as (ah & Ea & La & Ga).
  set (ar := area_of vertices faces) in *.
  assert (Hl : forall k f, nth_error faces k = Some f -> exists l i j, f = row l i j /\ (3 <= length l)%nat /\ (i < length regs)%nat /\ (j < length regs)%nat /\ nth i regs 0%nat <> 0%nat).
  { intros k f Ef. destruct (Hc f (nth_error_In _ _ Ef)) as (l & i & j & -> & L3 & _ & Hi). exists l, i, j.
    destruct (Hm _ (nth_error_In _ _ Ef)) as (i' & j' & Hb & Hi' & Hj'). apply face_seeds_ok in Hb. unfold row in Hb. rewrite row_face_seeds in Hb. injection Hb as <- <-. auto. }
  destruct (@mapr_total _ _ (write_link seeds regs index ah)
    (fun p e => forall l i j, snd p = row l i j -> e = link_line seeds regs vertices faces index (fst p) i j) (numbered faces)) as (links & El & HL).
  { intros [k f] Hin. apply in_numbered in Hin. destruct (Hl k f Hin) as (l & i & j & -> & _). cbn [fst snd].
    exists (link_line seeds regs vertices faces index k i j). split; [apply (@write_link_ok seeds regs vertices faces Hlen Hm index ah k l i j Li Ga Hin)|].
    intros l' i' j' E. pose proof (f_equal face_seeds E) as E'. unfold row in E'. rewrite !row_face_seeds in E'. injection E' as -> ->. reflexivity. }
  pose proof (@idx_meshed regs) as HI.
  exists (Vcg (length (idx_of regs)) (map (cell_line seeds regs vertices faces index) (idx_of regs)) (length faces) links), (idx_of regs), ar.
  assert (LL : length links = length faces). { rewrite <- (Forall2_len HL). unfold numbered. rewrite combine_length, seq_length. lia. }
  assert (Inj : forall s k, nth_error (idx_of regs) k = Some s -> nth s index 0%nat = k).
  { intros s k Ek. assert (Hin : In s (idx_of regs)) by (eapply nth_error_In; eauto). apply HI in Hin. destruct Hin as (H1 & H2).
    destruct (Gi s H1 H2) as (k' & E1 & E2). rewrite (nth_error_nth _ _ 0%nat E1).
    assert (ND : NoDup (idx_of regs)) by (unfold idx_of; apply NoDup_filter, seq_NoDup).
    apply (proj1 (NoDup_nth_error _) ND); [apply nth_error_Some; congruence|congruence]. }
  split.
  { unfold save_vcg. rewrite Ei, Ea. cbn [bind]. rewrite (@write_cells_ok seeds regs vertices faces rows m Hlen Hm Hr index ah Li Ga). cbn [bind].
    rewrite El. cbn [bind]. destruct (Nat.eqb_spec (length (idx_of regs)) 0) as [E0|]; [|reflexivity].
    exfalso. apply length_zero_iff_nil in E0. assert (Hin : In s0 (idx_of regs)) by (apply HI; auto). rewrite E0 in Hin. destruct Hin. }
  cbn [vcg_ncells vcg_cells vcg_nlinks vcg_links]. rewrite !map_length, LL.
  split; [exact HI|]. split; [reflexivity|]. split; [reflexivity|]. split; [reflexivity|]. split; [reflexivity|]. split.
  - intros k s Ek. eexists. split; [rewrite nth_error_map, Ek; reflexivity|]. unfold cell_line. cbn [vc_number vc_region vc_seed vc_volume].
    split; [now rewrite (Inj s k Ek)|]. split; [reflexivity|]. split; [|reflexivity].
    intros d Hd. destruct d as [|[|[|d]]]; [reflexivity|reflexivity|reflexivity|lia].
  - intros k l i j Ef. destruct (Hl k _ Ef) as (l' & i' & j' & E & L3 & Hi & Hj & Hri).
    pose proof (f_equal face_seeds E) as E'. unfold row in E'. rewrite !row_face_seeds in E'. injection E' as <- <-.
    assert (El' : l = l'). { unfold row in E. injection E as E1 E2. pose proof (f_equal (firstn (length l)) E2) as E3.
      rewrite firstn_app, Nat.sub_diag, firstn_all in E3. rewrite E1 in E3. rewrite firstn_app, Nat.sub_diag, firstn_all in E3. cbn [firstn] in E3. now rewrite !app_nil_r in E3. }
    subst l'. clear E.
    assert (Ep : nth_error (numbered faces) k = Some (k, row l i j)) by (rewrite numbered_nth, Ef; reflexivity).
    assert (Ee : exists e, nth_error links k = Some e /\ e = link_line seeds regs vertices faces index k i j).
    { destruct (@Forall2_at _ _ _ _ _ _ _ HL Ep) as (e & E1 & E2). exists e. split; [exact E1|]. apply (E2 l i j). reflexivity. }
    destruct Ee as (e & Ee & ->). destruct (Gi i Hi Hri) as (a & A1 & A2).
    assert (Na : nth i index 0%nat = a) by (now rewrite (nth_error_nth _ _ 0%nat A1)).
    exists (link_line seeds regs vertices faces index k i j), a, (if (nth j regs 0 =? 0)%nat then a else nth j index 0%nat).
    split; [exact Ee|]. unfold link_line. cbn [vl_from vl_to vl_mid vl_dir vl_area]. rewrite Na.
    split; [reflexivity|]. split; [reflexivity|]. split; [exact A2|]. split; [|split; [|split; [|split; [|split]]]].
    + intros Hrj. destruct (Nat.eqb_spec (nth j regs 0%nat) 0); [contradiction|]. destruct (Gi j Hj Hrj) as (b & B1 & B2). now rewrite (nth_error_nth _ _ 0%nat B1).
    + intros ->. reflexivity.
    + intros d Hd. destruct d as [|[|[|d]]]; [reflexivity|reflexivity|reflexivity|lia].
    + intros d Hd. destruct d as [|[|[|d]]]; [reflexivity|reflexivity|reflexivity|lia].
    + reflexivity.
    + intros n Hconv. rewrite <- (@fan_area n _ Hconv) by (rewrite map_length; exact L3). unfold ar, area_of. rewrite (nth_error_nth _ _ [] Ef). unfold row.
      rewrite firstn_app, Nat.sub_diag, firstn_all. cbn [firstn]. rewrite app_nil_r, map_length. reflexivity.
Qed.

(** Half the distance of the seeds, the height used for the volumes, is the distance from the
    seed to the plane of the face: every point that is as far from both seeds is at this
    height over the first one. *)
Theorem C41_height (x y q : list R) : 0 < cdist x y -> cdist q x = cdist q y ->
  dot 3 (fun d => (vec y d - vec x d) / cdist x y) (diff (vec q) (vec x)) = cdist x y / 2.
Proof.
  intros Hp E. assert (E2 : cdist q x * cdist q x = cdist q y * cdist q y) by now rewrite E.
  assert (S3 : forall u v, cdist u v * cdist u v = dot 3 (diff (vec u) (vec v)) (diff (vec u) (vec v))) by (intros; unfold cdist; apply vdist_sq).
  rewrite !S3 in E2. pose proof (S3 x y) as S1. rewrite !dot3 in *. unfold diff in *.
  apply Rmult_eq_reg_l with (cdist x y); [|lra]. 
  replace (cdist x y * (cdist x y / 2)) with (cdist x y * cdist x y / 2) by lra. rewrite S1.
  replace (cdist x y * _) with ((vec y 0%nat - vec x 0%nat) * (vec q 0%nat - vec x 0%nat) + (vec y 1%nat - vec x 1%nat) * (vec q 1%nat - vec x 1%nat)
    + (vec y 2%nat - vec x 2%nat) * (vec q 2%nat - vec x 2%nat)) by (field; lra).
  lra.
Qed.

(** The direction of a line of the file is a unit vector when the seeds differ. *)
Theorem C41_unit (x y : list R) : 0 < cdist x y ->
  dot 3 (fun d => (vec y d - vec x d) / cdist x y) (fun d => (vec y d - vec x d) / cdist x y) = 1.
Proof.
  intros Hp. pose proof (vdist_sq 3 (vec y) (vec x)) as S1. fold (cdist y x) in S1. rewrite cdist_sym in S1. rewrite !dot3 in *.
  set (c := cdist x y) in *. 
  match type of S1 with _ = ?t => transitivity (t / (c * c)) end; [field; lra|]. rewrite <- S1. field. lra.
Qed.

(** Without any cell the average number of connections is an integer division by zero. *)
Theorem C41_no_cells_refuted (seeds vertices : list (list R)) (regs : list nat) : Forall (fun r => r = 0%nat) regs -> length regs = length seeds ->
  save_vcg seeds regs vertices [] (repeat [] (length regs)) = UB.
Proof.
  intros H0 L. unfold save_vcg. destruct (@new_index_ok regs) as (index & -> & _ & _).
  assert (E0 : idx_of regs = []).
  { destruct (idx_of regs) as [|s t] eqn:E; [reflexivity|]. exfalso. assert (Hin : In s (idx_of regs)) by (rewrite E; now left).
    apply idx_meshed in Hin. destruct Hin as (H1 & H2). apply H2. rewrite Forall_forall in H0. apply H0, nth_In, H1. }
  rewrite E0. cbn [length area_height mapr bind]. unfold write_cells.
  assert (G : forall l, (forall s, In s l -> (s < length regs)%nat) -> forall out : list (vcg_cell R),
    fold_res (fun s out => r <- get regs s ;; if (r =? 0)%nat then Ok out
      else row <- get (repeat [] (length regs)) s ;; vol <- cell_volume [] row ;; k <- get index s ;; x <- get seeds s ;;
        Ok (out ++ [VCell (S k) [gv x 0%nat; gv x 1%nat; gv x 2%nat] vol r])) l out = Ok out).
  { induction l as [|s l IH]; intros Hl out; cbn [fold_res]; [reflexivity|]. rewrite (@get_nth _ regs s 0%nat) by (apply Hl; now left). cbn [bind].
    rewrite Forall_forall in H0. rewrite (H0 (nth s regs 0%nat)) by (apply nth_In, Hl; now left). cbn [Nat.eqb bind]. apply IH. intros; apply Hl; now right. }
  rewrite G; [reflexivity|]. intros s Hs. apply in_seq in Hs. lia.
Qed.

(** A unit cube between its seed and six ghosts: the faces of C41_hypotheses. *)
Definition cube_vertices : list (list Z) := [[0;0;0];[2;0;0];[2;2;0];[0;2;0];[0;0;2];[2;0;2];[2;2;2];[0;2;2]]%Z.
Definition cube_faces : list (list nat) :=
  [row [0;3;2;1] 0 1; row [4;5;6;7] 0 2; row [0;1;5;4] 0 3; row [3;7;6;2] 0 4; row [0;4;7;3] 0 5; row [1;2;6;5] 0 6]%nat.
Definition cube_seeds : list (list Z) := [[1;1;1];[1;1;-1];[1;1;3];[1;-1;1];[1;3;1];[-1;1;1];[3;1;1]]%Z.
Definition cube_regs : list nat := [1;0;0;0;0;0;0]%nat.
Example C41_hypotheses :
  mesh_of (length cube_regs) cube_faces
  /\ (forall f, In f cube_faces -> exists l i j, f = row l i j /\ (3 <= length l)%nat
       /\ Forall (fun k => (k < length cube_vertices)%nat) l /\ nth i cube_regs 0%nat <> 0%nat)
  /\ convex_polygon (vec [0; 0; 1]) (map (fun c => nth c (map (map IZR) cube_vertices) []) [4;5;6;7]%nat)
  /\ polygon_area (vec [0; 0; 1]) (map (fun c => nth c (map (map IZR) cube_vertices) []) [4;5;6;7]%nat) = 4.
Proof.
  split; [|split; [|split]].
  - intros f Hf. unfold cube_faces in Hf. cbn [In] in Hf.
    destruct Hf as [<-|[<-|[<-|[<-|[<-|[<-|[]]]]]]]; eexists _, _; (split; [eexists; reflexivity|cbn; lia]).
  - intros f Hf. unfold cube_faces in Hf. cbn [In] in Hf.
    destruct Hf as [<-|[<-|[<-|[<-|[<-|[<-|[]]]]]]]; eexists _, _, _; (split; [reflexivity|]); (split; [cbn; lia|]); (split; [repeat constructor; cbn; lia|cbn; lia]).
  - assert (C : forall i, exists k, (k < 4)%nat /\ (i mod 4 = k)%nat) by (intros i; exists (i mod 4)%nat; split; auto; apply Nat.mod_upper_bound; lia).
    split; [rewrite dot3; unfold vec; cbn [nth]; lra|]. unfold corner. cbn [map length nth cube_vertices]. split.
    + intros i k. destruct (C i) as (i' & Hi & ->). destruct (C k) as (k' & Hk & ->). rewrite dot3. unfold diff, vec.
      do 4 (destruct i' as [|i']; [do 4 (destruct k' as [|k']; [cbn [nth]; lra|]); lia|]). lia.
    + intros i k. destruct (C k) as (k' & Hk & ->). assert (Sm : (S i mod 4 = S (i mod 4) mod 4)%nat) by (rewrite <- (Nat.add_1_r i), <- (Nat.add_1_r (i mod 4)), Nat.add_mod_idemp_l by lia; reflexivity). rewrite Sm.
      destruct (C i) as (i' & Hi & ->). rewrite dot3. unfold vprod, diff, vec.
      do 4 (destruct i' as [|i']; [do 4 (destruct k' as [|k']; [change (1 mod 4)%nat with 1%nat; change (2 mod 4)%nat with 2%nat; change (3 mod 4)%nat with 3%nat; change (4 mod 4)%nat with 0%nat; cbn [nth]; lra|]); lia|]). lia.
  - unfold polygon_area, sumn, rsum, corner. cbn [map length nth cube_vertices seq fold_right].
    change (1 mod 4)%nat with 1%nat; change (2 mod 4)%nat with 2%nat; change (3 mod 4)%nat with 3%nat; change (4 mod 4)%nat with 0%nat; change (0 mod 4)%nat with 0%nat.
    rewrite !dot3. unfold vprod, vec. cbn [nth]. lra.
Qed.
(** The file of the cube in floating point: volume 8 up to rounding, six faces of area 4. *)
Example C41_run :
  match (match cell_faces cube_regs cube_faces with
         | Ok (rows, _) => save_vcg (map (map fl) cube_seeds) cube_regs (map (map fl) cube_vertices) cube_faces rows
         | _ => UB end) with
  | Ok file => vcg_ncells file = 1%nat /\ vcg_nlinks file = 6%nat
      /\ map (fun c => (vc_number c, PrimFloat.ltb (PrimFloat.abs (PrimFloat.sub (vc_volume c) (fl 8))) (PrimFloat.div (fl 1) (fl 1000000)))) (vcg_cells file) = [(1%nat, true)]
      /\ map (fun e => (vl_from e, vl_to e, PrimFloat.eqb (vl_area e) (fl 4))) (vcg_links file) = repeat (1%nat, 1%nat, true) 6
  | _ => False
  end.
Proof. vm_compute. auto. Qed.

(** ** C70: PLY files *)
(** All vertices and all faces in their order, and the numbers announced are those of the
    lines. *)
Theorem C70_ply (vertices : list (list R)) (faces : list (list nat)) :
  (forall f, In f faces -> exists l i j, f = row l i j) ->
  exists file, save_tessellation vertices faces = Ok file
    /\ ply_nv file = length (ply_vertices file) /\ length (ply_vertices file) = length vertices
    /\ ply_nf file = length (ply_faces file) /\ length (ply_faces file) = length faces
    /\ (forall k p, nth_error vertices k = Some p -> exists q, nth_error (ply_vertices file) k = Some q
          /\ length q = 3%nat /\ forall d, (d < 3)%nat -> nth d q 0 = nth d p 0)
    /\ (forall k l i j, nth_error faces k = Some (row l i j) -> nth_error (ply_faces file) k = Some (length l :: l)).
Proof.
  intros Hf. destruct (@mapr_total _ _ ply_row (fun f r => forall l i j, f = row l i j -> r = length l :: l) faces) as (rows & Er & HR).
  { intros f Hin. destruct (Hf f Hin) as (l & i & j & ->). exists (length l :: l). split; [apply ply_row_ok|]. intros l' i' j' E.
    pose proof (f_equal ply_row E) as E'. unfold row in E'. rewrite !ply_row_ok in E'. congruence. }
  unfold save_tessellation. rewrite Er. cbn [bind]. eexists. split; [reflexivity|]. cbn [ply_nv ply_nf ply_vertices ply_faces].
  assert (L : length rows = length faces) by (symmetry; apply (Forall2_len HR)). unfold ply_points. rewrite map_length, L.
  split; [reflexivity|]. split; [reflexivity|]. split; [reflexivity|]. split; [reflexivity|]. split.
  - intros k p Ep. rewrite nth_error_map, Ep. cbn [option_map]. eexists. split; [reflexivity|]. split; [reflexivity|].
    intros d Hd. destruct d as [|[|[|d]]]; [reflexivity|reflexivity|reflexivity|lia].
  - intros k l i j Ek. destruct (@Forall2_at _ _ _ _ _ _ _ HR Ek) as (r & E1 & E2). rewrite E1. f_equal. apply (E2 l i j). reflexivity.
Qed.

(** With a plane: exactly the faces none of whose corners is behind the plane, in their
    order; the number announced is the number of lines. *)
Theorem C70_cut (vertices : list (list R)) (faces : list (list nat)) xo e :
  (forall f, In f faces -> exists l i j, f = row l i j /\ Forall (fun k => (k < length vertices)%nat) l) ->
  exists file keep, save_tessellation_cut vertices faces xo e = Ok file
    /\ ply_nv file = length vertices /\ length (ply_vertices file) = length vertices
    /\ positions_of (length faces) (fun k => forall l i j, nth_error faces k = Some (row l i j) -> forall c, In c l -> ~ behind xo e (nth c vertices [])) keep
    /\ ply_nf file = length (ply_faces file) /\ length (ply_faces file) = length keep
    /\ (forall q k l i j, nth_error keep q = Some k -> nth_error faces k = Some (row l i j) -> nth_error (ply_faces file) q = Some (length l :: l)).
Proof.
  intros Hf. apply cut_ok. exact Hf.
Qed.
(** The faces of the cube in front of the plane z = 1: only the upper one. *)
Example C70_run :
  match save_tessellation_cut (map (map fl) cube_vertices) cube_faces (map fl [0;0;1]%Z) (map fl [0;0;1]%Z) with
  | Ok file => ply_nv file = 8%nat /\ ply_nf file = 1%nat /\ ply_faces file = [[4;4;5;6;7]]%nat
  | _ => False
  end.
Proof. vm_compute. auto. Qed.
(** The header announces the numbers of corners as bytes (uchar); a face with 256 corners is
    written with the number 256. *)
Theorem C70_uchar_refuted : exists (vertices : list (list R)) faces file, save_tessellation vertices faces = Ok file
  /\ exists r, In r (ply_faces file) /\ (255 < hd 0 r)%nat.
Proof.
  exists [], [row (seq 0 256) 0%nat 1%nat], (Ply 0 1 [] [256%nat :: seq 0 256]). split.
  - unfold save_tessellation. cbn [mapr]. unfold row. rewrite ply_row_ok. rewrite seq_length. reflexivity.
  - exists (256%nat :: seq 0 256). split; [now left|]. cbn [hd]. apply Nat.ltb_lt. vm_compute. reflexivity.
Qed.

Print Assumptions C41_pflotran.
Print Assumptions C41_height.
Print Assumptions C70_ply.
Print Assumptions C70_cut.
