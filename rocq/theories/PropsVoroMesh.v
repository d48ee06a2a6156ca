(** C42: the polygons extracted from the Voronoi cells. *)
From Coq Require Import Reals Lra Relations.
From Verif Require Import Base Num SamplingSpec Vec KdSpec KdTree SmartTree DenseQR Geometry GeometryProofs Spheres
  PolyMesh PolyMeshProofs Regions RegionsProofs MonitorProofs KdQueryProofs SpokeFlatProofs Interior InteriorSpec InteriorTreeProofs
  InteriorProofs InteriorRunProofs SurfaceShrinkProofs Voro VoroSpec VoroProofs PropsVoro VoroMesh VoroMeshSpec VoroMeshProofs VoroMeshRun.
Local Open Scope R_scope.

Lemma app_inj_tail_len2 (a b : list nat) i j i' j' : length a = length b -> a ++ [i; j] = b ++ [i'; j'] -> a = b /\ i = i' /\ j = j'.
Proof.
  intros L E. assert (Ea : a = b).
  { pose proof (f_equal (firstn (length a)) E) as G. rewrite firstn_app, Nat.sub_diag, firstn_all in G. rewrite L in G.
    rewrite firstn_app, Nat.sub_diag, firstn_all in G. cbn [firstn] in G. rewrite !app_nil_r in G. exact G. }
  subst b. apply app_inv_head in E. injection E as -> ->. auto.
Qed.

(** When the cells are found the extraction always succeeds (no bad index, the links are
    followed in at most 2 n steps, no walk runs on).  Every face is a polygon with at least
    three different vertices in range, between a seed i that is not a ghost and another seed
    j; two rows never have the same seeds, in either order; every vertex is a
    Voronoi vertex of a seed that is not a ghost, and every corner of a face of seed i is
    welded to a Voronoi vertex of i.  Missing from C42: that every vertex is used by a
    face. *)
Theorem C42_faces_partial d fuel cfuel seeds regs sizing cells :
  0 < d -> separated d seeds -> seeds <> [] ->
  length regs = length seeds -> length sizing = length seeds -> Forall (fun r => 0 < r) sizing ->
  voronoi_cells fuel cfuel seeds regs sizing = Ok cells ->
  exists vertices faces, voronoi_mesh fuel cfuel (2 * length seeds) seeds regs sizing = Ok (vertices, faces)
    /\ (forall p, In p vertices -> exists k, (k < length seeds)%nat /\ nth k regs 0%nat <> 0%nat /\ voronoi_vertex d (nth k seeds []) seeds p)
    /\ (forall f, In f faces -> exists fc i j, face_row fc i j f /\ polygon (length vertices) fc /\ owner_pair regs i j /\ i <> j
         /\ forall k, In k fc -> exists p, voronoi_vertex d (nth i seeds []) seeds p /\ welded p (nth k vertices []))
    /\ (forall a b fc fc' i j, nth_error faces a = Some (length fc :: fc ++ [i; j]) ->
          (nth_error faces b = Some (length fc' :: fc' ++ [i; j]) \/ nth_error faces b = Some (length fc' :: fc' ++ [j; i])) -> a = b).
Proof.
  intros H1 H2 H3 H4 H5 H6 E. destruct (@voronoi_cells_Ok d fuel cfuel seeds regs sizing cells H1 H2 H3 H4 H5 H6 E) as (L & rank & R1 & R2 & G).
  destruct (@extract_ok d seeds regs rank cells L H4 R1 R2 G) as (vertices & faces & Em & P1 & P2 & P3).
  exists vertices, faces. unfold voronoi_mesh. rewrite E. cbn [bind]. split; [exact Em|]. split; [exact P1|]. split.
  - intros f Hf. destruct (P3 f Hf) as (fc & i & j & Q1 & Q2 & Q3 & Q4 & _ & Q6). exists fc, i, j. auto.
  - assert (Pair : forall a fc i j, nth_error faces a = Some (length fc :: fc ++ [i; j]) ->
      nth_error (map (fun f => (nth (length f - 2) f 0%nat, nth (length f - 1) f 0%nat)) faces) a = Some (i, j)).
    { intros a fc i j Ea. rewrite nth_error_map, Ea. cbn [option_map]. do 2 f_equal.
      - cbn [length]. rewrite app_length. cbn [length]. replace (S (length fc + 2) - 2)%nat with (S (length fc)) by lia. cbn [nth].
        rewrite app_nth2 by lia. now replace (length fc - length fc)%nat with 0%nat by lia.
      - cbn [length]. rewrite app_length. cbn [length]. replace (S (length fc + 2) - 1)%nat with (S (length fc + 1)) by lia. cbn [nth].
        rewrite app_nth2 by lia. now replace (length fc + 1 - length fc)%nat with 1%nat by lia. }
    assert (Own : forall a fc i j, nth_error faces a = Some (length fc :: fc ++ [i; j]) -> owner_pair regs i j /\ i <> j).
    { intros a fc i j Ea. destruct (P3 _ (nth_error_In _ _ Ea)) as (fc' & i' & j' & Q1 & _ & Q3 & Q4 & _). unfold face_row in Q1.
      injection Q1 as El Ef. apply app_inj_tail_len2 in Ef; [|exact El]. destruct Ef as (-> & -> & ->). auto. }
    intros a b fc fc' i j Ea [Eb|Eb].
    + pose proof (Pair _ _ _ _ Ea) as Pa. pose proof (Pair _ _ _ _ Eb) as Pb.
      apply (proj1 (NoDup_nth_error _) P2); [apply nth_error_Some; congruence|congruence].
    + exfalso. destruct (Own _ _ _ _ Ea) as ((_ & _ & Ri & Oi) & Hij). destruct (Own _ _ _ _ Eb) as ((_ & _ & Rj & Oj) & _).
      destruct Oi as [Oi|Oi]; [contradiction|]. destruct Oj as [Oj|Oj]; [contradiction|]. lia.
Qed.

(** Whatever the cells: if the counting pass finishes, the filling pass finishes, writes
    exactly as many rows as were counted and never one more than there is room for. *)
Theorem C42_passes_agree {F} `{Num F} fuel regs (cells : list (cell F)) num n :
  count_faces fuel regs cells num = Ok n -> exists faces, fill_faces fuel regs cells num n = Ok faces /\ length faces = n.
Proof. apply passes_agree. Qed.

(** No face is forgotten: for every seed j recorded with a corner of the cell of i, when it is
    the turn of i to write the face, the corners met on the walk around the face are written
    if there are at least three. *)
Theorem C42_no_face_lost {F} `{Num F} fuel regs (cells : list (cell F)) num n faces i vs v j fc :
  fill_faces fuel regs cells num n = Ok faces -> nth_error cells i = Some (Some vs) -> nth i regs 0%nat <> 0%nat ->
  In v vs -> In j (v_sd v) -> (nth j regs 0%nat = 0%nat \/ (i <= j)%nat) ->
  face_corners_of fuel vs (num i) j = Ok fc -> (3 <= length fc)%nat -> In (length fc :: fc ++ [i; j]) faces.
Proof. apply fill_complete. Qed.

(** For arbitrary cells some vertices are not used: a cell with one corner gives one vertex
    and no face. *)
Theorem C42_unused_refuted : exists (regs : list nat) (cells : list (cell PrimFloat.float)) vertices,
  extract_mesh 4 regs cells = Ok (vertices, []) /\ vertices <> [].
Proof.
  exists [1; 0]%nat, [Some [Vx [fl 0; fl 0; fl 0] [0; 0; 0]%nat [1; 1; 1]%nat (Some 0%nat)]; None], [[fl 0; fl 0; fl 0]].
  split; [vm_compute; reflexivity|discriminate].
Qed.

(** The eight seeds of C43_hypotheses in floating point: ten vertices, seven faces. *)
Example C42_run :
  match voronoi_mesh 10 200 16 (map (map fl) ex_vor) [1;0;0;0;0;0;0;0]%nat (repeat (fl 1) 8) with
  | Ok (vertices, faces) => length vertices = 10%nat /\ length faces = 7%nat
      /\ forallb (fun k => existsb (fun f => existsb (Nat.eqb k) (firstn (nth 0 f 0%nat) (tl f))) faces) (seq 0 10) = true
  | _ => False
  end.
Proof. vm_compute. auto. Qed.
(** Two neighbouring cubes of a grid of 36 seeds: many seeds are as far from each corner, the
    corners are welded into twelve vertices; eleven faces, the common one listed once. *)
Definition ex_grid : list (list Z) :=
  flat_map (fun i => flat_map (fun j => map (fun k => [i * 2; j * 2; k * 2]%Z) [0;1;2]%Z) [0;1;2]%Z) [0;1;2;3]%Z.
Definition ex_grid_regs : list nat := map (fun i => if ((i =? 13) || (i =? 22))%nat%bool then 1%nat else 0%nat) (seq 0 36).
Example C42_run_grid :
  match voronoi_mesh 10 200 72 (map (map fl) ex_grid) ex_grid_regs (repeat (fl 1) 36) with
  | Ok (vertices, faces) => length vertices = 12%nat /\ length faces = 11%nat /\ In [4; 7; 10; 8; 6; 13; 22]%nat faces
  | _ => False
  end.
Proof. vm_compute. intuition. Qed.

Print Assumptions C42_faces_partial.
Print Assumptions C42_passes_agree.
Print Assumptions C42_no_face_lost.
Print Assumptions C42_unused_refuted.
