(** C22-C26, C52: welding, isolated points, incidences, water-tightness, orientation
    (MeshingPolyMesh.cpp) and sharp features (MeshingVoroCrustSampler.cpp). *)
From Coq Require Import Reals Lra.
From Verif Require Import Base Num Vec KdSpec DenseQR Geometry GeometrySpec GeometryProofs SmartTree SpheresProofs PolyMesh PolyMeshSpec PolyMeshProofs
  PolyMeshWeldProofs PolyMeshOrientProofs FeatureSpec FeatureProofs PolyMeshAdjustProofs.

(** A tetrahedron, its faces seen from outside. *)
Definition tetra : list (list nat) := [[0; 2; 1]; [0; 1; 3]; [1; 2; 3]; [0; 3; 2]].
(** Checking that a given mesh consists of proper triangles. *)
Definition properb (n : nat) (faces : list (list nat)) : bool :=
  forallb (fun f => match f with
    | [a; b; c] => (a <? n) && (b <? n) && (c <? n) && negb (a =? b) && negb (b =? c) && negb (c =? a)
    | _ => false
    end) faces.
Lemma properb_ok n faces : properb n faces = true -> proper_triangles n faces.
Proof.
  intros H. unfold properb in H. rewrite forallb_forall in H.
  assert (G : forall f, In f faces -> exists a b c, f = [a; b; c] /\ a < n /\ b < n /\ c < n /\ a <> b /\ b <> c /\ c <> a).
  { intros f Hf. specialize (H f Hf). destruct f as [|a [|b [|c [|]]]]; try discriminate. exists a, b, c.
    rewrite !andb_true_iff, !negb_true_iff, !Nat.ltb_lt, !Nat.eqb_neq in H. tauto. }
  split.
  - intros f Hf. destruct (G f Hf) as (a & b & c & -> & ? & ? & ? & _). split; [reflexivity|]. simpl. intuition lia.
  - intros f Hf. destruct (G f Hf) as (a & b & c & -> & _ & _ & _ & ?). now apply nodup3.
Qed.
Lemma tetra_proper : proper_triangles 4 tetra.
Proof. apply properb_ok. reflexivity. Qed.

(** Checking consistency of a given mesh. *)
Definition tri_edges (f : list nat) : list (nat * nat) :=
  match f with [a; b; c] => [(a, b); (b, c); (c, a)] | _ => [] end.
Definition consistentb (faces : list (list nat)) : bool :=
  forallb (fun i => forallb (fun j => (i =? j) || forallb (fun e =>
      negb (length (faces_with faces (fst e) (snd e)) =? 2) || negb (existsb (same_edge e) (tri_edges (nth j faces []))))
    (tri_edges (nth i faces []))) (seq 0 (length faces))) (seq 0 (length faces)).
Lemma tri_edges_runs f a b : length f = 3 -> runs f a b <-> In (a, b) (tri_edges f).
Proof.
  intros H. destruct (triple _ H) as (x & y & z & ->). rewrite runs3. simpl. split.
  - intros [(-> & ->)|[(-> & ->)|(-> & ->)]]; auto.
  - intros [E|[E|[E|[]]]]; injection E as <- <-; auto.
Qed.
Lemma consistentb_ok faces : (forall f, In f faces -> length f = 3) -> consistentb faces = true <-> consistent faces.
Proof.
  intros H3. unfold consistentb. rewrite forallb_forall. split.
  - intros H i j a b f g Hij Ef Eg L2 Hr Hr'.
    pose proof (nth_error_Some_lt _ _ Ef) as Hi. pose proof (nth_error_Some_lt _ _ Eg) as Hj.
    specialize (H i). rewrite forallb_forall in H. specialize (H ltac:(apply in_seq; lia) j ltac:(apply in_seq; lia)).
    apply Nat.eqb_neq in Hij. rewrite Hij in H. cbn [orb] in H. rewrite (nth_error_nth _ _ _ Ef), (nth_error_nth _ _ _ Eg) in H.
    rewrite forallb_forall in H. apply tri_edges_runs in Hr; [|eapply H3, nth_error_In; eauto].
    apply tri_edges_runs in Hr'; [|eapply H3, nth_error_In; eauto]. specialize (H (a, b) Hr). cbn [fst snd] in H. rewrite L2 in H.
    cbn [Nat.eqb negb orb] in H. apply negb_true_iff in H.
    assert (T : existsb (same_edge (a, b)) (tri_edges g) = true).
    { apply existsb_exists. exists (a, b). split; auto. now apply same_edge_true. }
    congruence.
  - intros Hc i Hi. apply in_seq in Hi. apply forallb_forall. intros j Hj. apply in_seq in Hj.
    destruct (Nat.eqb_spec i j) as [|Hij]; auto. cbn [orb]. apply forallb_forall. intros (a & b) He. cbn [fst snd].
    destruct (Nat.eqb_spec (length (faces_with faces a b)) 2) as [L2|]; auto. cbn [negb orb].
    apply negb_true_iff. destruct (existsb _ _) eqn:T; auto. exfalso.
    apply existsb_exists in T as (e & He' & Es). apply same_edge_true in Es. subst e.
    rewrite <- tri_edges_runs in He by (apply H3, nth_In; lia). rewrite <- tri_edges_runs in He' by (apply H3, nth_In; lia).
    revert He'. apply (Hc i j a b (nth i faces []) (nth j faces [])); auto; apply nth_error_nth'; lia.
Qed.
Lemma tetra_consistent : consistent tetra.
Proof. apply consistentb_ok; [|reflexivity]. intros f Hf. apply (proj1 tetra_proper f Hf). Qed.

(** ** C22: welding *)
Theorem C22_weld (need : nat -> nat -> bool) (h : R) pts faces :
  (forall p, In p pts -> length p = 3) -> (h <= dbl_max)%R ->
  (forall f, In f faces -> forall c, In c f -> c < length pts) ->
  exists pts' faces' K m,
    weld_nearby_points need h pts faces = Ok (pts', faces')
    (* K are the points kept, m the representative of each point *)
    /\ welding h (length pts) (fun i j => vdist 3 (vec (nth i pts [])) (vec (nth j pts []))) K m
    /\ map Some pts' = map (nth_error pts) K
    (* nothing welded: the mesh is returned as it is *)
    /\ (length K = length pts -> pts' = pts /\ faces' = faces)
    (* otherwise the faces refer to the representatives; exactly those that collapse are dropped *)
    /\ (length K <> length pts -> exists dropped,
          Permutation (map (map (fun c => nth c m 0)) faces) (faces' ++ dropped)
          /\ (forall f, In f faces' -> ~ collapsed f) /\ (forall f, In f dropped -> collapsed f))
    /\ (forall f, In f faces' -> forall c, In c f -> c < length pts').
Proof.
  intros Hp Hh Hf. destruct (@weld_ok need h pts faces Hp Hh Hf) as (pts' & faces' & K & m & E & W & M & N1 & N2).
  exists pts', faces', K, m. split; auto. split; [exact W|]. split; auto. split; auto. split; auto.
  assert (Lp : length pts' = length K). { apply (f_equal (@length _)) in M. now rewrite !map_length in M. }
  destruct (Nat.eq_dec (length K) (length pts)) as [EK|NK].
  - destruct (N1 EK) as (-> & ->). auto.
  - destruct (N2 NK) as (dropped & Hpm & _). intros f Hin c Hc.
    assert (Hin' : In f (map (map (fun c => nth c m 0)) faces)).
    { eapply Permutation_in; [symmetry; exact Hpm|]. apply in_app_iff. auto. }
    apply in_map_iff in Hin' as (g & <- & Hg). apply in_map_iff in Hc as (c0 & <- & Hc0).
    destruct W as (_ & _ & _ & _ & W). destruct (W c0 (Hf g Hg c0 Hc0)) as (x & k & E1 & E2 & _).
    rewrite (nth_error_nth _ _ _ E1), Lp. apply nth_error_Some_lt in E2. auto.
Qed.
(** Three points, the last two together; two faces of which one collapses. *)
Example C22_example :
  let pts := [[0; 0; 0]; [1; 0; 0]; [0; 1; 0]; [0; 1; 0]]%R in
  let faces := [[0; 1; 3]; [1; 2; 3]] in
  (forall p, In p pts -> length p = 3) /\ (1 / 2 <= @dbl_max R RNum)%R
  /\ (forall f, In f faces -> forall c, In c f -> c < length pts)
  /\ exists pts' faces', weld_nearby_points (fun _ _ => false) (1 / 2)%R pts faces = Ok (pts', faces')
     /\ length pts' < length pts.
Proof.
  cbn zeta.
  assert (Hp : forall p, In p [[0; 0; 0]; [1; 0; 0]; [0; 1; 0]; [0; 1; 0]]%R -> length p = 3).
  { intros p [<-|[<-|[<-|[<-|[]]]]]; reflexivity. }
  assert (Hh : (1 / 2 <= @dbl_max R RNum)%R).
  { unfold dbl_max. cbn [nofZ RNum]. apply Rle_trans with 1%R; [lra|]. apply (IZR_le 1). discriminate. }
  assert (Hf : forall f, In f [[0; 1; 3]; [1; 2; 3]] -> forall c, In c f -> c < 4).
  { intros f [<-|[<-|[]]] c; simpl; intuition lia. }
  split; auto. split; auto. split; auto.
  destruct (@C22_weld (fun _ _ => false) (1 / 2)%R _ [[0; 1; 3]; [1; 2; 3]] Hp Hh Hf) as (pts' & faces' & K & m & E & W & M & _).
  exists pts', faces'. split; auto. apply (f_equal (@length _)) in M. rewrite !map_length in M. rewrite M.
  destruct W as (As & Hk & _ & Hsep & _).
  assert (N : NoDup K). { apply Sorted_StronglySorted in As; [|exact Nat.lt_trans]. clear -As. induction As as [|a l As IH Fa]; constructor; auto.
    rewrite Forall_forall in Fa. intros Hin. specialize (Fa a Hin). lia. }
  assert (Hnot : ~ (In 2 K /\ In 3 K)).
  { intros (H2 & H3). specialize (Hsep 2 3 H2 H3 ltac:(lia)). cbn [nth] in Hsep. rewrite vdist_self in Hsep. lra. }
  change (length K < 4). change (forall k, In k K -> k < 4) in Hk.
  destruct (In_dec Nat.eq_dec 2 K) as [H2|H2].
  - assert (H3 : ~ In 3 K) by tauto. assert (length K <= length [0; 1; 2]); [|simpl in *; lia].
    apply NoDup_incl_length; auto. intros k Hkk. specialize (Hk k Hkk). assert (k <> 3) by congruence. simpl. lia.
  - assert (length K <= length [0; 1; 3]); [|simpl in *; lia].
    apply NoDup_incl_length; auto. intros k Hkk. specialize (Hk k Hkk). assert (k <> 2) by congruence. simpl. lia.
Qed.
(** Faces that are collapsed to begin with are kept when nothing is welded. *)
Theorem C22_collapsed_dropped_refuted :
  exists pts faces, (forall p, In p pts -> length p = 3) /\ (forall f, In f faces -> forall c, In c f -> c < length pts)
    /\ forall need h, (h <= @dbl_max R RNum)%R ->
       exists faces', weld_nearby_points need h pts faces = Ok (pts, faces') /\ exists f, In f faces' /\ collapsed f.
Proof.
  exists [[0; 0; 0]]%R, [[0; 0; 0]]. split. { intros p [<-|[]]; reflexivity. }
  split. { intros f [<-|[]] c; simpl; intuition lia. }
  intros need h Hh.
  destruct (@C22_weld need h [[0; 0; 0]]%R [[0; 0; 0]]) as (pts' & faces' & K & m & E & W & M & N1 & _); auto.
  { intros p [<-|[]]; reflexivity. } { intros f [<-|[]] c; simpl; intuition lia. }
  destruct W as (As & Hk & Lm & _ & Hrep). destruct (Hrep 0 ltac:(simpl; lia)) as (c & k & _ & Ek & Hk0 & _).
  assert (LK : length K = 1).
  { destruct K as [|a [|b t]]; [destruct c; discriminate|reflexivity|]. exfalso.
    pose proof (Hk a (or_introl eq_refl)). pose proof (Hk b (or_intror (or_introl eq_refl))).
    inversion As as [|? ? _ Hd]; subst. inversion Hd; subst. simpl in *. lia. }
  destruct (N1 LK) as (-> & ->). exists [[0; 0; 0]]. split; auto. exists [0; 0; 0]. split; [left; auto|]. exists 0. split; simpl; auto.
Qed.

(** ** C23: isolated points *)
Theorem C23_remove_isolated {P} (pts : list P) faces : triangles (length pts) faces ->
  exists pf np faces' pf' K, build_point_faces (length pts) faces = Ok pf /\
    remove_isolated_points pts faces pf = Ok (np, faces', pf')
    (* the points kept are those of some face, in order *)
    /\ ascending K /\ (forall p, In p K <-> used faces p) /\ map Some np = map (nth_error pts) K
    (* every face has the same corners in space *)
    /\ map (shape np) faces' = map (shape pts) faces
    (* the corners are valid, and so is the new table of incidences *)
    /\ triangles (length np) faces' /\ length pf' = length np
    /\ (forall p, p < length np -> nth p pf' [] = faces_at faces' p).
Proof.
  intros Ht. destruct (build_ok Ht) as (pf & E & L & N).
  destruct (@remove_isolated_ok P pts faces pf Ht L N) as (np & faces' & pf' & K & H). exists pf, np, faces', pf', K. tauto.
Qed.
Example C23_example : triangles 5 [[0; 2; 4]; [4; 2; 1]] /\
  exists pf, build_point_faces 5 [[0; 2; 4]; [4; 2; 1]] = Ok pf /\
  remove_isolated_points [10; 11; 12; 13; 14] [[0; 2; 4]; [4; 2; 1]] pf
  = Ok ([10; 11; 12; 14], [[0; 2; 3]; [3; 2; 1]], [[0]; [1]; [0; 1]; [0; 1]]).
Proof.
  split.
  - intros f [<-|[<-|[]]]; (split; [reflexivity|]); simpl; intuition lia.
  - eexists. split; reflexivity.
Qed.

(** ** C24: the faces of a point *)
Theorem C24_point_faces n faces : triangles n faces ->
  exists pf, build_point_faces n faces = Ok pf /\ length pf = n /\ forall p, p < n -> nth p pf [] = faces_at faces p.
Proof. apply build_ok. Qed.
(** What the list of a point contains. *)
Theorem C24_exact faces p :
  (forall i, count_occ Nat.eq_dec (faces_at faces p) i = count_occ Nat.eq_dec (nth i faces []) p)
  /\ Sorted le (faces_at faces p)
  /\ (faces_at faces p = [] <-> ~ used faces p).
Proof.
  assert (G : forall k lo, (forall i, count_occ Nat.eq_dec (flat_map (fun i => repeat i (count_occ Nat.eq_dec (nth i faces []) p)) (seq lo k)) i
      = if (lo <=? i) && (i <? lo + k) then count_occ Nat.eq_dec (nth i faces []) p else 0)
    /\ Sorted le (flat_map (fun i => repeat i (count_occ Nat.eq_dec (nth i faces []) p)) (seq lo k))
    /\ HdRel le lo (flat_map (fun i => repeat i (count_occ Nat.eq_dec (nth i faces []) p)) (seq lo k))).
  { induction k as [|k IH]; intros lo.
    - simpl. split; [|split; constructor]. intros i. destruct (Nat.leb_spec lo i), (Nat.ltb_spec i (lo + 0)); auto. lia.
    - destruct (IH (S lo)) as (H1 & H2 & H3). cbn [seq flat_map].
      set (c := count_occ Nat.eq_dec (nth lo faces []) p).
      assert (Ec : forall i, count_occ Nat.eq_dec (repeat lo c) i = if lo =? i then c else 0).
      { intros i. destruct (Nat.eqb_spec lo i) as [<-|Hn]; [apply count_occ_repeat_eq; auto|apply count_occ_repeat_neq; auto]. }
      split; [|].
      + intros i. rewrite count_occ_app, Ec, H1. subst c.
        destruct (Nat.eqb_spec lo i), (Nat.leb_spec (S lo) i), (Nat.leb_spec lo i), (Nat.ltb_spec i (S lo + k)), (Nat.ltb_spec i (lo + S k));
          cbn [andb]; subst; lia.
      + set (R := flat_map _ _) in *.
        assert (HS : HdRel le lo R). { destruct H3; constructor. lia. }
        clear -H2 HS. induction c as [|c (IH1 & IH2)]; simpl; auto. }
  split; [|split].
  - intros i. unfold faces_at. rewrite (proj1 (G (length faces) 0)). cbn [Nat.leb andb Nat.add].
    destruct (Nat.ltb_spec i (length faces)); auto. rewrite nth_overflow by lia. reflexivity.
  - apply (G (length faces) 0).
  - split.
    + intros E (f & Hf & Hin). apply In_nth with (d := []) in Hf as (k & Hk & Ek).
      assert (H : In k (faces_at faces p)) by (apply faces_at_in; rewrite Ek; auto). rewrite E in H. destruct H.
    + intros Hn. destruct (faces_at faces p) as [|k t] eqn:E; auto. exfalso. apply Hn.
      assert (H : In k (faces_at faces p)) by (rewrite E; left; auto). apply faces_at_in in H as (Hk & Hin).
      exists (nth k faces []). split; auto. apply nth_In; auto.
Qed.
(** A corner that is not a point is written outside the table. *)
Theorem C24_out_of_range n faces f c : (forall f, In f faces -> length f = 3) -> In f faces -> In c f -> n <= c ->
  build_point_faces n faces = UB.
Proof.
  intros H3 Hf Hc Hn. unfold build_point_faces.
  assert (E : count_faces n faces = UB); [|now rewrite E].
  unfold count_faces. rewrite (@fold_res_ext _ _ _ (fun f cnt => fold_res count_corner f cnt)).
  2:{ intros g st Hg. rewrite corners3_ok by auto. reflexivity. }
  rewrite (fold_res_flat count_corner (fun f => f)), flat_map_concat_map, map_id.
  assert (Hin : In c (concat faces)) by (apply in_concat; eauto).
  assert (G : forall l cnt, In c l -> length cnt = n -> fold_res count_corner l cnt = UB).
  { induction l as [|q l IH]; intros cnt Hq L; [destruct Hq|]. rewrite fold_res_cons. unfold count_corner.
    destruct (lt_dec q (length cnt)) as [Hlt|Hge].
    - rewrite (get_nth cnt 0 Hlt). cbn [bind]. rewrite set_upd by auto. cbn [bind]. apply IH; [|now rewrite upd_length].
      destruct Hq as [->|]; auto. lia.
    - unfold get. destruct (nth_error cnt q) eqn:E; [|reflexivity]. apply nth_error_Some_lt in E. lia. }
  apply G; auto. apply repeat_length.
Qed.
(** The fourth corner of a quadrilateral is not recorded. *)
Theorem C24_polygons_refuted : exists n faces pf p, (forall f, In f faces -> forall c, In c f -> c < n) /\
  build_point_faces n faces = Ok pf /\ p < n /\ used faces p /\ nth p pf [] = [].
Proof.
  exists 4, [[0; 1; 2; 3]], [[0]; [0]; [0]; []], 3. split. { intros f [<-|[]] c; simpl; intuition lia. }
  split; [reflexivity|]. split; [lia|]. split; [|reflexivity]. exists [0; 1; 2; 3]. simpl. auto 10.
Qed.
Example C24_example : triangles 4 tetra /\ build_point_faces 4 tetra = Ok [[0; 1; 3]; [0; 1; 2]; [0; 2; 3]; [1; 2; 3]].
Proof. split; [apply tetra_proper|reflexivity]. Qed.

(** ** C25: the faces of an edge; water-tight models *)
Theorem C25_edge_faces n faces : proper_triangles n faces ->
  exists pf, build_point_faces n faces = Ok pf /\ forall a b, a < n -> a <> b ->
    get_num_edge_faces faces pf a b = Ok (length (faces_with faces a b))
    /\ get_edge_faces faces pf a b = Ok (length (faces_with faces a b), faces_with faces a b).
Proof.
  intros Hp. destruct (build_ok (proj1 Hp)) as (pf & E & L & N). exists pf. split; auto. intros a b Ha Hab.
  apply (@edge_exact n); auto.
Qed.
(** For any polygons the array sized by the count is large enough. *)
Theorem C25_no_overrun faces pf a b row : nth_error pf a = Some row -> (forall i, In i row -> i < length faces) ->
  exists num l, get_num_edge_faces faces pf a b = Ok num /\ get_edge_faces faces pf a b = Ok (num, l) /\ length l <= num
    /\ incl l row.
Proof.
  intros Er Hr. destruct (@edge_faces_ok faces pf a b row Er Hr) as (E & L). do 2 eexists.
  split; [apply (@num_edge_faces_ok faces pf a b row Er Hr)|]. split; [exact E|]. split; auto.
  intros i Hi. apply filter_In in Hi. tauto.
Qed.
(** But it may not be filled: a collapsed face is counted four times and listed twice. *)
Theorem C25_filled_refuted : exists n faces pf a b num l, triangles n faces /\ build_point_faces n faces = Ok pf /\ a < n /\ b < n /\ a <> b /\
  get_edge_faces faces pf a b = Ok (num, l) /\ length l < num.
Proof.
  exists 2, [[0; 1; 0]], [[0; 0]; [0]], 0, 1, 4, [0; 0]. split.
  { intros f [<-|[]]. split; [reflexivity|]. simpl; intuition lia. }
  repeat (split; [solve [reflexivity|lia]|]). simpl. lia.
Qed.
Theorem C25_water_tight n faces : proper_triangles n faces ->
  exists pf r, build_point_faces n faces = Ok pf /\ water_tight_model faces pf = Ok r /\
    (r = true <-> forall f a b, In f faces -> In a f -> In b f -> a <> b -> 2 <= length (faces_with faces a b)).
Proof.
  intros Hp. destruct (build_ok (proj1 Hp)) as (pf & E & L & N).
  destruct (@all_edges_ok_ok n faces pf Hp L N faces (incl_refl _)) as (r & Er & Hr). exists pf, r. split; auto. split; auto.
  rewrite Hr. split; intros H f a b Hf Ha Hb Hab; specialize (H f a b Hf Ha Hb Hab); [|lia].
  assert (length (faces_with faces a b) <> 0); [|lia].
  intros E0. apply length_zero_iff_nil in E0. apply In_nth with (d := []) in Hf as (k & Hk & Ek).
  assert (Hin : In k (faces_with faces a b)) by (apply faces_with_in; rewrite Ek; auto). rewrite E0 in Hin. destruct Hin.
Qed.
(** Three faces at one edge pass as water-tight. *)
Theorem C25_exactly_two_refuted : exists n faces pf, proper_triangles n faces /\ build_point_faces n faces = Ok pf /\
  water_tight_model faces pf = Ok true /\ exists f a b, In f faces /\ In a f /\ In b f /\ a <> b /\ length (faces_with faces a b) = 4.
Proof.
  exists 6, (tetra ++ [[0; 4; 1]; [0; 1; 5]; [1; 4; 5]; [0; 5; 4]]). eexists. split.
  - apply properb_ok. reflexivity.
  - split; [reflexivity|]. split; [reflexivity|]. exists [0; 2; 1], 0, 1. simpl. repeat split; auto.
Qed.
Example C25_example : proper_triangles 4 tetra /\ faces_with tetra 1 3 = [1; 2]
  /\ (forall f a b, In f tetra -> In a f -> In b f -> a <> b -> 2 <= length (faces_with tetra a b))
  /\ ~ (forall f a b, In f [[0; 1; 2]] -> In a f -> In b f -> a <> b -> 2 <= length (faces_with [[0; 1; 2]] a b)).
Proof.
  split; [apply tetra_proper|]. split; [reflexivity|]. split.
  - intros f a b Hf Ha Hb Hab. simpl in Hf. repeat destruct Hf as [<-|Hf]; try destruct Hf;
      simpl in Ha, Hb; repeat destruct Ha as [<-|Ha]; try destruct Ha; repeat destruct Hb as [<-|Hb]; try destruct Hb;
      try congruence; vm_compute; lia.
  - intros H. specialize (H [0; 1; 2] 0 1). simpl in H. cut (2 <= 1); [lia|]. apply H; auto.
Qed.

(** ** C26: orientation *)
(** Whatever the state of the memory, the corners of each face are only reordered, and
    the stored normals are those computed before, or all of them negated. *)
Theorem C26_corners {F} `{Num F} garbage n xmin xmax (points : list (list F)) faces pf normals faces' normals' :
  proper_triangles n faces -> build_point_faces n faces = Ok pf ->
  impose_consistent_orientation garbage xmin xmax points pf faces normals = Ok (faces', normals') ->
  same_corners faces faces' /\ (normals' = normals \/ normals' = map (map nopp) normals).
Proof.
  intros Hp E. destruct (build_ok (proj1 Hp)) as (pf' & E' & L & N). assert (pf' = pf) by congruence. subst pf'.
  unfold impose_consistent_orientation. destruct (@orient_ok n faces pf Hp L N garbage) as (f1 & E1 & S1). rewrite E1. cbn [bind].
  intros E2. apply (@adjust_shape F _ n) in E2 as (S2 & A & _); [|apply (same_corners_proper S1 Hp)].
  split; [eapply same_corners_trans; eauto|]. destruct A as [(_ & ->)|(_ & ->)]; auto.
Qed.
(** The search for unoriented neighbours ends. *)
Theorem C26_terminates garbage n faces : proper_triangles n faces ->
  exists pf faces', build_point_faces n faces = Ok pf /\ orient_faces garbage pf faces = Ok faces' /\ same_corners faces faces'.
Proof.
  intros Hp. destruct (build_ok (proj1 Hp)) as (pf & E & L & N).
  destruct (@orient_ok n faces pf Hp L N garbage) as (f1 & E1 & S1). exists pf, f1. auto.
Qed.
(** A consistent mesh stays so. *)
Theorem C26_consistent_kept {F} `{Num F} garbage n xmin xmax (points : list (list F)) faces pf normals faces' normals' :
  proper_triangles n faces -> build_point_faces n faces = Ok pf -> consistent faces ->
  impose_consistent_orientation garbage xmin xmax points pf faces normals = Ok (faces', normals') -> consistent faces'.
Proof.
  intros Hp E Hc. destruct (build_ok (proj1 Hp)) as (pf' & E' & L & N). assert (pf' = pf) by congruence. subst pf'.
  unfold impose_consistent_orientation. rewrite (@orient_consistent n faces pf Hp L N garbage Hc). cbn [bind].
  intros E2. apply (@adjust_shape F _ n) in E2 as (S2 & A & Hk); auto. apply Hp.
Qed.
(** Missing: other orders of the faces, and memory that is not 0 (see the refutations). *)
Theorem C26_growing_partial {F} `{Num F} n xmin xmax (points : list (list F)) faces pf normals faces' normals' :
  proper_triangles n faces -> build_point_faces n faces = Ok pf -> orientable faces -> growing faces ->
  impose_consistent_orientation false xmin xmax points pf faces normals = Ok (faces', normals') -> consistent faces'.
Proof.
  intros Hp E Ho Hg. destruct (build_ok (proj1 Hp)) as (pf' & E' & L & N). assert (pf' = pf) by congruence. subst pf'.
  destruct (@orient_growing n faces pf Hp L N Ho Hg) as (f1 & E1 & S1 & C1).
  unfold impose_consistent_orientation. rewrite E1. cbn [bind].
  intros E2. apply (@adjust_shape F _ n) in E2 as (S2 & A & Hk); auto. apply (same_corners_proper S1 Hp).
Qed.
(** The last step always answers, and then the stored normal of a face at the point nearest
    to the outer corner does not point away from it. *)
Theorem C26_outer_face garbage (xmin xmax : nat -> R) points faces pf normals :
  let xc := fun d => (xmin d - (xmax d - xmin d))%R in
  proper_triangles (length points) faces -> build_point_faces (length points) faces = Ok pf ->
  length normals = length faces -> (forall n, In n normals -> length n = 3) ->
  points <> [] -> (forall p, p < length points -> used faces p) ->
  (forall p, In p points -> (vdist 3 (fun d => nth d p 0) xc < dbl_max)%R) ->
  exists faces' normals' ip fi,
    impose_consistent_orientation garbage xmin xmax points pf faces normals = Ok (faces', normals')
    /\ ip < length points
    /\ (forall q, q < length points -> (vdist 3 (at_point points ip) xc <= vdist 3 (at_point points q) xc)%R)
    /\ fi < length faces' /\ In ip (nth fi faces' [])
    /\ (0 <= dot 3 (at_point normals' fi) (sub xc (at_point points ip)))%R.
Proof.
  intros xc Hp E Ln H3 Hne Hu Hfar. destruct (build_ok (proj1 Hp)) as (pf' & E' & L & N). assert (pf' = pf) by congruence. subst pf'.
  destruct (@orient_ok (length points) faces pf Hp L N garbage) as (f1 & E1 & S1).
  pose proof (same_corners_proper S1 Hp) as Hp1.
  destruct (@adjust_ok xmin xmax points pf f1 normals) as (faces' & normals' & ip & fi & E2 & A1 & A2 & A3 & A4 & A5); auto.
  - apply Hp1.
  - intros p Hlt. rewrite N by auto. now apply same_corners_at.
  - destruct S1 as (S1 & _). congruence.
  - intros p Hlt. destruct (Hu p Hlt) as (f & Hf & Hin). apply In_nth with (d := []) in Hf as (k & Hk & Ek).
    exists (nth k f1 []). pose proof S1 as (S1' & _). split; [apply nth_In; lia|].
    eapply Permutation_in; [apply (same_corners_nth k S1)|]. now rewrite Ek.
  - exists faces', normals', ip, fi. unfold impose_consistent_orientation. rewrite E1. cbn [bind].
    apply (@adjust_shape R _ (length points)) in E2 as HH; [|apply Hp1]. destruct HH as (S2 & _).
    split; auto. split; auto. split; auto. pose proof S2 as (L2 & _). split; [lia|]. split; auto.
    eapply Permutation_in; [apply (same_corners_nth fi S2)|auto].
Qed.

(** The loop stops after a sweep without reversal although faces have not been reached. *)
Theorem C26_all_orders_refuted : exists n faces pf faces', proper_triangles n faces /\ orientable faces
  /\ build_point_faces n faces = Ok pf /\ orient_faces false pf faces = Ok faces' /\ ~ consistent faces'.
Proof.
  exists 6, [[0; 1; 2]; [5; 3; 4]; [2; 3; 4]; [1; 3; 2]]. do 2 eexists.
  assert (T : forall l : list (list nat), forallb (fun f => length f =? 3) l = true -> forall f, In f l -> length f = 3).
  { intros l H f Hf. rewrite forallb_forall in H. apply Nat.eqb_eq, H, Hf. }
  split; [|split; [|split; [reflexivity|split; [reflexivity|]]]].
  - apply properb_ok. reflexivity.
  - exists [[0; 1; 2]; [3; 5; 4]; [2; 3; 4]; [1; 3; 2]]. split.
    + split; auto. intros i f f' E1 E2. destruct i as [|[|[|[|i]]]]; simpl in *; try (injection E1 as <-; injection E2 as <-).
      * reflexivity. * constructor. * reflexivity. * reflexivity. * destruct i; discriminate.
    + apply consistentb_ok; [apply T; reflexivity|reflexivity].
  - rewrite <- consistentb_ok by (apply T; reflexivity). vm_compute. discriminate.
Qed.
(** fixed[0] is read before it is written: with another content of the memory two
    neighbours stay as they are. *)
Theorem C26_memory_refuted : exists n faces pf faces', proper_triangles n faces /\ orientable faces /\ growing faces
  /\ build_point_faces n faces = Ok pf /\ orient_faces true pf faces = Ok faces' /\ ~ consistent faces'.
Proof.
  exists 4, [[0; 1; 2]; [1; 2; 3]]. do 2 eexists.
  assert (T : forall l : list (list nat), forallb (fun f => length f =? 3) l = true -> forall f, In f l -> length f = 3).
  { intros l H f Hf. rewrite forallb_forall in H. apply Nat.eqb_eq, H, Hf. }
  split; [|split; [|split; [|split; [reflexivity|split; [reflexivity|]]]]].
  - apply properb_ok. reflexivity.
  - exists [[0; 1; 2]; [2; 1; 3]]. split.
    + split; auto. intros i f f' E1 E2. destruct i as [|[|i]]; simpl in *; try (injection E1 as <-; injection E2 as <-).
      * reflexivity. * constructor. * destruct i; discriminate.
    + apply consistentb_ok; [apply T; reflexivity|reflexivity].
  - intros j Hj. simpl in Hj. assert (j = 1) by lia. subst j. exists 0, 1, 2. vm_compute. repeat split; auto; discriminate.
  - rewrite <- consistentb_ok by (apply T; reflexivity). vm_compute. discriminate.
Qed.
(** The hypotheses of the positive results. *)
Example C26_example : let faces := [[0; 2; 1]; [0; 3; 1]; [1; 2; 3]; [0; 2; 3]] in
  proper_triangles 4 faces /\ orientable faces /\ growing faces /\ ~ consistent faces
  /\ exists pf, build_point_faces 4 faces = Ok pf /\ exists faces', orient_faces false pf faces = Ok faces' /\ consistent faces'.
Proof.
  cbn zeta. assert (T : forall l : list (list nat), forallb (fun f => length f =? 3) l = true -> forall f, In f l -> length f = 3).
  { intros l H f Hf. rewrite forallb_forall in H. apply Nat.eqb_eq, H, Hf. }
  split; [|split; [|split; [|split]]].
  - apply properb_ok. reflexivity.
  - exists tetra. split; [|apply tetra_consistent].
    split; auto. intros i f f' E1 E2. destruct i as [|[|[|[|i]]]]; simpl in *; try (injection E1 as <-; injection E2 as <-).
    * reflexivity. * do 2 constructor. * reflexivity. * do 2 constructor. * destruct i; discriminate.
  - intros j Hj. simpl in Hj. assert (Ej : j = 1 \/ j = 2 \/ j = 3) by lia.
    destruct Ej as [->|[->| ->]]; [exists 0, 0, 1|exists 0, 1, 2|exists 0, 0, 2]; vm_compute; repeat split; auto; discriminate.
  - rewrite <- consistentb_ok by (apply T; reflexivity). vm_compute. discriminate.
  - eexists. split; [reflexivity|]. eexists. split; [reflexivity|]. apply consistentb_ok; [apply T; reflexivity|reflexivity].
Qed.
(** The stored normals are those of before: two triangles in one plane, the second
    reversed; afterwards the faces agree and the normals do not. *)
Theorem C26_normals_refuted : exists (points : list (list R)) faces pf normals faces' normals' xmin xmax,
  proper_triangles (length points) faces /\ build_point_faces (length points) faces = Ok pf
  /\ build_face_normals points faces = Ok normals
  /\ impose_consistent_orientation false xmin xmax points pf faces normals = Ok (faces', normals')
  /\ consistent faces'
  /\ dot 3 (unit_normal points (nth 0 faces' [])) (unit_normal points (nth 1 faces' [])) = 1%R
  /\ dot 3 (at_point normals' 0) (at_point normals' 1) = (-1)%R.
Proof.
  set (points := [[0; 0; 0]; [1; 0; 0]; [0; 1; 0]; [1; 1; 0]]%R). set (faces := [[0; 1; 2]; [1; 2; 3]]).
  assert (Hp : proper_triangles (length points) faces) by (apply properb_ok; reflexivity).
  assert (Eb : build_point_faces (length points) faces = Ok [[0]; [0; 1]; [0; 1]; [1]]) by reflexivity.
  (* unit normals *)
  assert (Hn : forall f u v w, corner_points points f 0 = u -> corner_points points f 1 = v -> corner_points points f 2 = w ->
    forall z, vprod (sub v u) (sub w u) 0 = 0%R -> vprod (sub v u) (sub w u) 1 = 0%R -> vprod (sub v u) (sub w u) 2 = z -> (z * z = 1)%R ->
    unit_normal points f 0 = 0%R /\ unit_normal points f 1 = 0%R /\ unit_normal points f 2 = z).
  { intros f u v w <- <- <- z Z0 Z1 Z2 Hz. unfold unit_normal.
    assert (En : norm 3 (vprod (sub (corner_points points f 1) (corner_points points f 0)) (sub (corner_points points f 2) (corner_points points f 0))) = 1%R).
    { unfold norm. rewrite dot3, Z0, Z1, Z2. replace (0 * 0 + 0 * 0 + z * z)%R with 1%R by (rewrite Hz; ring). apply sqrt_1. }
    rewrite En, Z0, Z1, Z2. repeat split; field. }
  assert (U : forall a b c z, vprod (sub (at_point points b) (at_point points a)) (sub (at_point points c) (at_point points a)) 0 = 0%R ->
    vprod (sub (at_point points b) (at_point points a)) (sub (at_point points c) (at_point points a)) 1 = 0%R ->
    vprod (sub (at_point points b) (at_point points a)) (sub (at_point points c) (at_point points a)) 2 = z -> (z * z = 1)%R ->
    unit_normal points [a; b; c] 0 = 0%R /\ unit_normal points [a; b; c] 1 = 0%R /\ unit_normal points [a; b; c] 2 = z).
  { intros. eapply Hn; try reflexivity; auto. }
  assert (N0 : unit_normal points [0; 1; 2] 0 = 0%R /\ unit_normal points [0; 1; 2] 1 = 0%R /\ unit_normal points [0; 1; 2] 2 = 1%R)
    by (apply U; unfold vprod, sub, at_point, points; cbn [nth]; ring).
  assert (N1 : unit_normal points [1; 2; 3] 0 = 0%R /\ unit_normal points [1; 2; 3] 1 = 0%R /\ unit_normal points [1; 2; 3] 2 = (-1)%R)
    by (apply U; unfold vprod, sub, at_point, points; cbn [nth]; ring).
  assert (M1 : unit_normal points [2; 1; 3] 0 = 0%R /\ unit_normal points [2; 1; 3] 1 = 0%R /\ unit_normal points [2; 1; 3] 2 = 1%R)
    by (apply U; unfold vprod, sub, at_point, points; cbn [nth]; ring).
  assert (P0 : unit_normal points [0; 2; 1] 0 = 0%R /\ unit_normal points [0; 2; 1] 1 = 0%R /\ unit_normal points [0; 2; 1] 2 = (-1)%R)
    by (apply U; unfold vprod, sub, at_point, points; cbn [nth]; ring).
  assert (P1 : unit_normal points [2; 3; 1] 0 = 0%R /\ unit_normal points [2; 3; 1] 1 = 0%R /\ unit_normal points [2; 3; 1] 2 = (-1)%R)
    by (apply U; unfold vprod, sub, at_point, points; cbn [nth]; ring).
  clear Hn U.
  (* the stored normals *)
  assert (Hs : forall a b c, In [a; b; c] faces -> ~ sliver (corner_points points [a; b; c])).
  { assert (Lo : forall t : R, (1 <= t)%R -> (1 <= sqrt t)%R) by (intros t Ht; rewrite <- sqrt_1; apply sqrt_le_1_alt; auto).
    assert (Hi : forall t : R, (t <= 4)%R -> (sqrt t <= 2)%R).
    { intros t Ht. replace 2%R with (sqrt 4). apply sqrt_le_1_alt; auto. replace 4%R with (2 * 2)%R by ring. apply sqrt_square; lra. }
    intros a b c Hin. unfold sliver, norm. rewrite !dot3.
    destruct Hin as [E|[E|[]]]; injection E as <- <- <-; unfold vprod, sub, corner_points, at_point, points; cbn [nth];
      match goal with |- ~ (sqrt ?x < _ \/ sqrt ?y < _ \/ sqrt ?z < _)%R =>
        pose proof (Lo x ltac:(lra)); pose proof (Lo y ltac:(lra)); pose proof (Lo z ltac:(lra));
        pose proof (Hi x ltac:(lra)); pose proof (Hi y ltac:(lra)); pose proof (Rmult_le_compat (sqrt x) 2 (sqrt y) 2) end;
      intros [H'|[H'|H']]; lra. }
  assert (Hnrm : exists ns, build_face_normals points faces = Ok ns /\ length ns = 2 /\ (forall n, In n ns -> length n = 3)
     /\ forall i, i < 2 -> forall d, d < 3 -> nth d (nth i ns []) 0%R = unit_normal points (nth i faces []) d).
  { assert (G : forall a b c, In [a; b; c] faces -> exists l, face_normal points [a; b; c] = Ok l /\ length l = 3 /\ forall d, d < 3 -> nth d l 0%R = unit_normal points [a; b; c] d).
    { intros a b c Hin. specialize (Hs a b c Hin). unfold face_normal. rewrite corners3_ok by auto. cbn [bind].
      change (nth 0 [a; b; c] 0) with a. change (nth 1 [a; b; c] 0) with b. change (nth 2 [a; b; c] 0) with c.
      assert (Hlt : a < 4 /\ b < 4 /\ c < 4) by (destruct Hin as [E|[E|[]]]; injection E as <- <- <-; lia).
      rewrite (get_nth points [] (i := a)), (get_nth points [] (i := b)), (get_nth points [] (i := c)) by (simpl; lia). cbn [bind].
      set (cc := fun k => row_vec (nth k [nth a points []; nth b points []; nth c points []] [])).
      destruct (triangle_normal_R cc) as [(_ & m & E & P & Em)|(S & _)]; [|exfalso; apply Hs; exact S].
      eexists. split; [reflexivity|]. split; [reflexivity|]. intros d Hd. rewrite E. cbn [snd].
      transitivity (m d). { destruct d as [|[|[|]]]; try reflexivity. lia. }
      rewrite Em. reflexivity. }
    destruct (G 0 1 2) as (l0 & E0 & L0 & V0); [left; auto|]. destruct (G 1 2 3) as (l1 & E1 & L1 & V1); [right; left; auto|].
    exists [l0; l1]. cbn [build_face_normals faces]. rewrite E0. cbn [bind]. rewrite E1. cbn [bind]. split; auto. split; auto.
    split; [intros n [<-|[<-|[]]]; auto|]. intros [|[|i]] Hi d Hd; cbn [nth]; auto. lia. }
  destruct Hnrm as (ns & En & Ln & L3 & Vn).
  set (xmin := fun _ : nat => 0%R). set (xmax := fun _ : nat => 1%R).
  assert (Hfar : forall p, In p points -> (vdist 3 (fun d => nth d p 0) (fun d => xmin d - (xmax d - xmin d)) < dbl_max)%R).
  { intros p Hin. apply Rlt_trans with 100%R.
    - unfold vdist, norm. rewrite dot3. replace 100%R with (sqrt (100 * 100)) by (apply sqrt_square; lra).
      apply sqrt_lt_1_alt. unfold xmin, xmax. simpl in Hin. destruct Hin as [<-|[<-|[<-|[<-|[]]]]]; cbn [nth]; split; lra.
    - unfold dbl_max. cbn [nofZ RNum]. apply IZR_lt. reflexivity. }
  destruct (@C26_outer_face false xmin xmax points faces _ ns Hp Eb Ln L3 ltac:(discriminate)) as (faces' & normals' & ip & fi & Ei & _); auto.
  { intros p Hlt. simpl in Hlt. destruct p as [|[|[|[|]]]]; [exists [0; 1; 2]|exists [0; 1; 2]|exists [0; 1; 2]|exists [1; 2; 3]|lia]; simpl; auto 10. }
  exists points, faces, [[0]; [0; 1]; [0; 1]; [1]], ns, faces', normals', xmin, xmax.
  split; auto. split; auto. split; auto. split; auto.
  assert (Eo : orient_faces false [[0]; [0; 1]; [0; 1]; [1]] faces = Ok [[0; 1; 2]; [2; 1; 3]]) by reflexivity.
  unfold impose_consistent_orientation in Ei. rewrite Eo in Ei. cbn [bind] in Ei.
  unfold adjust_cad_orientation in Ei. cbv zeta in Ei. destruct (fst (min_point _ _ _)) as [ip'|]; [|discriminate].
  apply bind_Ok_inv in Ei as (row & _ & Ei). apply bind_Ok_inv in Ei as (fi' & _ & Ei).
  apply bind_Ok_inv in Ei as (nn & _ & Ei). apply bind_Ok_inv in Ei as (pp & _ & Ei).
  assert (D0 : forall d, d < 3 -> at_point ns 0 d = unit_normal points [0; 1; 2] d) by (intros d Hd; apply (Vn 0); lia).
  assert (D1 : forall d, d < 3 -> at_point ns 1 d = unit_normal points [1; 2; 3] d) by (intros d Hd; apply (Vn 1); lia).
  destruct N0 as (A0 & A1 & A2), N1 as (B0 & B1 & B2), M1 as (C0 & C1 & C2), P0 as (F0 & F1 & F2), P1 as (G0 & G1 & G2).
  destruct (_ <? n0)%num.
  - cbn [swap_all swap23 aswap get nth_error bind set upd length Nat.ltb Nat.leb] in Ei.
    assert (E1 : faces' = [[0; 2; 1]; [2; 3; 1]]) by congruence. assert (E2 : normals' = map (map (@nopp R RNum)) ns) by congruence.
    subst faces' normals'. split; [apply consistentb_ok; [|reflexivity]; simpl; intuition (subst; reflexivity)|].
    cbn [nth]. rewrite !dot3, F0, F1, F2, G0, G1, G2. split; [ring|].
    assert (En' : forall i d, i < 2 -> d < 3 -> at_point (map (map (@nopp R RNum)) ns) i d = (- at_point ns i d)%R).
    { intros i d Hi Hd. unfold at_point. rewrite (nth_indep (map (map (@nopp R _)) ns) [] (map nopp []%list)) by (rewrite map_length; lia).
      rewrite map_nth. rewrite (nth_indep _ 0%R (@nopp R _ 0%R)). 2:{ rewrite map_length. rewrite L3; auto. apply nth_In. lia. }
      now rewrite map_nth. }
    rewrite !En', !D0, !D1, A0, A1, A2, B0, B1, B2 by lia. ring.
  - assert (E1 : faces' = [[0; 1; 2]; [2; 1; 3]]) by congruence. assert (E2 : normals' = ns) by congruence.
    subst faces' normals'. split; [apply consistentb_ok; [|reflexivity]; simpl; intuition (subst; reflexivity)|].
    cbn [nth]. rewrite !dot3, !D0, !D1, A0, A1, A2, B0, B1, B2, C0, C1, C2 by lia. split; ring.
Qed.

(** ** C52: sharp features *)
Theorem C52_features (thr : R) pts faces : proper_triangles (length pts) faces -> clean pts faces -> consistent faces ->
  exists edges corners, detect_features thr pts faces = Ok (edges, corners)
    /\ (forall a b, In (a, b) edges <-> a < b /\ is_sharp_edge thr pts faces a b)
    /\ ascending corners /\ (forall p, In p corners <-> p < length pts /\ is_sharp_corner thr pts faces p).
Proof. apply detect_ok. Qed.
(** Without consistent orientation: an edge of two faces is reported only if one of them
    runs along it from the smaller to the larger number. *)
Theorem C52_any_orientation (thr : R) pts faces edges corners : proper_triangles (length pts) faces -> clean pts faces ->
  detect_features thr pts faces = Ok (edges, corners) ->
  forall a b, In (a, b) edges <-> a < b /\ is_sharp_edge thr pts faces a b
    /\ (length (faces_with faces a b) = 2 -> exists f, In f faces /\ runs f a b).
Proof. intros Hp Hc E. eapply detect_edges; eauto. Qed.
(** The corner of a cube. *)
Definition corner4 : list (list R) := [[0; 0; 0]; [1; 0; 0]; [0; 1; 0]; [0; 0; 1]]%R.
Lemma corner4_clean faces : proper_triangles 4 faces -> clean corner4 faces.
Proof.
  intros (Ht & Hn).
  assert (Lo : forall t : R, (1 <= t)%R -> (1 <= sqrt t)%R) by (intros t Ht'; rewrite <- sqrt_1; apply sqrt_le_1_alt; auto).
  assert (Hi : forall t : R, (t <= 4)%R -> (sqrt t <= 2)%R).
  { intros t Ht'. replace 2%R with (sqrt 4). apply sqrt_le_1_alt; auto. replace 4%R with (2 * 2)%R by ring. apply sqrt_square; lra. }
  split; [|split].
  - intros p [<-|[<-|[<-|[<-|[]]]]]; reflexivity.
  - intros f Hf. destruct (Ht f Hf) as (H3 & Hin). specialize (Hn f Hf). destruct (triple _ H3) as (a & b & c & ->).
    apply nodup3 in Hn. assert (Ha : a < 4) by (apply Hin; simpl; auto). assert (Hb : b < 4) by (apply Hin; simpl; auto).
    assert (Hc : c < 4) by (apply Hin; simpl; auto). clear Hin Hf H3 Ht.
    unfold sliver, norm. rewrite !dot3. unfold vprod, sub, corner_points, at_point, corner4.
    destruct a as [|[|[|[|]]]]; try lia; destruct b as [|[|[|[|]]]]; try lia; destruct c as [|[|[|[|]]]]; try lia; cbn [nth];
      match goal with |- ~ (sqrt ?x < _ \/ sqrt ?y < _ \/ sqrt ?z < _)%R =>
        pose proof (Lo x ltac:(lra)); pose proof (Lo y ltac:(lra)); pose proof (Lo z ltac:(lra));
        pose proof (Hi x ltac:(lra)); pose proof (Hi y ltac:(lra)); pose proof (Rmult_le_compat (sqrt x) 2 (sqrt y) 2) end;
      intros [H'|[H'|H']]; lra.
  - intros p q Hp Hq Hpq. change (length corner4) with 4 in Hp, Hq. unfold vdist, norm. rewrite dot3. unfold at_point, corner4.
    destruct p as [|[|[|[|]]]]; try lia; destruct q as [|[|[|[|]]]]; try lia; cbn [nth];
      match goal with |- (_ <= sqrt ?x)%R => pose proof (Lo x ltac:(lra)) end; lra.
Qed.
Example C52_example : proper_triangles (length corner4) tetra /\ clean corner4 tetra /\ consistent tetra
  /\ is_sharp_edge (1 / 2)%R corner4 tetra 0 1 /\ ~ is_sharp_edge (-1)%R corner4 tetra 0 1.
Proof.
  split; [apply tetra_proper|]. split; [apply corner4_clean, tetra_proper|]. split; [apply tetra_consistent|].
  assert (Ew : faces_with tetra 0 1 = [0; 1]) by reflexivity.
  assert (Ed : dot 3 (unit_normal corner4 [0; 2; 1]) (unit_normal corner4 [0; 1; 3]) = 0%R).
  { unfold unit_normal. rewrite dot3. unfold norm. rewrite !dot3. unfold vprod, sub, corner_points, at_point, corner4. cbn [nth]. 
    match goal with |- context[sqrt ?x] => replace x with 1%R by ring end.
    match goal with |- context[sqrt ?x] => lazymatch x with 1%R => fail | _ => replace x with 1%R by ring end end || idtac.
    repeat match goal with |- context[sqrt ?x] => progress replace x with 1%R by ring end.
    rewrite ?sqrt_1. field. }
  unfold is_sharp_edge. rewrite Ew. split.
  - split; [discriminate|]. intros i j E. injection E as <- <-. cbn [nth tetra]. rewrite Ed. lra.
  - intros (_ & H). specialize (H 0 1 eq_refl). cbn [nth tetra] in H. rewrite Ed in H. lra.
Qed.
(** A sharp edge along which both faces run from the larger number to the smaller one is
    not found. *)
Theorem C52_orientation_refuted : exists (thr : R) pts faces pf normals edges,
  proper_triangles (length pts) faces /\ clean pts faces /\ is_sharp_edge thr pts faces 0 1
  /\ build_point_faces (length pts) faces = Ok pf /\ build_face_normals pts faces = Ok normals
  /\ sharp_edges thr faces pf normals = Ok edges /\ ~ In (0, 1) edges.
Proof.
  set (faces := [[1; 0; 2]; [1; 0; 3]]).
  assert (Hp : proper_triangles (length corner4) faces) by (apply properb_ok; reflexivity).
  pose proof (corner4_clean Hp) as Hc.
  destruct (build_ok (proj1 Hp)) as (pf & E1 & L1 & N1).
  destruct (@normals_ok corner4 faces Hp Hc faces (incl_refl _)) as (ns & E2 & L2 & N2).
  exists (1 / 2)%R, corner4, faces, pf, ns. eexists. split; auto. split; auto. split.
  - split; [discriminate|]. intros i j E. vm_compute in E. injection E as <- <-. cbn [nth faces].
    unfold unit_normal. rewrite dot3. unfold norm. rewrite !dot3. unfold vprod, sub, corner_points, at_point, corner4. cbn [nth].
    match goal with |- (?e < _)%R => replace e with 0%R; [lra|] end.
    repeat match goal with |- context[sqrt ?x] => progress replace x with 1%R by ring end.
    rewrite ?sqrt_1. field.
  - split; auto. split; auto. split; [apply (@sharp_edges_ok (1 / 2)%R corner4 faces pf Hp L1 N1 ns L2 N2)|].
    intros Hin. eapply listed in Hin; eauto. destruct Hin as (_ & _ & H). destruct (H eq_refl) as (f & Hf & Hr).
    destruct Hf as [<-|[<-|[]]]; apply runs3 in Hr; lia.
Qed.

Print Assumptions C22_weld.
Print Assumptions C22_collapsed_dropped_refuted.
Print Assumptions C23_remove_isolated.
Print Assumptions C24_point_faces.
Print Assumptions C24_exact.
Print Assumptions C24_out_of_range.
Print Assumptions C24_polygons_refuted.
Print Assumptions C25_edge_faces.
Print Assumptions C25_no_overrun.
Print Assumptions C25_filled_refuted.
Print Assumptions C25_water_tight.
Print Assumptions C25_exactly_two_refuted.
Print Assumptions C26_corners.
Print Assumptions C26_terminates.
Print Assumptions C26_consistent_kept.
Print Assumptions C26_growing_partial.
Print Assumptions C26_outer_face.
Print Assumptions C26_all_orders_refuted.
Print Assumptions C26_memory_refuted.
Print Assumptions C26_normals_refuted.
Print Assumptions C52_features.
Print Assumptions C52_any_orientation.
Print Assumptions C52_orientation_refuted.
