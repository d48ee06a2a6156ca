(** Proofs about MeshFiles.v. *)
From Coq Require Import Reals Lra.
From Verif Require Import Base Num SamplingSpec Vec KdSpec DenseQR Geometry GeometrySpec GeometryProofs Spheres PolyMesh PolyMeshProofs
  Regions RegionsSpec RegionsProofs Interior InteriorSpec InteriorTreeProofs InteriorProofs InteriorRunProofs SurfaceShrinkProofs
  MeshFiles MeshFilesSpec.
Local Open Scope R_scope.

(** ** Geometry *)
Lemma gram (n a b : nat -> R) : dot 3 n n = 1 -> dot 3 n a = 0 -> dot 3 n b = 0 -> 
  dot 3 n (vprod a b) * dot 3 n (vprod a b) = dot 3 (vprod a b) (vprod a b).
Proof.
  intros H1 H2 H3.
  assert (G : dot 3 n (vprod a b) * dot 3 n (vprod a b)
    = dot 3 n n * dot 3 (vprod a b) (vprod a b)
      - dot 3 n a * (dot 3 n a * dot 3 b b - dot 3 a b * dot 3 n b) + dot 3 n b * (dot 3 n a * dot 3 a b - dot 3 a a * dot 3 n b)).
  { rewrite !dot3. unfold vprod. ring. }
  rewrite G, H1, H2, H3. ring.
Qed.
Lemma flat_norm (n a b : nat -> R) : dot 3 n n = 1 -> dot 3 n a = 0 -> dot 3 n b = 0 -> 0 <= dot 3 n (vprod a b) ->
  norm 3 (vprod a b) = dot 3 n (vprod a b).
Proof. intros H1 H2 H3 H4. unfold norm. rewrite <- (@gram n a b H1 H2 H3). now apply sqrt_square. Qed.
Lemma length3_R (u : nat -> R) : length3 u = norm 3 u.
Proof. unfold length3, norm. rewrite dot3. reflexivity. Qed.
Lemma half_eq : @nlit R _ 5 1 = / 2.
Proof. unfold nlit. cbn [nofZ ndiv RNum]. replace (10 ^ Z.of_nat 1)%Z with 10%Z by reflexivity. lra. Qed.
Lemma norm_eq u v : (forall d, (d < 3)%nat -> u d = v d) -> norm 3 u = norm 3 v.
Proof. apply norm_ext. Qed.

(** ** The fan *)
Definition fan (P : nat -> nat -> R) (i : nat) : R := norm 3 (vprod (diff (P i) (P 0%nat)) (diff (P (S i)) (P 0%nat))).
Lemma fan_sum (n : nat -> R) (P : nat -> nat -> R) m :
  (forall i, (1 <= i)%nat -> (i <= m)%nat -> fan P i = dot 3 n (vprod (diff (P i) (P 0%nat)) (diff (P (S i)) (P 0%nat)))) ->
  sumn m (fun i => fan P (S i)) = sumn (S m) (fun i => dot 3 n (vprod (P i) (P (S i)))) + dot 3 n (vprod (P (S m)) (P 0%nat)).
Proof.
  induction m as [|m IH]; intros Hf.
  - rewrite sumn_S, !sumn_0, !dot3. unfold vprod. ring.
  - rewrite sumn_S, IH by (intros; apply Hf; lia). rewrite Hf by lia. rewrite (sumn_S (S m)). rewrite !dot3. unfold vprod, diff. ring.
Qed.
Lemma fan_area (n : nat -> R) (p : list (list R)) : convex_polygon n p -> (3 <= length p)%nat ->
  / 2 * sumn (length p - 2) (fun i => fan (corner p) (S i)) = polygon_area n p.
Proof.
  intros (C1 & C2 & C3) L. unfold polygon_area. f_equal. rewrite (@fan_sum n).
  - set (g := fun i => dot 3 n (vprod (corner p i) (corner p (S i)))).
    transitivity (sumn (S (S (length p - 2))) g); [|f_equal; lia]. rewrite (sumn_S (S (length p - 2))). f_equal. unfold g.
    replace (S (length p - 2)) with (length p - 1)%nat by lia.
    assert (E : forall d, corner p (S (length p - 1)) d = corner p 0 d).
    { intros d. unfold corner. replace (S (length p - 1)) with (length p) by lia. now rewrite Nat.mod_same, Nat.mod_0_l by lia. }
    rewrite !dot3. unfold vprod. rewrite !E. reflexivity.
  - intros i H1 H2. apply flat_norm; auto. specialize (C3 i 0%nat). 
    replace (dot 3 n (vprod (diff (corner p i) (corner p 0)) (diff (corner p (S i)) (corner p 0))))
      with (dot 3 n (vprod (diff (corner p (S i)) (corner p i)) (diff (corner p 0) (corner p i)))); [exact C3|].
    rewrite !dot3. unfold vprod, diff. ring.
Qed.

(** ** The lines *)
Lemma row_nth (l : list nat) (i j : nat) (k : nat) : (k < length l)%nat -> nth_error (length l :: l ++ [i; j]) (S k) = nth_error l k.
Proof. intros Hk. cbn [nth_error]. now rewrite nth_error_app1. Qed.
Lemma fold_sum (g : nat -> R) (step : nat -> R -> res R) : forall l a, (forall i s, In i l -> step i s = Ok (s + g i)) ->
  fold_res step l a = Ok (a + rsum (map g l)).
Proof.
  induction l as [|i l IH]; intros a Hs; cbn [fold_res map]; [unfold rsum; cbn; f_equal; lra|].
  rewrite Hs by now left. cbn [bind]. rewrite IH by (intros; apply Hs; now right). f_equal. unfold rsum. cbn [fold_right]. lra.
Qed.
Lemma face_area_ok (vertices : list (list R)) (l : list nat) i j : Forall (fun k => (k < length vertices)%nat) l -> (1 <= length l)%nat ->
  face_area vertices (length l :: l ++ [i; j])
  = Ok (/ 2 * sumn (length l - 2) (fun k => fan (corner (map (fun c => nth c vertices []) l)) (S k))).
Proof.
  intros Hv L. unfold face_area. set (f := length l :: l ++ [i; j]). set (p := map (fun c => nth c vertices []) l).
  rewrite Forall_forall in Hv.
  assert (Get : forall k, (k < length l)%nat -> get f (S k) = Ok (nth k l 0%nat) /\ get vertices (nth k l 0%nat) = Ok (nth k p [])).
  { intros k Hk. destruct (nth_error l k) as [c|] eqn:Ec; [|apply nth_error_None in Ec; lia].
    pose proof (nth_error_In _ _ Ec) as Hc. apply Hv in Hc. split.
    - unfold f. unfold get. rewrite row_nth by auto. rewrite Ec. apply nth_error_nth with (d := 0%nat) in Ec. now rewrite Ec.
    - pose proof (nth_error_nth _ _ 0%nat Ec) as En. rewrite En. rewrite (@get_nth _ vertices c []) by auto. f_equal. unfold p.
      symmetry. etransitivity; [apply (@nth_indep _ (map (fun c => nth c vertices []) l) k [] ((fun c => nth c vertices []) 0%nat)); rewrite map_length; lia|].
      rewrite (map_nth (fun c => nth c vertices []) l 0%nat k). now rewrite En. }
  destruct (Get 0%nat ltac:(lia)) as (G1 & G2). change (get f 1) with (get f (S 0)). rewrite G1. cbn [bind]. 
  replace (get f 0) with (@Ok nat (length l)) by reflexivity. cbn [bind].
  assert (Lp : length p = length l) by (unfold p; apply map_length).
  assert (Cp : forall k d, (k < length l)%nat -> corner p k d = gv (nth k p []) d).
  { intros k d Hk. unfold corner. rewrite Nat.mod_small by lia. reflexivity. }
  erewrite (@fold_sum (fun k => / 2 * fan (corner p) (k - 1))).
  - f_equal. change (@n0 R _) with 0. rewrite Rplus_0_l. unfold sumn. rewrite <- (seq_shift (length l - 2) 1), <- (seq_shift (length l - 2) 0), !map_map.
    clear. induction (seq 0 (length l - 2)) as [|k t IH]; unfold rsum in *; cbn [map fold_right]; [lra|]. rewrite IH.
    replace (S (S k) - 1)%nat with (S k) by lia. lra.
  - intros k s Hk. apply in_seq in Hk. destruct k as [|k]; [lia|].
    destruct (Get k ltac:(lia)) as (E1 & E2). destruct (Get (S k) ltac:(lia)) as (E3 & E4). rewrite E1, E3. cbn [bind]. rewrite G2, E2, E4. cbn [bind].
    rewrite half_eq, length3_R. f_equal. cbn [nadd nmul RNum]. f_equal. f_equal. unfold fan. replace (S k - 1)%nat with k by lia.
    apply norm_ext. intros d Hd. rewrite cross_vprod. unfold vprod, diff, minus. rewrite !Cp by lia. reflexivity.
Qed.

(** ** Numbers of the cells *)
Definition inside (regs : list nat) (s : nat) : bool := negb (nth s regs 0 =? 0)%nat.
Definition idx_of (regs : list nat) : list nat := filter (inside regs) (seq 0 (length regs)).
Lemma idx_snoc pre r : idx_of (pre ++ [r]) = idx_of pre ++ (if (r =? 0)%nat then [] else [length pre]).
Proof.
  unfold idx_of. rewrite app_length. cbn [length]. rewrite Nat.add_1_r, seq_S, filter_app. f_equal.
  - apply filter_ext_in. intros s Hs. apply in_seq in Hs. unfold inside. rewrite app_nth1 by lia. reflexivity.
  - cbn [filter]. unfold inside. rewrite app_nth2 by lia. cbn [Nat.add]. rewrite Nat.sub_diag. cbn [nth]. destruct (r =? 0)%nat; reflexivity.
Qed.
Lemma idx_meshed regs : meshed_seeds regs (idx_of regs).
Proof.
  split.
  - unfold idx_of. assert (G : forall k n, StronglySorted lt (filter (inside regs) (seq k n))).
    { intros k n. revert k. induction n as [|n IH]; intros k; cbn [seq filter]; [constructor|]. destruct (inside regs k); auto. constructor; auto.
      apply Forall_forall. intros s Hs. apply filter_In in Hs. destruct Hs as (Hs & _). apply in_seq in Hs. lia. }
    apply G.
  - intros s. unfold idx_of. rewrite filter_In, in_seq. unfold inside. destruct (Nat.eqb_spec (nth s regs 0%nat) 0); cbn [negb]; intuition; try lia; try discriminate.
Qed.
Lemma new_index_ok regs : exists index, new_index regs = (index, length (idx_of regs)) /\ length index = length regs
  /\ forall s, (s < length regs)%nat -> nth s regs 0%nat <> 0%nat -> exists k, nth_error index s = Some k /\ nth_error (idx_of regs) k = Some s.
Proof.
  unfold new_index. generalize (length regs) at 1. intros N.
  induction regs as [|r pre IH] using rev_ind; [exists []; cbn; split; auto; split; auto; intros; lia|].
  destruct IH as (index & E & L & G). rewrite fold_left_app, E. cbn [fold_left]. rewrite idx_snoc, !app_length. cbn [length].
  assert (G' : forall v s tl, (s < length pre)%nat -> nth s (pre ++ [r]) 0%nat <> 0%nat ->
    exists k, nth_error (index ++ [v]) s = Some k /\ nth_error (idx_of pre ++ tl) k = Some s).
  { intros v s tl Hs Hn. rewrite app_nth1 in Hn by lia. destruct (G s Hs Hn) as (k & E1 & E2). exists k. split.
    - rewrite nth_error_app1 by lia. exact E1.
    - rewrite nth_error_app1; [exact E2|]. apply nth_error_Some. congruence. }
  destruct (Nat.eqb_spec r 0) as [->|Hr].
  - exists (index ++ [N]). rewrite app_length. cbn [length]. rewrite !Nat.add_0_r. split; [reflexivity|]. split; [lia|]. intros s Hs Hn.
    destruct (Nat.eq_dec s (length pre)) as [->|Hne]; [exfalso; apply Hn; rewrite app_nth2, Nat.sub_diag by lia; reflexivity|]. apply G'; [lia|exact Hn].
  - exists (index ++ [length (idx_of pre)]). rewrite app_length. cbn [length]. rewrite Nat.add_1_r. split; [reflexivity|]. split; [lia|]. intros s Hs Hn.
    destruct (Nat.eq_dec s (length pre)) as [->|Hne]; [|apply G'; [lia|exact Hn]].
    exists (length (idx_of pre)). split; [rewrite nth_error_app2, L, Nat.sub_diag by lia; reflexivity|].
    rewrite nth_error_app2, Nat.sub_diag by lia. reflexivity.
Qed.

Section Vcg.
  Variables (seeds : list (list R)) (regs : list nat) (vertices : list (list R)) (faces rows : list (list nat)) (m : nat).
  Hypothesis Hlen : length regs = length seeds.
  Hypothesis Hmesh : mesh_of (length regs) faces.
  Hypothesis Hcorn : forall f, In f faces -> exists l i j, f = length l :: l ++ [i; j] /\ (3 <= length l)%nat
    /\ Forall (fun k => (k < length vertices)%nat) l /\ nth i regs 0%nat <> 0%nat.
  Hypothesis Hrows : cell_faces regs faces = Ok (rows, m).
  Definition poly (l : list nat) : list (list R) := map (fun c => nth c vertices []) l.
  (** Area and height of face k. *)
  Definition area_of (k : nat) : R :=
    match nth k faces [] with
    | n :: t => / 2 * sumn (n - 2) (fun q => fan (corner (poly (firstn n t))) (S q))
    | [] => 0
    end.
  Definition height_of (k : nat) : R :=
    let f := nth k faces [] in cdist (nth (nth (hd 0%nat f + 1) f 0%nat) seeds []) (nth (nth (hd 0%nat f + 2) f 0%nat) seeds []) / 2.
  Lemma row_ends (l : list nat) i j : nth (length l + 1) (length l :: l ++ [i; j]) 0%nat = i /\ nth (length l + 2) (length l :: l ++ [i; j]) 0%nat = j.
  Proof.
    replace (length l + 1)%nat with (S (length l)) by lia. replace (length l + 2)%nat with (S (length l + 1)) by lia. cbn [nth].
    rewrite !app_nth2 by lia. rewrite Nat.sub_diag. replace (length l + 1 - length l)%nat with 1%nat by lia. split; reflexivity.
  Qed.
  Lemma row_face_seeds (l : list nat) i j : face_seeds (length l :: l ++ [i; j]) = Ok (i, j).
  Proof. apply face_seeds_ok. exists l. reflexivity. Qed.
  Lemma cell_faces_in c row : (c < length regs)%nat -> nth_error rows c = Some row -> nth c regs 0%nat <> 0%nat ->
    row = faces_around faces c /\ Forall (fun k => (k < length faces)%nat) row.
  Proof using Hmesh Hrows.
    clear - Hmesh Hrows.
    intros Hc Er Hn. destruct (@cell_faces_ok regs faces Hmesh) as (rows' & E & L & G). rewrite E in Hrows. injection Hrows as -> _.
    rewrite (G c Hc) in Er. destruct (Nat.eqb_spec (nth c regs 0%nat) 0); [contradiction|]. injection Er as <-. split; [reflexivity|].
    apply Forall_forall. intros k Hk. unfold faces_around in Hk. apply in_flat_map in Hk. destruct Hk as (q & Hq & Hk).
    apply repeat_spec in Hk. subst q. apply in_seq in Hq. lia.
  Qed.
  Lemma area_height_ok : exists ah, area_height vertices seeds faces = Ok ah /\ length ah = length faces
    /\ forall k, (k < length faces)%nat -> nth_error ah k = Some (area_of k, height_of k).
  Proof using Hlen Hmesh Hcorn.
    clear - Hlen Hmesh Hcorn.
    assert (A : forall k f, nth_error faces k = Some f -> (a <- face_area vertices f ;; h <- face_height seeds f ;; Ok (a, h)) = Ok (area_of k, height_of k)).
    { intros k f Ef. destruct (@Hcorn _ (nth_error_In _ _ Ef)) as (l & i & j & -> & L3 & Hv & _).
      rewrite face_area_ok by (auto; lia). cbn [bind]. unfold face_height. rewrite row_face_seeds. cbn [bind].
      destruct (@Hmesh _ (nth_error_In _ _ Ef)) as (i' & j' & Hb & Hi & Hj). apply face_seeds_ok in Hb. rewrite row_face_seeds in Hb. injection Hb as <- <-.
      rewrite (@get_nth _ seeds i []), (@get_nth _ seeds j []) by lia. cbn [bind]. rewrite half_eq, length3_R.
      unfold area_of, height_of. rewrite (nth_error_nth _ _ [] Ef). cbn [hd].
      destruct (row_ends l i j) as (E1 & E2). rewrite E1, E2. rewrite firstn_app, Nat.sub_diag, firstn_all. cbn [firstn]. rewrite app_nil_r.
      f_equal. f_equal. unfold cdist, vdist. cbn [nmul RNum]. unfold minus, gv, vec. change (@n0 R _) with 0. cbn [nsub RNum]. lra. }
    unfold area_height.
    assert (M : forall l, (forall k f, In (k, f) l -> nth_error faces k = Some f) ->
      mapr (fun f => a <- face_area vertices f ;; h <- face_height seeds f ;; Ok (a, h)) (map snd l) = Ok (map (fun p => (area_of (fst p), height_of (fst p))) l)).
    { induction l as [|[k f] l IH]; intros Hl; cbn [map mapr fst snd]; [reflexivity|].
      rewrite (A k f) by (apply Hl; now left). cbn [bind]. rewrite IH by (intros; apply Hl; now right). reflexivity. }
    specialize (M (numbered faces)). replace (map snd (numbered faces)) with faces in M.
    2:{ unfold numbered. clear. generalize 0%nat. induction faces as [|f t IH]; intros k; cbn [length seq combine map snd]; [reflexivity|]. now rewrite <- IH. }
    rewrite M by (intros k f Hin; apply in_numbered in Hin; exact Hin). eexists. split; [reflexivity|].
    split; [rewrite map_length; unfold numbered; rewrite combine_length, seq_length; lia|].
    intros k Hk. rewrite nth_error_map, numbered_nth. destruct (nth_error faces k) eqn:E; [reflexivity|apply nth_error_None in E; lia].
  Qed.
  Lemma cell_volume_ok ah row : (forall k, (k < length faces)%nat -> nth_error ah k = Some (area_of k, height_of k)) ->
    Forall (fun k => (k < length faces)%nat) row -> cell_volume ah row = Ok (rsum (map (fun k => area_of k * height_of k / 3) row)).
  Proof using.
    clear.
    intros Ha Hr. unfold cell_volume. rewrite (@fold_sum (fun k => area_of k * height_of k / 3)).
    - f_equal. change (@n0 R _) with 0. lra.
    - intros k s Hk. rewrite Forall_forall in Hr. rewrite (get_some (Ha k (Hr k Hk))). cbn [bind]. reflexivity.
  Qed.
  Definition cell_line (index : list nat) (s : nat) : vcg_cell R :=
    VCell (S (nth s index 0%nat)) (map (gv (nth s seeds [])) [0; 1; 2]%nat) (rsum (map (fun k => area_of k * height_of k / 3) (faces_around faces s))) (nth s regs 0%nat).
  Lemma write_cells_ok index ah : length index = length regs -> 
    (forall k, (k < length faces)%nat -> nth_error ah k = Some (area_of k, height_of k)) ->
    write_cells seeds regs index rows ah = Ok (map (cell_line index) (idx_of regs)).
  Proof using Hlen Hmesh Hrows.
    clear - Hlen Hmesh Hrows.
    intros Li Ha. unfold write_cells, idx_of. rewrite <- Hlen.
    assert (G : forall l out, (forall s, In s l -> (s < length regs)%nat) ->
      fold_res (fun s out => r <- get regs s ;;
        if (r =? 0)%nat then Ok out
        else row <- get rows s ;; vol <- cell_volume ah row ;; k <- get index s ;; x <- get seeds s ;;
          Ok (out ++ [VCell (S k) [gv x 0%nat; gv x 1%nat; gv x 2%nat] vol r])) l out = Ok (out ++ map (cell_line index) (filter (inside regs) l))).
    { induction l as [|s l IH]; intros out Hl; cbn [fold_res filter map]; [now rewrite app_nil_r|].
      assert (Hs : (s < length regs)%nat) by (apply Hl; now left).
      rewrite (@get_nth _ regs s 0%nat) by auto. cbn [bind]. unfold inside at 1. destruct (Nat.eqb_spec (nth s regs 0%nat) 0) as [E0|E0]; cbn [negb].
      - cbn [bind]. apply IH. intros; apply Hl; now right.
      - destruct (nth_error rows s) as [row|] eqn:Er.
        2:{ exfalso. destruct (@cell_faces_ok regs faces Hmesh) as (rows' & E & L & _). rewrite E in Hrows. injection Hrows as -> _. apply nth_error_None in Er. lia. }
        rewrite (get_some Er). cbn [bind]. destruct (@cell_faces_in s row Hs Er E0) as (-> & Hrow).
        rewrite (@cell_volume_ok ah _ Ha Hrow). cbn [bind]. rewrite (@get_nth _ index s 0%nat), (@get_nth _ seeds s []) by lia. cbn [bind].
        rewrite IH by (intros; apply Hl; now right). rewrite <- app_assoc. reflexivity. }
    apply (G (seq 0 (length regs)) []). intros s Hs. apply in_seq in Hs. lia.
  Qed.
  Definition link_line (index : list nat) (k i j : nat) : vcg_link R :=
    let x := nth i seeds [] in let y := nth j seeds [] in
    VLink (S (nth i index 0%nat)) (S (if (nth j regs 0 =? 0)%nat then nth i index 0%nat else nth j index 0%nat))
      (map (fun d => (gv x d + gv y d) / 2) [0; 1; 2]%nat) (area_of k) (map (fun d => (gv y d - gv x d) / cdist x y) [0; 1; 2]%nat).
  Lemma write_link_ok index ah k l i j : length index = length regs ->
    (forall k, (k < length faces)%nat -> nth_error ah k = Some (area_of k, height_of k)) ->
    nth_error faces k = Some (length l :: l ++ [i; j]) ->
    write_link seeds regs index ah (k, length l :: l ++ [i; j]) = Ok (link_line index k i j).
  Proof using Hlen Hmesh.
    clear - Hlen Hmesh.
    intros Li Ha Ef. unfold write_link. rewrite row_face_seeds. cbn [bind].
    destruct (@Hmesh _ (nth_error_In _ _ Ef)) as (i' & j' & Hb & Hi & Hj). apply face_seeds_ok in Hb. rewrite row_face_seeds in Hb. injection Hb as <- <-.
    rewrite (@get_nth _ seeds j []), (@get_nth _ seeds i []), (@get_nth _ index i 0%nat), (@get_nth _ regs j 0%nat) by lia. cbn [bind].
    assert (Hk : (k < length faces)%nat) by (apply nth_error_Some; congruence).
    assert (N : length3 (minus (nth j seeds []) (nth i seeds [])) = cdist (nth i seeds []) (nth j seeds [])).
    { rewrite length3_R. unfold cdist. rewrite vdist_sym. reflexivity. }
    unfold link_line. destruct (Nat.eqb_spec (nth j regs 0%nat) 0) as [E0|E0].
    - cbn [bind]. rewrite (get_some (Ha k Hk)). cbn [bind]. rewrite N. f_equal. f_equal. rewrite half_eq. cbn [map nadd nmul RNum].
      f_equal; [lra|f_equal; [lra|f_equal; lra]].
    - rewrite (@get_nth _ index j 0%nat) by lia. cbn [bind]. rewrite (get_some (Ha k Hk)). cbn [bind]. rewrite N. f_equal. f_equal. rewrite half_eq. cbn [map nadd nmul RNum].
      f_equal; [lra|f_equal; [lra|f_equal; lra]].
  Qed.
End Vcg.

Lemma Forall2_at {A B} (P : A -> B -> Prop) l l' i a : Forall2 P l l' -> nth_error l i = Some a -> exists b, nth_error l' i = Some b /\ P a b.
Proof. intros HF. revert i. induction HF; intros [|i] E; cbn in *; try discriminate; [injection E as <-; eauto|auto]. Qed.

(** ** PLY *)
Lemma ply_row_ok (l : list nat) tl : ply_row (length l :: l ++ tl) = Ok (length l :: l).
Proof.
  unfold ply_row. cbn [get nth_error bind].
  assert (E : mapr (get (length l :: l ++ tl)) (seq 1 (length l)) = Ok (map (fun k => nth (k - 1) l 0%nat) (seq 1 (length l)))).
  { apply mapr_ok. intros k Hk. apply in_seq in Hk. destruct k as [|k]; [lia|]. unfold get. cbn [nth_error]. rewrite nth_error_app1 by lia.
    destruct (nth_error l k) as [c|] eqn:Ec; [|apply nth_error_None in Ec; lia]. replace (S k - 1)%nat with k by lia. now rewrite (nth_error_nth _ _ 0%nat Ec). }
  rewrite E. cbn [bind]. f_equal. f_equal. rewrite <- seq_shift, map_map. apply nth_ext with (d := 0%nat) (d' := 0%nat); [now rewrite map_length, seq_length|].
  intros k Hk. rewrite map_length, seq_length in Hk. 
  etransitivity; [apply (@nth_indep _ _ k 0%nat ((fun x => nth (S x - 1) l 0%nat) 0%nat)); now rewrite map_length, seq_length|].
  rewrite (map_nth (fun x => nth (S x - 1) l 0%nat)), seq_nth by auto. cbn [Nat.add]. f_equal. lia.
Qed.
Lemma in_front_ok (vertices : list (list R)) xo e (l : list nat) i j : Forall (fun k => (k < length vertices)%nat) l ->
  exists b, valid_face vertices xo e (row l i j) = Ok b /\ (b = true <-> forall c, In c l -> ~ behind xo e (nth c vertices [])).
Proof.
  intros Hv. unfold valid_face, row. cbn [get nth_error bind]. rewrite Forall_forall in Hv.
  assert (G : forall post pre, l = pre ++ post -> exists b,
    in_front vertices xo e (length l :: l ++ [i; j]) (seq (S (length pre)) (length post)) = Ok b
    /\ (b = true <-> forall c, In c post -> ~ behind xo e (nth c vertices []))).
  { induction post as [|c post IH]; intros pre El; cbn [length seq in_front]; [exists true; split; [reflexivity|split; [intros _ c []|auto]]|].
    assert (Hc : In c l) by (rewrite El; apply in_or_app; right; now left).
    replace (get (length l :: l ++ [i; j]) (S (length pre))) with (@Ok nat c).
    2:{ unfold get. cbn [nth_error]. rewrite nth_error_app1 by (rewrite El, app_length; cbn [length]; lia). rewrite El at 1.
        rewrite nth_error_app2, Nat.sub_diag by lia. reflexivity. }
    cbn [bind]. rewrite (@get_nth _ vertices c []) by auto. cbn [bind].
    assert (E : range_sum 0 3 (fun d => (gv (nth c vertices []) d - gv xo d) * gv e d)%num = dot 3 (diff (vec (nth c vertices [])) (vec xo)) (vec e)).
    { rewrite range0_R. apply sumn_ext. intros d _. reflexivity. }
    rewrite E, tol_eq. destruct (nltb _ _) eqn:Eb; [apply Rltb_true in Eb|apply Rltb_false in Eb].
    - exists false. split; [reflexivity|]. split; [discriminate|]. intros Hall. exfalso. apply (Hall c); [now left|exact Eb].
    - destruct (IH (pre ++ [c])) as (b & Eb' & Hb); [rewrite El, <- app_assoc; reflexivity|]. rewrite app_length in Eb'. cbn [length] in Eb'.
      rewrite Nat.add_1_r in Eb'. exists b. split; [exact Eb'|]. rewrite Hb. split.
      + intros Hall c' [<-|Hin]; [unfold behind; cbn [nopp RNum] in Eb; lra|auto].
      + intros Hall c' Hin. apply Hall. now right. }
  exact (G l [] eq_refl).
Qed.
Lemma cut_rows (vertices : list (list R)) xo e : forall faces k0,
  (forall f, In f faces -> exists l i j, f = row l i j /\ Forall (fun k => (k < length vertices)%nat) l) ->
  exists valid rows keep, mapr (valid_face vertices xo e) faces = Ok valid
    /\ mapr (fun '(b, f) => if (b : bool) then r <- ply_row f ;; Ok [r] else Ok []) (combine valid faces) = Ok rows
    /\ length (filter (fun b => b) valid) = length keep /\ length (concat rows) = length keep
    /\ StronglySorted lt keep
    /\ (forall k, In k keep <-> (k0 <= k < k0 + length faces)%nat
          /\ forall l i j, nth_error faces (k - k0) = Some (row l i j) -> forall c, In c l -> ~ behind xo e (nth c vertices []))
    /\ (forall q k l i j, nth_error keep q = Some k -> nth_error faces (k - k0) = Some (row l i j) -> nth_error (concat rows) q = Some (length l :: l)).
Proof.
  induction faces as [|f faces IH]; intros k0 Hf.
  - exists [], [], []. cbn. do 5 (split; [first [reflexivity|constructor]|]). split; [intros k; split; [intros []|intros (H & _); lia]|].
    intros q k l i j E. destruct q; discriminate.
  - destruct (IH (S k0)) as (valid & rows & keep & E1 & E2 & L1 & L2 & S1 & K1 & K2); [intros; apply Hf; now right|].
    destruct (Hf f (or_introl eq_refl)) as (l0 & i0 & j0 & -> & Hv0). destruct (@in_front_ok vertices xo e l0 i0 j0 Hv0) as (b & Eb & Hb).
    assert (U : forall l i j, row l0 i0 j0 = row l i j -> l = l0).
    { intros l i j E. pose proof (f_equal ply_row E) as E'. unfold row in E'. rewrite !ply_row_ok in E'. congruence. }
    assert (Shift : forall k, (S k0 <= k)%nat -> nth_error (row l0 i0 j0 :: faces) (k - k0) = nth_error faces (k - S k0)).
    { intros k Hk. replace (k - k0)%nat with (S (k - S k0)) by lia. reflexivity. }
    exists (b :: valid), ((if b then [length l0 :: l0] else []) :: rows), (if b then k0 :: keep else keep).
    cbn [mapr]. rewrite Eb. cbn [bind]. rewrite E1. cbn [bind combine mapr]. split; [reflexivity|]. split; [|split; [|split; [|split; [|split]]]].
    + destruct b; [unfold row at 1; rewrite ply_row_ok|]; cbn [bind]; rewrite E2; reflexivity.
    + destruct b; cbn [filter length]; lia.
    + cbn [concat]. rewrite app_length. destruct b; cbn [length]; lia.
    + destruct b; [|exact S1]. constructor; [exact S1|]. apply Forall_forall. intros k Hk. apply K1 in Hk. lia.
    + intros k. assert (G : In k keep <-> (S k0 <= k < S k0 + length faces)%nat /\ forall l i j, nth_error (row l0 i0 j0 :: faces) (k - k0) = Some (row l i j) ->
        forall c, In c l -> ~ behind xo e (nth c vertices [])).
      { rewrite K1. split; intros (H1 & H2); (split; [lia|]); intros l i j E; [rewrite Shift in E by lia|rewrite <- Shift in E by lia]; eauto. }
      assert (G0 : (forall l i j, nth_error (row l0 i0 j0 :: faces) (k0 - k0) = Some (row l i j) -> forall c, In c l -> ~ behind xo e (nth c vertices [])) <-> b = true).
      { rewrite Hb, Nat.sub_diag. cbn [nth_error]. split; [intros Hall; apply (Hall l0 i0 j0); reflexivity|].
        intros Hall l i j E. assert (E' : row l0 i0 j0 = row l i j) by congruence. apply U in E'. subst l. exact Hall. }
      cbn [length]. destruct b.
      * cbn [In]. rewrite G. split; [intros [<-|(H1 & H2)]; [split; [lia|apply G0; reflexivity]|split; [lia|exact H2]]|].
        intros (H1 & H2). destruct (Nat.eq_dec k0 k) as [->|Hne]; [now left|]. right. split; [lia|exact H2].
      * rewrite G. split; intros (H1 & H2); (split; [|exact H2]); [lia|]. destruct (Nat.eq_dec k0 k) as [->|Hne]; [apply G0 in H2; discriminate|lia].
    + intros q k l i j Ek El. destruct b.
      * destruct q as [|q]; cbn [nth_error concat app] in *.
        -- injection Ek as <-. rewrite Nat.sub_diag in El. cbn [nth_error] in El. assert (E' : row l0 i0 j0 = row l i j) by congruence. apply U in E'. now subst l.
        -- assert (Hk : In k keep) by (eapply nth_error_In; eauto). apply K1 in Hk. rewrite Shift in El by lia. eapply K2; eauto.
      * cbn [concat app]. assert (Hk : In k keep) by (eapply nth_error_In; eauto). apply K1 in Hk. rewrite Shift in El by lia. eapply K2; eauto.
Qed.
Lemma cut_ok (vertices : list (list R)) (faces : list (list nat)) xo e :
  (forall f, In f faces -> exists l i j, f = row l i j /\ Forall (fun k => (k < length vertices)%nat) l) ->
  exists file keep, save_tessellation_cut vertices faces xo e = Ok file
    /\ ply_nv file = length vertices /\ length (ply_vertices file) = length vertices
    /\ positions_of (length faces) (fun k => forall l i j, nth_error faces k = Some (row l i j) -> forall c, In c l -> ~ behind xo e (nth c vertices [])) keep
    /\ ply_nf file = length (ply_faces file) /\ length (ply_faces file) = length keep
    /\ (forall q k l i j, nth_error keep q = Some k -> nth_error faces k = Some (row l i j) -> nth_error (ply_faces file) q = Some (length l :: l)).
Proof.
  intros Hf. destruct (@cut_rows vertices xo e faces 0 Hf) as (valid & rows & keep & E1 & E2 & L1 & L2 & S1 & K1 & K2).
  unfold save_tessellation_cut. rewrite E1. cbn [bind]. rewrite E2. cbn [bind]. eexists _, keep. split; [reflexivity|].
  cbn [ply_nv ply_nf ply_vertices ply_faces]. unfold ply_points. rewrite map_length. split; [reflexivity|]. split; [reflexivity|].
  split; [split; [exact S1|]|split; [lia|split; [exact L2|]]].
  - intros k. rewrite K1. rewrite Nat.sub_0_r. cbn [Nat.add]. split; intros (H1 & H2); (split; [lia|exact H2]).
  - intros q k l i j Ek El. apply (K2 q k l i j Ek). rewrite Nat.sub_0_r. exact El.
Qed.
