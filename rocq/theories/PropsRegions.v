(** C39, C40, C46, C47: regions and cells of the volume mesh, shuffles, monitoring points. *)
From Coq Require Import Reals Lra Relations Sorted.
From Verif Require Import Base Num KdTree SmartTree KdSpec PolyMesh Regions RegionsSpec RegionsProofs MonitorSpec MonitorProofs.

(** ** C39: regions *)
(** Merging always ends; it renames regions, never to a larger number, a renamed region
    keeps its name if merged again, and regions that end up the same are linked by faces
    between interior seeds.  The reported number of regions is the number of different
    names less one. *)
Theorem C39_regions nss regs faces : mesh_of (length regs) faces ->
  exists rename k, merge_regions nss regs faces = Ok (map rename regs, k)
    /\ (forall r, In r regs -> rename r <= r /\ rename (rename r) = rename r)
    /\ (forall a b, In a regs -> In b regs -> rename a = rename b -> linked nss regs faces a b)
    /\ S k = length (nodup Nat.eq_dec (map rename (seq 0 (S (list_max regs))))).
Proof.
  intros Hm. destruct (@merge_regions_ok nss regs faces Hm) as (g & k & E & Ek & G & _). exists g, k. split; auto.
  assert (B : forall r, In r regs -> r < count_regions regs) by (intros; now apply count_regions_lt).
  split; [|split].
  - intros r Hr. apply B in Hr. destruct (G r Hr) as (G1 & G2 & _). auto.
  - intros a b Ha Hb Eab. apply B in Ha, Hb. destruct (G a Ha) as (_ & _ & La), (G b Hb) as (_ & _ & Lb).
    rewrite Eab in La. apply rst_trans with (g b); auto. now apply rst_sym.
  - rewrite Ek. f_equal. f_equal. f_equal. f_equal. unfold count_regions. f_equal.
    enough (H : forall l m, fold_left (fun m r => if m <? r then r else m) l m = Nat.max m (list_max l)) by now rewrite H.
    induction l as [|a l IH]; intros m; cbn [fold_left list_max fold_right]; [now rewrite Nat.max_0_r|].
    rewrite IH. fold (list_max l). destruct (Nat.ltb_spec m a); lia.
Qed.

(** When every region meets at most one region with a smaller number, linked regions do
    end up the same. *)
Theorem C39_linked_partial nss regs faces : mesh_of (length regs) faces -> one_smaller nss regs faces ->
  forall regs' k, merge_regions nss regs faces = Ok (regs', k) ->
  forall i j a b a' b', nth_error regs i = Some a -> nth_error regs j = Some b ->
    nth_error regs' i = Some a' -> nth_error regs' j = Some b' -> (a' = b' <-> linked nss regs faces a b).
Proof.
  intros Hm H1 regs' k E i j a b a' b' Ea Eb Ea' Eb'.
  destruct (@merge_regions_ok nss regs faces Hm) as (g & k' & E' & Ek & G & C). rewrite E in E'. inversion E'; subst.
  rewrite nth_error_map, Ea in Ea'. rewrite nth_error_map, Eb in Eb'. cbn in Ea', Eb'. inversion Ea'; inversion Eb'; subst.
  assert (Ha : a < count_regions regs) by (apply count_regions_lt; eapply nth_error_In; eauto).
  assert (Hb : b < count_regions regs) by (apply count_regions_lt; eapply nth_error_In; eauto).
  split.
  - intros Eab. destruct (G a Ha) as (_ & _ & La), (G b Hb) as (_ & _ & Lb).
    rewrite Eab in La. apply rst_trans with (g b); auto. now apply rst_sym.
  - apply C; auto.
Qed.

(** In general a link is lost: with faces between regions 3 and 2, then 3 and 1, region 2
    stays apart although it is linked to region 1.  (The code overwrites the entry of
    region 3 instead of joining the two names.) *)
Definition lost_faces : list (list nat) := [[3; 0; 1; 2; 3; 2]; [3; 2; 1; 3; 3; 1]].
Theorem C39_lost_link_refuted :
  mesh_of 4 lost_faces /\ linked 0 [0; 1; 2; 3] lost_faces 2 1
  /\ merge_regions 0 [0; 1; 2; 3] lost_faces = Ok ([0; 1; 2; 1], 2).
Proof.
  assert (F1 : face_between [3; 0; 1; 2; 3; 2] 3 2) by (exists [0; 1; 2]; reflexivity).
  assert (F2 : face_between [3; 2; 1; 3; 3; 1] 3 1) by (exists [2; 1; 3]; reflexivity).
  split; [|split].
  - intros f [<-|[<-|[]]]; [exists 3, 2|exists 3, 1]; split; auto; lia.
  - apply rst_trans with 3.
    + apply rst_sym, rst_step. exists [3; 0; 1; 2; 3; 2], 3, 2. repeat split; auto; try lia. left; auto.
    + apply rst_step. exists [3; 2; 1; 3; 3; 1], 3, 1. repeat split; auto; try lia. right; left; auto.
  - reflexivity.
Qed.

(** Six cells; regions 1, 2, 3 and 4 meet in a chain through interior seeds and become
    region 1; the face of surface seed 0 does not count. *)
Definition chain_faces : list (list nat) := [[3; 0; 1; 2; 0; 1]; [4; 0; 1; 3; 4; 3; 4]; [3; 5; 6; 7; 2; 3]; [3; 0; 2; 5; 2; 1]; [3; 1; 1; 1; 4; 5]].
Example C39_hypotheses :
  mesh_of 6 chain_faces /\ one_smaller 1 [0; 1; 2; 3; 4; 4] chain_faces
  /\ merge_regions 1 [0; 1; 2; 3; 4; 4] chain_faces = Ok ([0; 1; 1; 1; 1; 1], 1).
Proof.
  assert (F1 : face_between [3; 0; 1; 2; 0; 1] 0 1) by (exists [0; 1; 2]; reflexivity).
  assert (F2 : face_between [4; 0; 1; 3; 4; 3; 4] 3 4) by (exists [0; 1; 3; 4]; reflexivity).
  assert (F3 : face_between [3; 5; 6; 7; 2; 3] 2 3) by (exists [5; 6; 7]; reflexivity).
  assert (F4 : face_between [3; 0; 2; 5; 2; 1] 2 1) by (exists [0; 2; 5]; reflexivity).
  assert (F5 : face_between [3; 1; 1; 1; 4; 5] 4 5) by (exists [1; 1; 1]; reflexivity).
  assert (M : forall a b, meet 1 [0; 1; 2; 3; 4; 4] chain_faces a b ->
    (a = 3 /\ b = 4) \/ (a = 2 /\ b = 3) \/ (a = 2 /\ b = 1) \/ (a = 4 /\ b = 4)).
  { intros a b (f & i & j & Hf & Hb & Hi & Hj & Ea & Eb).
    destruct Hf as [<-|[<-|[<-|[<-|[<-|[]]]]]].
    - destruct (face_between_fun F1 Hb). subst. lia.
    - destruct (face_between_fun F2 Hb). subst. cbn in Ea, Eb. inversion Ea; inversion Eb. auto.
    - destruct (face_between_fun F3 Hb). subst. cbn in Ea, Eb. inversion Ea; inversion Eb. auto.
    - destruct (face_between_fun F4 Hb). subst. cbn in Ea, Eb. inversion Ea; inversion Eb. auto.
    - destruct (face_between_fun F5 Hb). subst. cbn in Ea, Eb. inversion Ea; inversion Eb. auto 10. }
  split; [|split; [|reflexivity]].
  - intros f Hf. destruct Hf as [<-|[<-|[<-|[<-|[<-|[]]]]]];
      [exists 0, 1|exists 3, 4|exists 2, 3|exists 2, 1|exists 4, 5]; split; auto; lia.
  - intros r a b Ha Hb La Lb. destruct Ha as [Ha|Ha], Hb as [Hb|Hb]; apply M in Ha, Hb; lia.
Qed.

(** ** C40: the faces of every cell *)
Theorem C40_cells (regs : list nat) faces : mesh_of (length regs) faces ->
  exists rows m, cell_faces regs faces = Ok (rows, m) /\ length rows = length regs
    /\ m = length (filter (fun r => negb (r =? 0)) regs)
    /\ forall c, c < length regs ->
         nth_error rows c = Some (if nth c regs 0 =? 0 then [] else faces_around faces c).
Proof. intros Hm. destruct (@cell_faces_ok _ faces Hm) as (rows & E & L & G). eauto 10. Qed.

(** What a row contains, in words: in increasing order the faces with this cell on a
    side, and if no face has the same cell on both sides each of them once. *)
Theorem C40_row (regs : list nat) faces c : mesh_of (length regs) faces ->
  Sorted le (faces_around faces c)
  /\ (forall k, In k (faces_around faces c) <->
        exists f i j, nth_error faces k = Some f /\ face_between f i j /\ (c = i \/ c = j))
  /\ ((forall f i j, In f faces -> face_between f i j -> i <> j) -> NoDup (faces_around faces c)).
Proof.
  intros Hm. unfold faces_around.
  assert (In' : forall l k, In k (flat_map (fun k => repeat k (count_occ Nat.eq_dec (sides (nth k faces [])) c)) l)
    <-> In k l /\ In c (sides (nth k faces []))).
  { intros l k. rewrite in_flat_map. split.
    - intros (x & Hx & Hk). pose proof (repeat_spec _ _ _ Hk). subst x. split; auto.
      apply (count_occ_In Nat.eq_dec). destruct (count_occ _ _ _); [destruct Hk|lia].
    - intros (Hx & Hk). exists k. split; auto. apply (count_occ_In Nat.eq_dec) in Hk.
      destruct (count_occ _ _ _); [lia|left; auto]. }
  split; [|split].
  - apply StronglySorted_Sorted. generalize (length faces) as n, 0 as s.
    induction n as [|n IH]; intros s; cbn [seq flat_map]; [constructor|].
    assert (G : forall q, StronglySorted le (repeat s q ++ flat_map (fun k => repeat k (count_occ Nat.eq_dec (sides (nth k faces [])) c)) (seq (S s) n))).
    { induction q as [|q IHq]; cbn [repeat app]; [apply IH|]. constructor; auto.
      apply Forall_forall. intros x Hx. apply in_app_iff in Hx. destruct Hx as [Hx|Hx].
      - apply repeat_spec in Hx. lia.
      - apply In' in Hx. destruct Hx as (Hx & _). apply in_seq in Hx. lia. }
    apply G.
  - intros k. rewrite In', in_seq. split.
    + intros (Hk & Hc). assert (Hk' : k < length faces) by lia.
      pose proof (nth_error_nth' faces [] Hk') as E. exists (nth k faces []).
      destruct (Hm (nth k faces [])) as (i & j & Hb & _); [eapply nth_error_In; eauto|].
      exists i, j. split; auto. split; auto. rewrite (sides_ok Hb) in Hc. destruct Hc as [|[|[]]]; auto.
    + intros (f & i & j & E & Hb & Hc). split.
      * assert (k < length faces) by (apply nth_error_Some; congruence). lia.
      * apply nth_error_nth with (d := []) in E. rewrite E, (sides_ok Hb). destruct Hc as [->| ->]; cbn; auto.
  - intros Hne.
    assert (G : forall l, NoDup l -> (forall k, In k l -> k < length faces) ->
      NoDup (flat_map (fun k => repeat k (count_occ Nat.eq_dec (sides (nth k faces [])) c)) l)).
    { induction l as [|k l IH]; intros Hn Hl; cbn [flat_map]; [constructor|].
      inversion Hn as [|? ? Hk Hn']; subst.
      assert (Hc : count_occ Nat.eq_dec (sides (nth k faces [])) c <= 1).
      { assert (Hk' : k < length faces) by (apply Hl; left; auto).
        pose proof (nth_In faces [] Hk') as Hf. destruct (Hm _ Hf) as (i & j & Hb & _).
        rewrite (sides_ok Hb). specialize (Hne _ i j Hf Hb). cbn.
        destruct (Nat.eq_dec i c), (Nat.eq_dec j c); try lia. }
      assert (Hrest : NoDup (flat_map (fun k => repeat k (count_occ Nat.eq_dec (sides (nth k faces [])) c)) l)).
      { apply IH; auto. intros; apply Hl; right; auto. }
      destruct (count_occ Nat.eq_dec (sides (nth k faces [])) c) as [|[|q]]; [auto| |lia].
      cbn [repeat app]. constructor; auto. intros Hx. apply In' in Hx. tauto. }
    apply G; [apply seq_NoDup|]. intros k Hk. apply in_seq in Hk. lia.
Qed.

Example C40_hypotheses : mesh_of (length [0; 1; 1; 1; 1; 1]) chain_faces
  /\ cell_faces [0; 1; 1; 1; 1; 1] chain_faces = Ok ([[]; [0; 3]; [2; 3]; [1; 2]; [1; 4]; [4]], 5).
Proof. split; [exact (proj1 C39_hypotheses)|reflexivity]. Qed.

(** The whole of generate_explicit_mesh between the mesh and its files. *)
Theorem C40_explicit_mesh nss regs faces : mesh_of (length regs) faces ->
  exists rename k rows m, explicit_mesh nss regs faces = Ok (map rename regs, k, rows, m)
    /\ (forall c, c < length regs -> nth_error rows c
          = Some (if rename (nth c regs 0) =? 0 then [] else faces_around faces c))
    /\ (forall a, In a regs -> rename a = 0 -> linked nss regs faces a 0).
Proof.
  intros Hm. destruct (@merge_regions_ok nss regs faces Hm) as (g & k & E & Ek & G & _).
  assert (Hm' : mesh_of (length (map g regs)) faces) by now rewrite map_length.
  destruct (@cell_faces_ok _ faces Hm') as (rows & E2 & L & G2). exists g, k, rows. eexists. split; [|split].
  - unfold explicit_mesh. rewrite E. cbn [bind]. rewrite E2. reflexivity.
  - intros c Hc. rewrite G2 by now rewrite map_length.
    rewrite (nth_indep _ 0 (g 0)) by now rewrite map_length. now rewrite map_nth.
  - intros a Ha E0. apply count_regions_lt in Ha. destruct (G a Ha) as (_ & _ & La). now rewrite E0 in La.
Qed.

(** ** C46: shuffles *)
Theorem C46_shuffle off n u (l : list nat) : off <= n -> n <= length l ->
  (forall k, k < n - off -> (0 <= u k <= 1)%R) ->
  exists l', shuffle off n u l = Ok l' /\ Permutation l l'
    /\ forall k, k < off \/ n <= k -> nth_error l' k = nth_error l k.
Proof. apply shuffle_ok. Qed.
(** The monitoring points are min(100, interior seeds) different interior seeds. *)
Theorem C46_monitoring_points nss u seeds sizing : nss <= length seeds -> length sizing = length seeds ->
  (forall k, k < length seeds - nss -> (0 <= u k <= 1)%R) ->
  exists idx out, monitoring_points nss u seeds sizing = Ok out
    /\ NoDup idx /\ length idx = Nat.min 100 (length seeds - nss)
    /\ (forall i, In i idx -> nss <= i < length seeds)
    /\ Forall2 (fun i p => nth_error seeds i = Some (fst p) /\ nth_error sizing i = Some (snd p)) idx out.
Proof. apply monitoring_ok. Qed.
Example C46_hypotheses : 2 <= 5 /\ 5 <= length [9; 8; 7; 6; 5; 4] /\ (forall k, k < 5 - 2 -> (0 <= (fun _ => 1) k <= 1)%R)
  /\ shuffle 2 5 (fun _ => 1%R) [9; 8; 7; 6; 5; 4] = Ok [9; 8; 5; 7; 6; 4].
Proof.
  split; [lia|]. split; [cbn; lia|]. split; [intros; lra|].
  assert (D : draw_in 2 5 1%R = 4).
  { pose proof (@draw_in_ok 2 5 1%R). unfold draw_in in *. cbn [ntrunc nmul RNum nofZ] in *.
    assert (I : Int_part (1 * IZR (Z.of_nat (5 - 2)))%R = 3%Z).
    { unfold Int_part. replace (1 * IZR (Z.of_nat (5 - 2)))%R with 3%R by (cbn; lra).
      rewrite <- (tech_up 3%R 4%Z); [reflexivity| |]; lra. }
    rewrite I. reflexivity. }
  unfold shuffle. cbn [for_res Nat.sub]. rewrite D. reflexivity.
Qed.
(** On binary64 numbers: a draw of 1 and draws inside. *)
Example C46_run : shuffle 1 5 (fun k => PrimFloat.div (FloatInst.of_Z (Z.of_nat (k * k))) (FloatInst.of_Z 9)) [0; 1; 2; 3; 4]
  = Ok [0; 2; 3; 1; 4].
Proof. vm_compute. reflexivity. Qed.

(** ** C47: imposed monitoring points *)
Theorem C47_compaction kept seeds sizing regs imposed :
  seeds <> [] -> (forall p, In p seeds -> 3 <= length p) -> length sizing = length seeds -> length regs = length seeds ->
  (forall q, In q imposed -> good_imposed seeds q) ->
  exists mask sizing' imposed',
    impose_monitoring kept seeds sizing regs imposed = Ok (keep mask seeds, keep mask sizing', keep mask regs, imposed')
    /\ right_mask kept seeds imposed mask /\ right_sizes seeds imposed sizing sizing'
    /\ Forall2 (right_points seeds sizing') imposed imposed'.
Proof. apply impose_ok. Qed.
(** The protected seeds stay where they are. *)
Theorem C47_kept kept seeds sizing regs imposed pts sz rg imp :
  seeds <> [] -> (forall p, In p seeds -> 3 <= length p) -> length sizing = length seeds -> length regs = length seeds ->
  (forall q, In q imposed -> good_imposed seeds q) ->
  impose_monitoring kept seeds sizing regs imposed = Ok (pts, sz, rg, imp) ->
  forall i, i < kept -> nth_error pts i = nth_error seeds i /\ nth_error rg i = nth_error regs i.
Proof.
  intros H1 H2 H3 H4 H5 E i Hi. destruct (@impose_ok kept seeds sizing regs imposed H1 H2 H3 H4 H5) as (mask & s' & i' & E' & (LM & HM & _) & _).
  rewrite E in E'. inversion E'; subst. clear E E' s' i' H1 H2 H3 H5.
  assert (G : forall A (l : list A) m k, length m = length l -> (forall i, i < k -> nth_error m i <> Some false) ->
    forall i, i < k -> nth_error (keep m l) i = nth_error l i).
  { induction l as [|a l IH]; intros m k Hl Hm j Hj; destruct m as [|b m]; try discriminate; auto.
    destruct b; [|exfalso; apply (Hm 0); [lia|reflexivity]].
    destruct j as [|j]; cbn [nth_error]; auto. apply (IH m (pred k)); [now inversion Hl| |lia].
    intros x Hx. apply (Hm (S x)). lia. }
  assert (N : forall i, i < kept -> nth_error mask i <> Some false).
  { intros x Hx Ex. apply HM in Ex. lia. }
  split; apply (G _ _ _ kept); auto; lia.
Qed.

(** Four seeds on a line, the first two protected.  The imposed point at 2 is a seed: its
    sphere removes the seed at 3 but neither protected one; the imposed point at 6 is not a
    seed and moves to the seed at 7. *)
Definition line_seeds : list (list R) := [[1; 0; 0]; [2; 0; 0]; [3; 0; 0]; [7; 0; 0]]%R.
Definition line_imposed : list (list R * R) := [([2; 0; 0], 3 / 2); ([6; 0; 0], 1)]%R.
Lemma line_dist x y z j p : nth_error line_seeds j = Some [p; 0; 0]%R -> y = 0%R -> z = 0%R ->
  seed_dist line_seeds [x; y; z] j = Rabs (x - p).
Proof.
  intros E -> ->. unfold seed_dist, edist, sqdist, coord. rewrite (nth_error_nth _ _ [] E). cbn [seq map nth].
  rewrite <- sqrt_Rsqr_abs. unfold Rsqr. f_equal. unfold SamplingSpec.rsum. cbn [fold_left fold_right]. ring.
Qed.
Example C47_hypotheses :
  line_seeds <> [] /\ (forall p, In p line_seeds -> 3 <= length p)
  /\ (forall q, In q line_imposed -> good_imposed line_seeds q)
  /\ is_seed line_seeds [2; 0; 0]%R /\ (seed_dist line_seeds [2; 0; 0] 2 < 3 / 2)%R.
Proof.
  assert (Big : (2 < @dbl_max R _)%R).
  { unfold dbl_max. cbn [nofZ RNum]. apply IZR_lt. reflexivity. }
  split; [discriminate|]. split; [|split; [|split]].
  - intros p [<-|[<-|[<-|[<-|[]]]]]; cbn; lia.
  - intros q [<-|[<-|[]]]; (split; [cbn; lia|]); cbn [fst]; [exists 1|exists 3];
      (split; [cbn; lia|]); (erewrite line_dist by reflexivity).
    + rewrite Rabs_right by lra. lra.
    + rewrite Rabs_left by lra. lra.
  - exists 1. split; [cbn; lia|]. erewrite line_dist by reflexivity. rewrite Rabs_right by lra. lra.
  - erewrite line_dist by reflexivity. rewrite Rabs_left by lra. lra.
Qed.
Example C47_run :
  let fl := FloatInst.of_Z in
  impose_monitoring 2 [[fl 1; fl 0; fl 0]; [fl 2; fl 0; fl 0]; [fl 3; fl 0; fl 0]; [fl 7; fl 0; fl 0]]%Z
    [fl 1; fl 1; fl 1; fl 1]%Z [0; 1; 1; 2] [([fl 2; fl 0; fl 0], fl 3); ([fl 6; fl 0; fl 0], fl 1)]%Z
  = Ok ([[fl 1; fl 0; fl 0]; [fl 2; fl 0; fl 0]; [fl 7; fl 0; fl 0]], [fl 1; fl 3; fl 1], [0; 1; 2]%nat,
        [([fl 2; fl 0; fl 0], fl 3); ([fl 7; fl 0; fl 0], fl 1)])%Z.
Proof. vm_compute. reflexivity. Qed.

Print Assumptions C39_regions.
Print Assumptions C39_linked_partial.
Print Assumptions C39_lost_link_refuted.
Print Assumptions C40_cells.
Print Assumptions C40_row.
Print Assumptions C40_explicit_mesh.
Print Assumptions C46_shuffle.
Print Assumptions C46_monitoring_points.
Print Assumptions C47_compaction.
Print Assumptions C47_kept.
