(** C80: the mesh of a saved seeds file. *)
From Coq Require Import NArith Relations.
From Verif Require Import Base Num PolyMesh Regions RegionsSpec RegionsProofs Text TextSpec TextProofs TextFilesProofs TextTreeProofs SavedMesh.
From Verif Require PropsRegions PropsText.

(** No region is merged when all seeds count as surface seeds. *)
Lemma linked_all regs faces a b : mesh_of (length regs) faces -> linked (length regs) regs faces a b -> a = b.
Proof.
  intros Hm H. induction H as [a b (f & i & j & Hf & Hb & Hi & Hj & Ha & _)|a|a b _ IH|a b c _ IH1 _ IH2]; auto; [|congruence].
  assert (i < length regs) by (apply nth_error_Some; congruence). lia.
Qed.
(** Interior seeds are never exterior: no region is merged with the exterior. *)
Lemma linked_zero nss regs faces a b : (forall i, nss <= i -> i < length regs -> nth i regs 0 <> 0) ->
  linked nss regs faces a b -> (a = 0 <-> b = 0).
Proof.
  intros H0 H. induction H as [a b (f & i & j & Hf & Hb & Hi & Hj & Ha & Hbb)|a|a b _ IH|a b c _ IH1 _ IH2]; [|tauto|tauto|tauto].
  assert (i < length regs) by (apply nth_error_Some; congruence). assert (j < length regs) by (apply nth_error_Some; congruence).
  pose proof (H0 i ltac:(lia) ltac:(lia)) as A. pose proof (H0 j ltac:(lia) ltac:(lia)) as B.
  rewrite (nth_error_nth _ _ 0 Ha) in A. rewrite (nth_error_nth _ _ 0 Hbb) in B. tauto.
Qed.

(** The mesh of a list of seeds, all of which count as surface seeds: every seed keeps its
    region, and the number of regions reported is the largest region number. *)
Theorem C80_regions_kept regs faces : mesh_of (length regs) faces ->
  exists rows m, explicit_mesh (length regs) regs faces = Ok (regs, list_max regs, rows, m)
    /\ m = length (filter (fun r => negb (r =? 0)) regs)
    /\ forall c, c < length regs -> nth_error rows c = Some (if nth c regs 0 =? 0 then [] else faces_around faces c).
Proof.
  intros Hm. destruct (@PropsRegions.C39_regions (length regs) regs faces Hm) as (g & k & E & G1 & G2 & Ek).
  destruct (@merge_regions_ok (length regs) regs faces Hm) as (g' & k' & E' & Ek' & G' & _).
  assert (Hid : forall r, r < count_regions regs -> g' r = r).
  { intros r Hr. destruct (G' r Hr) as (_ & _ & Lk). symmetry. eapply linked_all; eauto. }
  assert (Hmap : map g' regs = regs).
  { transitivity (map (fun r => r) regs); [|apply map_id]. apply map_ext_in. intros r Hr. apply Hid, count_regions_lt; auto. }
  assert (Hk : k' = list_max regs).
  { rewrite (map_ext_in g' (fun r => r)), map_id in Ek' by (intros r Hr; apply in_seq in Hr; apply Hid; lia).
    rewrite nodup_fixed_point, seq_length in Ek' by apply seq_NoDup. unfold count_regions in Ek'. injection Ek' as ->.
    enough (H : forall l m, fold_left (fun m r => if m <? r then r else m) l m = Nat.max m (list_max l)) by now rewrite H.
    induction l as [|a l IH]; intros m; cbn [fold_left list_max fold_right]; [now rewrite Nat.max_0_r|].
    rewrite IH. fold (list_max l). destruct (Nat.ltb_spec m a); lia. }
  destruct (@PropsRegions.C40_cells regs faces Hm) as (rows & m & Ec & _ & Em & Hr).
  exists rows, m. unfold explicit_mesh. rewrite E'. cbn [bind]. rewrite Hmap, Hk, Ec. cbn [bind]. auto.
Qed.

(** A run meshes the seeds [l], of which the first nss are surface seeds and the others are
    inside, and writes seeds.csv; meshing that file gives the same faces, the same cells with
    the same faces around them, and the same number of cells.  The regions are those of the
    file; those of the run are a renaming of them. *)
Theorem C80_same_cells {F} (io : numio F) tessellate nss (l : list (seed F)) faces :
  plain_io io -> (forall s, In s l -> List.length (sd_x s) = 3 /\ (sd_region s < 2 ^ 64)%N) ->
  (forall s v, In s l -> In v (sd_size s :: sd_x s) -> reread io v = v) ->
  tessellate (map sd_x l) = Ok faces -> mesh_of (length l) faces ->
  let regs := map (fun s => N.to_nat (sd_region s)) l in
  (forall i, nss <= i -> i < length l -> nth i regs 0 <> 0) ->
  exists rename k rows m,
    mesh_of_seeds tessellate nss l = Ok (faces, (map rename regs, k, rows, m))
    /\ mesh_from_file io tessellate (save_seeds io 3 l) = Ok (faces, (regs, list_max regs, rows, m))
    /\ (forall a, In a regs -> rename a <= a /\ (rename a = 0 <-> a = 0))
    /\ k <= list_max regs.
Proof.
  intros Hio Hl Hre Et Hm regs H0.
  assert (Lr : length regs = length l) by apply map_length.
  assert (Hm' : mesh_of (length regs) faces) by now rewrite Lr.
  destruct (@C80_regions_kept regs faces Hm') as (rows & m & Ef & Em & Hrow).
  destruct (@PropsRegions.C39_regions nss regs faces Hm') as (g & k & Eg & G1 & _ & Gk).
  destruct (@merge_regions_ok nss regs faces Hm') as (g' & k' & Eg' & _ & G' & _).
  assert (Hz : forall a, In a regs -> (g a = 0 <-> a = 0)).
  { intros a Ha. assert (Eq : g a = g' a).
    { assert (map g regs = map g' regs) as Em' by congruence. clear - Em' Ha. induction regs as [|b t IH]; [contradiction|].
      cbn in Em'. injection Em' as E1 E2. destruct Ha as [->|Ha]; auto. }
    rewrite Eq. destruct (G' a (count_regions_lt _ _ Ha)) as (_ & _ & Lk).
    pose proof (@linked_zero nss regs faces a (g' a)) as Z. rewrite Lr in Z. specialize (Z H0 Lk). tauto. }
  exists g, k, rows, m. split; [|split; [|split]].
  - unfold mesh_of_seeds. rewrite Et. cbn [bind]. fold regs. unfold explicit_mesh. rewrite Eg. cbn [bind].
    assert (Hm2 : mesh_of (length (map g regs)) faces) by now rewrite map_length.
    destruct (@PropsRegions.C40_cells (map g regs) faces Hm2) as (rows' & m' & Ec & Lc & Em2 & Hr2). rewrite Ec. cbn [bind].
    unfold explicit_mesh in Ef. apply bind_Ok_inv in Ef. destruct Ef as ((r0 & k0) & _ & Ef). apply bind_Ok_inv in Ef.
    destruct Ef as ((rows0 & m0) & Ec0 & Ef). injection Ef as -> -> -> ->.
    destruct (@PropsRegions.C40_cells regs faces Hm') as (rows1 & m1 & Ec1 & Lc1 & _ & _). rewrite Ec1 in Ec0. injection Ec0 as -> ->.
    assert (rows' = rows) as ->.
    { apply nth_ext with (d := []) (d' := []); [rewrite Lc, Lc1, map_length; auto|]. intros c Hc. rewrite Lc, map_length in Hc.
      pose proof (Hr2 c) as A. rewrite map_length in A. specialize (A Hc). pose proof (Hrow c Hc) as B.
      apply nth_error_nth with (d := []) in A. apply nth_error_nth with (d := []) in B. rewrite A, B.
      rewrite (nth_indep _ 0 (g 0)) by (rewrite map_length; auto). rewrite map_nth.
      pose proof (Hz (nth c regs 0) (nth_In _ _ Hc)) as Z.
      destruct (Nat.eqb_spec (g (nth c regs 0)) 0), (Nat.eqb_spec (nth c regs 0) 0); tauto. }
    assert (m' = m) as ->.
    { rewrite Em2, Em. clear - Hz. induction regs as [|b t IH]; [reflexivity|]. cbn [map filter].
      pose proof (Hz b (or_introl eq_refl)). specialize (IH (fun a Ha => Hz a (or_intror Ha))).
      destruct (Nat.eqb_spec (g b) 0), (Nat.eqb_spec b 0); cbn [negb length]; try tauto; lia. }
    reflexivity.
  - unfold mesh_from_file. rewrite (@PropsText.C14_seeds_identical _ io l Hio Hl Hre). cbn [bind].
    unfold mesh_of_seeds. rewrite Et. cbn [bind]. fold regs. rewrite <- Lr, Ef. reflexivity.
  - intros a Ha. destruct (G1 a Ha). auto.
  - assert (S k <= S (list_max regs)); [|lia]. rewrite Gk.
    assert (Hle : forall A (dec : forall x y : A, {x = y} + {x <> y}) (q : list A), length (nodup dec q) <= length q).
    { intros A dec q. induction q as [|x q IH]; cbn; [lia|]. destruct (in_dec dec x q); cbn; lia. }
    etransitivity; [apply Hle|]. rewrite map_length, seq_length. lia.
Qed.

(** The regions are not the same: in a run that ends with one region, the file has four. *)
Definition chain_seeds : list (seed N) :=
  map (fun k => Seed [N.of_nat k; 0; 0]%N 1%N (nth k [0; 1; 2; 3; 4; 4]%N 0%N)) (seq 0 6).
Theorem C80_same_regions_refuted :
  let tess := fun _ => Ok PropsRegions.chain_faces in
  mesh_of_seeds tess 1 chain_seeds = Ok (PropsRegions.chain_faces, ([0; 1; 1; 1; 1; 1], 1, [[]; [0; 3]; [2; 3]; [1; 2]; [1; 4]; [4]], 5))
  /\ mesh_from_file io_N tess (save_seeds io_N 3 chain_seeds)
     = Ok (PropsRegions.chain_faces, ([0; 1; 2; 3; 4; 4], 4, [[]; [0; 3]; [2; 3]; [1; 2]; [1; 4]; [4]], 5)).
Proof. split; vm_compute; reflexivity. Qed.
Example C80_hypotheses : plain_io io_N
  /\ (forall s, In s chain_seeds -> List.length (sd_x s) = 3 /\ (sd_region s < 2 ^ 64)%N)
  /\ (forall s v, In s chain_seeds -> In v (sd_size s :: sd_x s) -> reread io_N v = v)
  /\ mesh_of (length chain_seeds) PropsRegions.chain_faces
  /\ (forall i, 1 <= i -> i < length chain_seeds -> nth i (map (fun s => N.to_nat (sd_region s)) chain_seeds) 0 <> 0).
Proof.
  split; [apply io_N_plain|]. split; [|split; [|split]].
  - intros s Hs. repeat (destruct Hs as [<-|Hs]; [split; reflexivity|]). destruct Hs.
  - intros s v Hs Hv. repeat (destruct Hs as [<-|Hs]; [repeat (destruct Hv as [<-|Hv]; [vm_compute; reflexivity|]); destruct Hv|]). destruct Hs.
  - exact (proj1 PropsRegions.C39_hypotheses).
  - intros i H1 H2. do 6 (destruct i as [|i]; [cbn; lia|]). cbn in H2. lia.
Qed.

Print Assumptions C80_regions_kept.
Print Assumptions C80_same_cells.
Print Assumptions C80_same_regions_refuted.
