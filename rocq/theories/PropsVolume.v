(** C79: from the surface seeds to seeds.csv. *)
From Coq Require Import Reals Lra.
From Verif Require Import Base Num SamplingSpec Vec KdSpec KdTree SmartTree DenseQR Geometry GeometryProofs Spheres
  PolyMesh PolyMeshProofs Regions RegionsProofs KdQueryProofs SpokeFlatProofs Interior InteriorSpec InteriorTreeProofs
  InteriorProofs InteriorRunProofs EdgeSeeds EdgeSeedsSpec MonitorSpec VolumeSeeds VolumeSpec VolumeProofs PropsEdgeSeeds.
From Verif Require Import SurfaceShrinkProofs EdgeSeedsProofs.
From Verif Require MonitorProofs PropsRegions PropsInterior.
Local Open Scope R_scope.

(** What is asked of the input: that of the sharp edge stage (C74), slopes and sizes of the
    given spheres, random numbers in their range, and imposed points that are spheres at
    distances that fit into a double. *)
Record volume_setting (L rmax : R) (seeds : list (list R)) (regs : list nat) (surf edge corner sizing : list (list R))
  (imposed : option (list (list R))) (dir2 : nat -> list R) (dr : nat -> draws R) (u : nat -> R) : Prop :=
  { vs_edge : edge_setting L seeds regs surf edge corner dir2;
    vs_L : 1 / 4 <= L < 1;
    vs_rmax : 0 <= rmax;
    vs_slopes : slope L edge /\ slope L corner;
    vs_sizing : Forall (fun p => 0 <= rad p) sizing;
    vs_draws : forall k, (forall i, 0 <= d_front (dr k) i <= 1) /\ (forall a d, norm 3 (vec (d_dir (dr k) a d)) <= 1)
                 /\ (forall a d, 0 <= d_len (dr k) a d <= 1);
    vs_u : forall k, 0 <= u k <= 1;
    vs_imposed : forall points, imposed = Some points ->
      Forall (fun q => sphere q /\ in_range q seeds /\ in_range q surf /\ in_range q corner
                       /\ forall so, In so edge -> cdist q so + rad so < dbl_max) points }.

Section Run.
  Variables (fuel lfuel : nat) (L rmax : R) (threads : nat) (seeds : list (list R)) (regs : list nat)
    (surf edge corner sizing : list (list R)) (dir3 dir2 : nat -> list R) (dr : nat -> draws R) (u : nat -> R).
  Let run imposed monitor := volume_seeds fuel lfuel L rmax threads seeds regs surf edge corner sizing imposed monitor dir3 dir2 dr u.
  Let setting imposed := volume_setting L rmax seeds regs surf edge corner sizing imposed dir2 dr u.

  Lemma generate_facts imposed l0 regs0 l r : setting imposed -> length regs0 = length l0 -> l0 <> [] -> Forall sphere l0 ->
    generate_interior_seeds fuel lfuel L rmax threads l0 regs0 surf edge corner sizing dr = Ok (l, r) ->
    keeps l0 regs0 l r /\ fresh surf regs0 (length l0) l r /\ Forall sphere l
    /\ (forall i, (i < length l0)%nat -> rad (nth i l []) <= rad (nth i l0 [])).
  Proof.
    intros S Hr Hne Hs E. pose proof (vs_L S) as HL.
    destruct (@generate_Ok fuel lfuel L rmax threads l0 regs0 surf edge corner sizing dr l r HL (vs_rmax S) Hne Hs Hr (es_slope (vs_edge S))
      (proj1 (vs_slopes S)) (proj2 (vs_slopes S)) (vs_sizing S) (vs_draws S) E) as (X & _).
    destruct (extended_facts _ _ _ Hr X) as (K & F). split; auto. split; auto. destruct X as (_ & _ & X3 & X4 & _). split; auto.
    intros i Hi. apply X4; auto.
  Qed.

  (** Without imposed points nothing is removed. *)
  Lemma plain_run monitor v : setting None -> run None monitor = Ok v ->
    exists l r, keeps seeds regs l r /\ fresh surf regs (length seeds) l r
      /\ (forall i, (i < length seeds)%nat -> rad (nth i l []) <= rad (nth i seeds []))
      /\ v_points v = map three_coords l /\ v_sizes v = map (fun s => gv s 3%nat) l /\ v_regions v = r /\ v_closest v = None /\ v_added v = None
      /\ (if monitor then exists m, monitoring_points (length seeds) u (v_points v) (v_sizes v) = Ok m /\ v_monitoring v = Some m
          else v_monitoring v = None).
  Proof.
    intros S E. unfold run, volume_seeds in E. apply bind_Ok_inv in E. destruct E as ((s1 & r1) & E1 & E).
    destruct (@ensure_facts _ _ _ _ _ _ _ _ _ _ _ _ _ (vs_edge S) E1) as (K1 & F1 & S1 & _ & R1 & _).
    destruct (es_seeds (vs_edge S)) as (N0 & _ & Hr).
    assert (N1 : s1 <> []). { intros ->. destruct K1 as (_ & K1 & _). destruct seeds; [congruence|cbn in K1; lia]. }
    apply bind_Ok_inv in E. destruct E as ((l & r) & E2 & E).
    destruct (@generate_facts None s1 r1 l r S (proj1 K1) N1 S1 E2) as (K2 & F2 & _ & R2).
    exists l, r. split; [eapply keeps_trans; eauto|]. split; [eapply fresh_trans; eauto|]. split.
    { intros i Hi. destruct K1 as (_ & K1 & _). specialize (R1 i Hi). specialize (R2 i ltac:(lia)). lra. }
    destruct monitor.
    - apply bind_Ok_inv in E. destruct E as (m & Em & E). injection E as <-. cbn [v_points v_sizes v_regions v_closest v_monitoring].
      repeat (split; [reflexivity|]). exists m. auto.
    - injection E as <-. repeat (split; [reflexivity|]). reflexivity.
  Qed.

  (** With imposed points. *)
  Lemma imposed_run points monitor v : setting (Some points) -> run (Some points) monitor = Ok v ->
    exists s1 r1 s2 r2 kept l r mask sizes closest,
      keeps seeds regs s1 r1 /\ fresh surf regs (length seeds) s1 r1 /\ (length s1 <= length seeds + 2 * length edge)%nat
      /\ keeps s1 r1 s2 r2 /\ fresh surf r1 (length s1) s2 r2
      /\ kept_of s1 r1 surf edge corner points kept
      /\ length s2 = (length s1 + length kept)%nat
      /\ (forall j, (j < length kept)%nat -> nth (length s1 + j) s2 [] = fst (nth j kept ([], 0%nat))
             /\ nth (length s1 + j) r2 0%nat = snd (nth j kept ([], 0%nat)))
      /\ keeps s2 r2 l r /\ fresh surf r2 (length s2) l r
      /\ (forall i, (i < length seeds)%nat -> rad (nth i l []) <= rad (nth i seeds []))
      /\ v_points v = keep mask (map three_coords l) /\ v_sizes v = keep mask sizes /\ v_regions v = keep mask r
      /\ v_closest v = Some closest /\ v_monitoring v = None /\ v_added v = Some (length s2 - length seeds)%nat
      /\ right_mask (length s1 + (length s2 - length seeds)) (map three_coords l) (map split_row points) mask
      /\ right_sizes (map three_coords l) (map split_row points) (map (fun s => gv s 3%nat) l) sizes
      /\ Forall2 (right_points (map three_coords l) sizes) (map split_row points) closest.
  Proof.
    intros S E. unfold run, volume_seeds in E. apply bind_Ok_inv in E. destruct E as ((s1 & r1) & E1 & E).
    destruct (@ensure_facts _ _ _ _ _ _ _ _ _ _ _ _ _ (vs_edge S) E1) as (K1 & F1 & S1 & B1 & R1 & On1).
    destruct (es_seeds (vs_edge S)) as (N0 & _ & Hr). pose proof (vs_L S) as HL.
    assert (N1 : s1 <> []). { intros ->. destruct K1 as (_ & K1 & _). destruct seeds; [congruence|cbn in K1; lia]. }
    pose proof (vs_imposed S eq_refl) as Hq. rewrite Forall_forall in Hq.
    apply bind_Ok_inv in E. destruct E as ((s2 & r2) & E2 & E).
    destruct (@impose_Ok lfuel L s1 r1 surf edge corner sizing points (s2, r2)) as (s1' & kept & Eo & (Sh & Sp & _) & Hk);
      try exact E2; auto; try (destruct HL; lra); try apply K1; try apply (es_slope (vs_edge S)); try apply (vs_slopes S).
    { apply Forall_forall. intros q Hin. destruct (Hq q Hin) as ((Q1 & Q2) & Q3 & Q4 & Q5 & Q6). split; auto. split; [|split; [|split]]; auto.
      - intros s Hs. apply In_nth with (d := []) in Hs. destruct Hs as (k & Hk & <-). destruct (Nat.lt_ge_cases k (length seeds)) as [Hl|Hl].
        + destruct K1 as (_ & _ & K1). destruct (K1 k Hl) as (C & _). rewrite (@cdist_ext q q _ (nth k seeds [])); auto. apply Q3, nth_In; auto.
        + destruct (On1 k ltac:(lia)) as (so & Hso & Ed). pose proof (cdist_triangle q so (nth k s1 [])) as T.
          rewrite (cdist_sym so) in T. rewrite Ed in T. pose proof (Q6 so Hso). lra.
      - intros s Hs. pose proof (Q6 s Hs). pose proof (es_edge (vs_edge S)) as He. rewrite Forall_forall in He. destruct (He s Hs). lra. }
    injection Eo as -> ->.
    assert (Hqs : Forall sphere points) by (apply Forall_forall; intros q Hin; apply Hq; auto).
    destruct (@impose_facts s1 r1 surf edge corner points kept s1' (proj1 K1) Sh Sp Hqs Hk) as (K2 & F2 & S2 & R2).
    set (s2 := s1' ++ map fst kept) in *. set (r2 := r1 ++ map snd kept) in *.
    assert (L2 : length s2 = (length s1 + length kept)%nat) by (unfold s2; rewrite app_length, map_length; destruct Sh; lia).
    assert (N2 : s2 <> []). { intros H. rewrite H in L2. destruct s1; [congruence|cbn in L2; lia]. }
    apply bind_Ok_inv in E. destruct E as ((l & r) & E3 & E).
    destruct (@generate_facts (Some points) s2 r2 l r S (proj1 K2) N2 S2 E3) as (K3 & F3 & S3 & R3).
    assert (K03 : keeps seeds regs l r) by (eapply keeps_trans; [|eauto]; eapply keeps_trans; eauto).
    apply bind_Ok_inv in E. destruct E as ((((p & h) & rg) & q) & E4 & E). injection E as <-. cbn [v_points v_sizes v_regions v_closest v_monitoring].
    destruct (@MonitorProofs.impose_ok (length s1 + (length s2 - length seeds)) (map three_coords l) (map (fun s => gv s 3%nat) l) r (map split_row points))
      as (mask & sizes & closest & E5 & M1 & M2 & M3).
    - intros H. apply map_eq_nil in H. subst l. destruct K03 as (_ & K & _). destruct seeds; [congruence|cbn in K; lia].
    - intros y Hy. apply in_map_iff in Hy. destruct Hy as (s & <- & _). cbn. lia.
    - now rewrite !map_length.
    - rewrite map_length. apply K03.
    - intros y Hy. apply in_map_iff in Hy. destruct Hy as (s & <- & Hin). split; [cbn; lia|]. cbn [split_row fst].
      exists 0%nat. destruct K03 as (_ & K & Kc). assert (0 < length seeds)%nat by (destruct seeds; [congruence|cbn; lia]).
      split; [rewrite map_length; lia|]. unfold seed_dist. rewrite (@edist_cdist _ _ _ (nth 0 seeds [])).
      + rewrite (@cdist_ext (three_coords s) s (nth 0 seeds []) (nth 0 seeds []) (@three_place s) (fun _ _ => eq_refl)). destruct (Hq s Hin) as (_ & Q & _). apply Q, nth_In; auto.
      + intros d Hd. unfold coord. rewrite map_row by lia. rewrite three_place by auto. apply Kc; auto.
    - rewrite E4 in E5. injection E5 as -> -> -> ->.
      exists s1, r1, s2, r2, kept, l, r, mask, sizes, closest.
      split; [exact K1|]. split; [exact F1|]. split; [exact B1|]. split; [exact K2|]. split; [exact F2|]. split; [exact Hk|]. split; [exact L2|].
      split.
      { intros j Hj. destruct Sh as (Sh & _). unfold s2, r2. rewrite !app_nth2 by (rewrite ?(proj1 K1); lia). rewrite (proj1 K1), Sh.
        replace (length s1 + j - length s1)%nat with j by lia.
        rewrite !(@nth_map _ _ _ kept j _ ([], 0%nat)) by auto. auto. }
      split; [exact K3|]. split; [exact F3|]. split.
      { intros i Hi. destruct K1 as (_ & K1 & _). specialize (R1 i Hi). specialize (R2 i ltac:(lia)). specialize (R3 i ltac:(lia)). lra. }
      repeat (split; [reflexivity|]). auto.
  Qed.

  Lemma fresh_points l r n : fresh surf regs n l r -> fresh surf regs n (map three_coords l) r.
  Proof.
    intros F k Hk. rewrite map_length in Hk. destruct (F k Hk) as (A & B & C). split; auto. split; auto.
    rewrite map_row by lia. eapply outside_ext; [apply three_place|exact C].
  Qed.

  (** The surface seeds are the first rows of seeds.csv, at their places and in their regions,
      with sizes that only shrank; every other row is inside the model, in the region of a
      surface seed, and outside every surface sphere. *)
  Theorem C79_seeds monitor v : setting None -> run None monitor = Ok v ->
    keeps seeds regs (v_points v) (v_regions v) /\ fresh surf regs (length seeds) (v_points v) (v_regions v)
    /\ length (v_sizes v) = length (v_points v) /\ Forall (fun p => length p = 3%nat) (v_points v)
    /\ (forall i, (i < length seeds)%nat -> nth i (v_sizes v) 0 <= rad (nth i seeds [])).
  Proof.
    intros S E. destruct (@plain_run _ _ S E) as (l & r & K & F & Hs & -> & -> & -> & _).
    split; [eapply keeps_trans; [exact K|apply keeps_points; apply K]|]. split; [apply fresh_points; exact F|].
    split; [now rewrite !map_length|]. split; [apply Forall_forall; intros y Hy; apply in_map_iff in Hy; destruct Hy as (x & <- & _); reflexivity|].
    intros i Hi. destruct K as (_ & K & _). rewrite map_row by lia. apply Hs; auto.
  Qed.

  (** The monitoring points are min(100, number of added seeds) different added seeds, with
      their sizes; all are inside the model. *)
  Theorem C79_monitoring v : setting None -> run None true = Ok v ->
    exists idx out, v_monitoring v = Some out /\ NoDup idx /\ length idx = Nat.min 100 (length (v_points v) - length seeds)
      /\ (forall i, In i idx -> (length seeds <= i < length (v_points v))%nat /\ nth i (v_regions v) 0%nat <> 0%nat)
      /\ Forall2 (fun i p => nth_error (v_points v) i = Some (fst p) /\ nth_error (v_sizes v) i = Some (snd p)) idx out.
  Proof.
    intros S E. destruct (@C79_seeds _ _ S E) as ((_ & K & _) & F & Hl & _). destruct (@plain_run _ _ S E) as (l & r & _ & _ & _ & _ & _ & _ & _ & _ & m & Em & ->).
    destruct (@PropsRegions.C46_monitoring_points (length seeds) u (v_points v) (v_sizes v) K Hl (fun k _ => vs_u S k)) as (idx & out & E' & N & L1 & H1 & H2).
    rewrite Em in E'. injection E' as <-. exists idx, m. split; auto. split; auto. split; auto. split; auto.
    intros i Hi. specialize (H1 i Hi). split; auto. apply F; auto.
  Qed.

  Section Masked.
    Variables (n0 : nat) (l : list (list R)) (r : list nat) (mask : list bool).
    Hypothesis Hm : length mask = length l.
    Hypothesis Hr : length r = length l.
    Hypothesis Hk : forall i, (i < n0)%nat -> nth_error mask i <> Some false.
    Let p := keep mask (map three_coords l).
    Lemma masked_length {A} (a : list A) : length a = length l -> length (keep mask a) = length p.
    Proof. intros H. unfold p. clear - Hm H. rewrite !MonitorProofs.keep_length by (rewrite ?map_length; lia). reflexivity. Qed.
    Lemma masked_row k : (k < length p)%nat -> exists j, (k <= j < length l)%nat /\ nth_error mask j = Some true
      /\ same_place (nth k p []) (nth j l []) /\ length (nth k p []) = 3%nat /\ nth k (keep mask r) 0%nat = nth j r 0%nat
      /\ (forall a : list R, length a = length l -> nth k (keep mask a) 0 = nth j a 0)
      /\ ((k < n0)%nat -> j = k).
    Proof.
      intros H. unfold p in H. rewrite MonitorProofs.keep_length in H by (rewrite map_length; lia).
      destruct (keep_row mask H) as (j & H1 & H2 & H3 & H4). exists j. split; [lia|]. split; [exact H2|].
      assert (G : forall A (a : list A) d, length a = length l -> nth k (keep mask a) d = nth j a d).
      { intros A a d Ha. pose proof (H3 A a ltac:(lia)) as H5. rewrite (nth_error_nth' a d) in H5 by lia. apply nth_error_nth with (d := d) in H5. exact H5. }
      unfold p. rewrite !G by (rewrite ?map_length; lia). rewrite map_row by lia. split; [apply three_place|]. split; [reflexivity|]. split; [reflexivity|].
      split; [intros a Ha; apply G; auto|]. intros Hlt. apply (H4 n0); auto.
    Qed.
    Lemma masked_first : (n0 <= length l)%nat -> (n0 <= length p)%nat.
    Proof.
      intros H. unfold p. clear - H Hm Hk. rewrite MonitorProofs.keep_length by (rewrite map_length; exact Hm). rewrite <- Hm in H. clear - H Hk. revert n0 H Hk.
      induction mask as [|b m IH]; intros n H Hb; cbn [length] in H; [lia|]. destruct n as [|n]; [lia|].
      destruct b; [|exfalso; apply (Hb 0%nat); [lia|reflexivity]]. cbn [filter length].
      specialize (IH n ltac:(lia)). enough (n <= length (filter (fun b => b) m))%nat by lia. apply IH. intros i Hi. apply (Hb (S i)). lia.
    Qed.
  End Masked.

  (** With imposed points: the same of the surface seeds and of the others (the size of a row
      may now also be that of an imposed point at the same place).  After the surface seeds
      and the seeds of the sharp edges (s1, at most two for each edge sphere) come the imposed
      points that survive, with the region of their nearest seed.  The number reported is that
      of the imposed points and the edge seeds together.  Rows farther down than twice the
      edge seeds and the surviving points are not inside the sphere of a surviving point. *)
  Theorem C79_imposed points monitor v : setting (Some points) -> run (Some points) monitor = Ok v ->
    keeps seeds regs (v_points v) (v_regions v) /\ fresh surf regs (length seeds) (v_points v) (v_regions v)
    /\ length (v_sizes v) = length (v_points v) /\ Forall (fun p => length p = 3%nat) (v_points v)
    /\ (forall i, (i < length seeds)%nat -> nth i (v_sizes v) 0 <= rad (nth i seeds [])
          \/ exists q, In q points /\ cdist q (nth i seeds []) < 1 / 10 ^ 10 /\ nth i (v_sizes v) 0 = rad q)
    /\ v_monitoring v = None
    /\ exists s1 r1 kept, keeps seeds regs s1 r1 /\ keeps s1 r1 (v_points v) (v_regions v)
         /\ (length s1 <= length seeds + 2 * length edge)%nat
         /\ kept_of s1 r1 surf edge corner points kept
         /\ (length s1 + length kept <= length (v_points v))%nat
         /\ (forall j, (j < length kept)%nat ->
               (forall d, (d < 3)%nat -> nth d (nth (length s1 + j) (v_points v) []) 0 = nth d (fst (nth j kept ([], 0%nat))) 0)
               /\ nth (length s1 + j) (v_regions v) 0%nat = snd (nth j kept ([], 0%nat)))
         /\ v_added v = Some (length s1 - length seeds + length kept)%nat
         /\ (forall k q, (length s1 + (length s1 - length seeds) + length kept <= k < length (v_points v))%nat -> In q (map fst kept) ->
               rad q <= cdist q (nth k (v_points v) [])).
  Proof.
    intros S E. destruct (@imposed_run _ _ _ S E)
      as (s1 & r1 & s2 & r2 & kept & l & r & mask & sizes & closest & K1 & F1 & B1 & K2 & F2 & Hk & L2 & Hj & K3 & F3 & Hs & Ep & Eh & Er & _ & Em & Ea & M1 & M2 & M3).
    destruct (es_seeds (vs_edge S)) as (N0 & _ & Hr).
    assert (K13 : keeps s1 r1 l r) by (eapply keeps_trans; eauto).
    assert (K03 : keeps seeds regs l r) by (eapply keeps_trans; eauto).
    assert (F02 : fresh surf regs (length seeds) s2 r2) by (exact (fresh_trans Hr K1 K2 F1 F2)).
    assert (F03 : fresh surf regs (length seeds) l r).
    { exact (fresh_trans Hr (keeps_trans K1 K2) K3 F02 F3). }
    destruct M1 as (Lm & Mf & Mt). rewrite map_length in Lm.
    set (n := (length s1 + (length s2 - length seeds))%nat) in *.
    assert (Hn : (length s2 <= n)%nat) by (destruct K1 as (_ & ? & _); unfold n; lia).
    assert (Hm0 : forall i, (i < n)%nat -> nth_error mask i <> Some false). { intros i Hi Hf. apply Mf in Hf. lia. }
    pose proof K03 as (R1 & R2 & R3). pose proof K13 as (_ & T2 & T3). pose proof K3 as (_ & U2 & U3).
    pose proof (fun k => @masked_row n l r mask Lm R1 Hm0 k) as Row. rewrite <- Ep, <- Er in Row.
    assert (Lr : length (v_regions v) = length (v_points v)) by (rewrite Er, Ep; apply masked_length; auto).
    pose proof M2 as (Ls & Msz & _). rewrite map_length in Ls.
    assert (Lh : length (v_sizes v) = length (v_points v)) by (rewrite Eh, Ep; apply masked_length; auto).
    assert (L2p : (length s2 <= length (v_points v))%nat).
    { rewrite Ep. apply masked_first; [exact Lm|intros i Hi; apply Hm0; lia|exact U2]. }
    assert (Low : forall k, (k < length s2)%nat -> same_place (nth k (v_points v) []) (nth k l []) /\ nth k (v_regions v) 0%nat = nth k r 0%nat
      /\ nth k (v_sizes v) 0 = nth k sizes 0).
    { intros k Hk'. destruct (Row k ltac:(lia)) as (j & _ & _ & P1 & _ & P2 & P3 & P4). assert (Ej : j = k) by (apply P4; lia). subst j.
      split; [exact P1|]. split; [exact P2|]. rewrite Eh. apply P3. exact Ls. }
    assert (Keep : forall l0 r0, keeps l0 r0 l r -> (length l0 <= length s2)%nat -> keeps l0 r0 (v_points v) (v_regions v)).
    { intros l0 r0 (_ & _ & Q) Hl. split; auto. split; [lia|]. intros i Hi. destruct (Low i ltac:(lia)) as (P1 & P2 & _). destruct (Q i Hi) as (Q1 & Q2).
      split; [|congruence]. intros d Hd. rewrite P1; auto. }
    split; [apply Keep; auto; destruct K1 as (_ & ? & _); lia|]. split.
    { intros k Hk'. destruct (Row k ltac:(lia)) as (j & J1 & _ & P1 & _ & P2 & _). destruct (F03 j ltac:(lia)) as (A & B & C).
      rewrite P2. split; auto. split; auto. eapply outside_ext; eauto. }
    split; auto. split.
    { apply Forall_forall. intros y Hy. apply In_nth with (d := []) in Hy. destruct Hy as (k & Hk' & <-). destruct (Row k Hk') as (j & _ & _ & _ & P & _). exact P. }
    split.
    { intros i Hi. destruct K1 as (_ & K1 & _). destruct (Low i ltac:(lia)) as (_ & _ & ->).
      destruct (Msz i) as [Es|(x & rr & Hin & Hd & Es)].
      - left. rewrite (nth_error_nth' (map _ l) 0) in Es by (rewrite map_length; lia). apply nth_error_nth with (d := 0) in Es.
        rewrite Es. rewrite map_row by lia. apply Hs; auto.
      - right. apply in_map_iff in Hin. destruct Hin as (q & Eq & Hq). injection Eq as <- <-. exists q. split; auto. split.
        + unfold seed_dist in Hd. rewrite (@edist_cdist _ _ _ (nth i seeds [])) in Hd.
          * rewrite (@cdist_ext q (three_coords q) (nth i seeds []) (nth i seeds [])); auto. intros d Hdd. symmetry. apply three_place; auto.
          * intros d Hdd. unfold coord. rewrite map_row by lia. rewrite three_place by auto. apply R3; auto.
        + apply nth_error_nth with (d := 0) in Es. exact Es. }
    split; auto. exists s1, r1, kept. split; auto. split; [apply Keep; auto; lia|]. split; auto. split; auto. split; [lia|].
    assert (Rowk : forall j, (j < length kept)%nat -> same_place (nth (length s1 + j) (v_points v) []) (fst (nth j kept ([], 0%nat)))
               /\ nth (length s1 + j) (v_regions v) 0%nat = snd (nth j kept ([], 0%nat))).
    { intros j Hlt. destruct (Low (length s1 + j)%nat ltac:(lia)) as (P1 & P2 & _). destruct (U3 (length s1 + j)%nat ltac:(lia)) as (Q1 & Q2).
      destruct (Hj j Hlt) as (V1 & V2). split; [|congruence]. intros d Hd. rewrite P1, Q1, V1 by auto. reflexivity. }
    split; [exact Rowk|]. split.
    { rewrite Ea. f_equal. destruct K1 as (_ & ? & _). lia. }
    intros k q Hk' Hq. apply in_map_iff in Hq. destruct Hq as ((q' & rr) & <- & Hq). cbn [fst].
    destruct (@kept_of_In _ _ _ _ _ _ _ Hk q' rr Hq) as (Hqp & _).
    apply In_nth with (d := ([], 0%nat)) in Hq. destruct Hq as (j & Hlt & Eq).
    destruct (Row k ltac:(lia)) as (i & I1 & I2 & P1 & _).
    apply Rnot_lt_le. intros Hc.
    assert (D : forall a, (a < length l)%nat -> seed_dist (map three_coords l) (three_coords q') a = cdist q' (nth a l [])).
    { intros a Ha. unfold seed_dist. rewrite (@edist_cdist _ _ _ (nth a l [])).
      - apply cdist_ext; auto. apply three_place.
      - intros d Hd. unfold coord. rewrite map_row by lia. apply three_place; auto. }
    assert (Hin : In (three_coords q', rad q') (map split_row points)) by (apply in_map_iff; exists q'; auto).
    assert (Hseed : is_seed (map three_coords l) (three_coords q')).
    { exists (length s1 + j)%nat. rewrite map_length. split; [lia|]. rewrite D by lia.
      destruct (U3 (length s1 + j)%nat ltac:(lia)) as (Q1 & _). rewrite (@cdist_ext q' q' _ q'); auto.
      - replace (cdist q' q') with 0 by (symmetry; apply vdist_self). pose proof small_tol. lra.
      - intros d Hd. rewrite Q1 by auto. destruct (Hj j Hlt) as (V1 & _). rewrite V1, Eq. reflexivity. }
    pose proof (Mt i (three_coords q') (rad q')) as Mi. rewrite map_length in Mi.
    assert (Hki : (n <= i)%nat) by (destruct K1 as (_ & ? & _); unfold n; lia).
    rewrite Mi in I2; [discriminate| |auto|auto|]; [lia|]. rewrite D by lia.
    rewrite (@cdist_ext q' q' (nth i l []) (nth k (v_points v) [])); auto. intros d Hd. symmetry. apply P1; auto.
  Qed.
End Run.

(** The square of C74 with an imposed point. *)
Definition sq_points : list (list R) := [[3;3;15;4]].
Example C79_hypotheses :
  volume_setting (1/4) 1 sq_seeds [1; 0]%nat sq_surf sq_edges [] [] (Some sq_points) (fun _ => [3/5; 4/5])
    (fun _ => DR (fun _ => 0) (fun _ _ => [1;0;0]) (fun _ _ => 0)) (fun _ => 0)
  /\ survives sq_seeds [1; 0]%nat sq_surf sq_edges [] [3;3;15;4] 1.
Proof.
  assert (Big : forall a b, cdist a b * cdist a b <= 50 * 50 -> cdist a b <= 50) by (intros a b; apply sq_bound).
  assert (NB : forall x, x <= 100 -> x < @dbl_max R _) by (intros x; apply near_big').
  split.
  - constructor.
    + exact (proj1 C74_hypotheses).
    + lra.
    + lra.
    + split; [|intros a b []]. intros a b Ha Hb. assert (E : rad a = 5 /\ rad b = 5).
      { split; [clear Hb; rename Ha into H|clear Ha; rename Hb into H]; repeat (destruct H as [<-|H]; [reflexivity|]); contradiction. }
      destruct E as (-> & ->). pose proof (cdist_nonneg a b). lra.
    + constructor.
    + intros k. cbn [d_front d_dir d_len]. split; [intros; lra|]. split; [|intros; lra]. intros _ _.
      exact (proj2 (proj2 (proj2 (proj2 PropsInterior.C69_hypotheses)))).
    + intros k. lra.
    + intros points E. injection E as <-. constructor; [|constructor]. split; [split; [reflexivity|unfold rad; cbn; lra]|].
      split; [|split; [|split]].
      * intros s Hs. apply NB. pose proof (Big [3;3;15;4] s) as B. rewrite sq_dist in B.
        repeat (destruct Hs as [<-|Hs]; [cbn [nth] in B; lra|]); contradiction.
      * intros s Hs. apply NB. pose proof (Big [3;3;15;4] s) as B. rewrite sq_dist in B.
        repeat (destruct Hs as [<-|Hs]; [cbn [nth] in B; lra|]); contradiction.
      * intros s [].
      * intros s Hs. apply NB. pose proof (Big [3;3;15;4] s) as B. rewrite sq_dist in B.
        repeat (destruct Hs as [<-|Hs]; [cbn [nth] in B; unfold rad; cbn [nth]; lra|]); contradiction.
  - assert (D0 : cdist [3;3;15;4] [3;3;20;1] = 5) by (apply sq_eq; [apply cdist_nonneg|lra|rewrite sq_dist; cbn [nth]; lra]).
    assert (Far : forall s, 36 <= cdist [3;3;15;4] s * cdist [3;3;15;4] s -> 6 <= cdist [3;3;15;4] s).
    { intros s H. apply Rsqr_incr_0; [unfold Rsqr; lra|lra|apply cdist_nonneg]. }
    assert (T : 0 < 1 / 10 ^ 10) by apply small_tol.
    exists 0%nat. split; [split; [cbn; lia|]|].
    { intros j Hj. destruct j as [|[|j]]; cbn [nth sq_seeds]; [lra| |cbn in Hj; lia]. rewrite D0. pose proof (Far [3;3;-20;1]) as B.
      rewrite sq_dist in B. cbn [nth] in B. lra. }
    split; [reflexivity|]. split; [discriminate|]. split; [|split; [|intros s []]].
    + intros s Hs. pose proof (Far s) as B. rewrite sq_dist in B.
      repeat (destruct Hs as [<-|Hs]; [cbn [nth] in B; unfold rad; cbn [nth]; lra|]); contradiction.
    + intros s Hs. pose proof (Far s) as B. rewrite sq_dist in B.
      repeat (destruct Hs as [<-|Hs]; [cbn [nth] in B; unfold rad; cbn [nth]; lra|]); contradiction.
Qed.

Definition cross : list (list PrimFloat.float) :=
  [[fl 1; fl 0; fl 0]; [fl (-1); fl 0; fl 0]; [fl 0; fl 1; fl 0]; [fl 0; fl (-1); fl 0]]%Z.
Definition cross_draws : nat -> draws PrimFloat.float := fun k =>
  DR (fun _ => fl 0) (fun _ d => nth (if (k =? 0)%nat then d else 4%nat) cross [fl 0; fl 0; fl 0])%Z (fun _ _ => fl 0)%Z.
Definition q4 (a : Z) : PrimFloat.float := PrimFloat.div (fl a) (fl 4).
(** num_imposed_seeds_added (436) also counts the seeds of the sharp edges.  One imposed point
    with radius 4: 7 are reported as added, and of the seeds that were thrown into its sphere,
    at distance 9/4, the first ones stay. *)
Theorem C79_cleared_refuted : exists v,
  volume_seeds 12 40 (q4 1) (fl 1) 1 [[fl 3; fl 3; fl 20; fl 1]; [fl 3; fl 3; fl (-20); fl 1]]%Z [1; 0]%nat
    [[fl 3; fl 0; fl 4; fl 1]]%Z f_edges [] [] (Some [[fl 3; fl 3; fl 15; fl 4]]%Z) false (fun _ => [fl 0; fl 0; fl 1]%Z) f_dir
    cross_draws (fun _ => fl 0)%Z = Ok v
  /\ v_added v = Some 7%nat /\ length (v_points v) = 17%nat
  /\ nth 8 (v_points v) [] = [fl 3; fl 3; fl 15]%Z /\ nth 8 (v_sizes v) (fl 0)%Z = fl 4%Z
  /\ nth 9 (v_points v) [] = [q4 21; fl 3; fl 15]%Z
  /\ cdist [3;3;15] [21/4;3;15] < 4.
Proof.
  eexists. split; [vm_compute; reflexivity|]. repeat (split; [vm_compute; reflexivity|]).
  apply Rle_lt_trans with (9/4); [|lra]. apply PropsInterior.cdist_le; [lra|]. unfold sumn, rsum, vec; cbn [seq map fold_right nth]; lra.
Qed.
(** The imposed points that are not seeds are replaced by their closest seed before the
    invalidated seeds are dropped (500-517, 519-539): the second row of
    monitoring_points_closest_seeds.csv is not a row of seeds.csv. *)
Theorem C79_closest_refuted : exists v c,
  volume_seeds 12 40 (q4 1) (fl 1) 1 [[fl 3; fl 3; fl 20; fl 1]; [fl 3; fl 3; fl (-20); fl 1]]%Z [1; 0]%nat
    [[fl 6; fl 3; fl 15; q4 2]]%Z [] [] [] (Some [[fl 3; fl 3; fl 15; fl 4]; [fl 6; fl 3; fl 15; fl 1]]%Z) false
    (fun _ => [fl 0; fl 0; fl 1]%Z) f_dir cross_draws (fun _ => fl 0)%Z = Ok v
  /\ v_closest v = Some [c; ([q4 21; fl 3; fl 15]%Z, fl 1%Z)]
  /\ forallb (fun p => negb (PrimFloat.eqb (nth 0 p (fl 0)%Z) (q4 21))) (v_points v) = true.
Proof. eexists _, _. split; [vm_compute; reflexivity|]. split; vm_compute; reflexivity. Qed.

Print Assumptions C79_seeds.
Print Assumptions C79_monitoring.
Print Assumptions C79_imposed.
Print Assumptions C79_cleared_refuted.
Print Assumptions C79_closest_refuted.
