(** C78: the regions of the surface seeds. *)
From Coq Require Import Reals Lra.
From Verif Require Import Base Num Vec KdSpec SamplingSpec SmartTree SmartTreeSpec KdTree Geometry GeometrySpec GeometryAngle Graph Spheres Coloring ColoringSpec
  SeedSides SidesSpec SurfaceRegions PropsKdTree PropsSpheres PropsColoring PropsSeedSides.
Local Open Scope nat_scope.

(** Two seeds are beside each other: at some surface or edge sphere no triangle separates them. *)
Definition beside (sph : list (list R)) seeds ns ne (a b : nat) : Prop :=
  (exists i, i < ns /\ together_surface sph seeds i a b) \/ (exists i, ns <= i < ns + ne /\ together_edge sph seeds ns i a b).
(** A chain of such steps. *)
Inductive chain (step : nat -> nat -> Prop) : nat -> nat -> Prop :=
| chain_refl i : chain step i i
| chain_next i j k : chain step i j -> step j k \/ step k j -> chain step i k.

(** What is asked of the spheres and the seeds: closed fans, books of sheets, distances that fit into a double. *)
Record surface_setting (s : stree R) (sph : list (list R)) (seeds : list (pseed R)) (cap cap_s ns ne : nat) : Prop :=
  { ss_tree : ready s /\ st_nd s = 3 /\ st_pts s = map q_x seeds;
    ss_range : forall x q a b c, seed_at seeds x q -> q_tri q = (a, b, c) -> a < length sph /\ b < length sph /\ c < length sph;
    ss_cap : length sph <= cap /\ length seeds <= cap_s /\ ns + ne <= length sph;
    ss_some : exists i, i < ns + ne /\ seeds_from seeds i <> [];
    ss_fan : forall i, i < ns -> seeds_from seeds i <> [] -> exists m c lo up, fan sph seeds i (seeds_from seeds i) m c lo up;
    ss_book : forall i, ns <= i < ns + ne -> seeds_from seeds i <> [] -> exists p L m c lo up, book sph seeds ns i p L m c lo up;
    ss_box : forall j d, j < length seeds -> d < 3 -> (- dbl_max < coord (st_pts s) j d < dbl_max)%R;
    ss_far : forall x, pushed_corner s x -> exists j, j < length seeds /\ (dist_to s x j < dbl_max)%R }.

Lemma fan_pair sph seeds i ss m c lo up : fan sph seeds i ss m c lo up -> lo 0 <> lo 1.
Proof.
  intros (Hm & _ & Hinj & HT & _) E. destruct (HT 0 ltac:(lia)) as (_ & _ & _ & _ & (q & x & y & z & Hq & T & P) & _).
  destruct (HT 1 ltac:(lia)) as (_ & _ & _ & _ & (q' & x' & y' & z' & Hq' & T' & P') & _).
  rewrite E in Hq. unfold seed_at in *. rewrite Hq in Hq'. injection Hq' as <-. rewrite T in T'. injection T' as <- <- <-.
  assert (P2 : Permutation [c 0; c 1] [c 1; c 2]) by (apply (Permutation_cons_inv (a := i)); etransitivity; [symmetry; exact P|exact P']).
  assert (I0 : In (c 0) [c 1; c 2]) by (eapply Permutation_in; [exact P2|now left]).
  destruct I0 as [I0|[I0|[]]]; apply Hinj in I0; lia.
Qed.
Lemma book_pair sph seeds ns i p L m c lo up : book sph seeds ns i p L m c lo up -> lo 0 0 <> lo 0 1.
Proof.
  intros ((HL & Hp & HS & _) & _) E. destruct (HS 0 ltac:(lia)) as (Hm & C0 & Ce & Np & Hc & HT).
  destruct (HT 0 ltac:(lia)) as (_ & _ & _ & _ & (q & x & y & z & Hq & T & P) & _).
  destruct (HT 1 ltac:(lia)) as (_ & _ & _ & _ & (q' & x' & y' & z' & Hq' & T' & P') & _).
  rewrite E in Hq. unfold seed_at in *. rewrite Hq in Hq'. injection Hq' as <-. rewrite T in T'. injection T' as <- <- <-.
  assert (P2 : Permutation [c 0 0; c 0 1] [c 0 1; c 0 2]) by (apply (Permutation_cons_inv (a := i)); etransitivity; [symmetry; exact P|exact P']).
  assert (I0 : In (c 0 0) [c 0 1; c 0 2]) by (eapply Permutation_in; [exact P2|now left]).
  pose proof (Hc 1 ltac:(lia)) as K1. rewrite C0 in I0. destruct I0 as [I0|[I0|[]]]; [lia|].
  destruct (Nat.eq_dec (m 0) 2) as [Em|Nm]; [rewrite Em in Np; congruence|]. pose proof (Hc 2 ltac:(lia)). lia.
Qed.

Section Setting.
  Variables (s : stree R) (sph : list (list R)) (seeds : list (pseed R)) (cap cap_s ns ne : nat).
  Hypothesis HS : surface_setting s sph seeds cap cap_s ns ne.
  Let bes := beside sph seeds ns ne.

  Lemma seeds_some : seeds <> [].
  Proof. destruct (ss_some HS) as (i & _ & H). intros ->. apply H. reflexivity. Qed.
  Lemma some_pair : exists a b, a <> b /\ bes a b.
  Proof.
    destruct (ss_some HS) as (i & Hi & Hn). destruct (lt_dec i ns) as [Hl|Hl].
    - destruct (ss_fan HS Hl Hn) as (m & c & lo & up & HF). exists (lo 0), (lo 1). split; [eapply fan_pair; eauto|].
      left. exists i. split; auto. exists m, c, lo, up. split; auto. left. exists 0, 1. destruct HF as (Hm & _). repeat split; lia.
    - destruct (ss_book HS (i := i) ltac:(lia) Hn) as (p & L & m & c & lo & up & HB). exists (lo 0 0), (lo 0 1). split; [eapply book_pair; eauto|].
      right. exists i. split; [lia|]. exists p, L, m, c, lo, up. split; auto. exists 0. destruct HB as ((HL & _ & HM & _) & _). destruct (HM 0 ltac:(lia)) as (Hm & _).
      split; [exists 0, 0|exists 0, 1]; (split; [lia|split; [lia|left; auto]]).
  Qed.

  Lemma chain_linked l : (forall a b, SidesSpec.joined l a b <-> a <> b /\ bes a b) -> forall a b, linked l a b <-> chain bes a b.
  Proof.
    intros J a b. split.
    - induction 1 as [i|i j k _ IH Hs]; [constructor|]. econstructor; [exact IH|]. left. apply J. exact Hs.
    - induction 1 as [i|i j k _ IH Hs]; [constructor|]. destruct (Nat.eq_dec j k) as [<-|N]; auto. econstructor; [exact IH|].
      destruct Hs as [Hs|Hs]; [apply (J j k); auto|]. assert (K : SidesSpec.joined l k j) by (apply J; auto). destruct K; auto.
  Qed.
End Setting.

(** Two seeds get the same region exactly if a chain of seeds beside each other leads from one to the other; the regions are
    numbered without gaps, region 0 is that of the seed nearest to a corner outside of all of them, the others are in the
    order of their first seeds, and "Invalid coloring" is never reported. *)
Theorem C78_regions s sph seeds cap cap_s ns ne : surface_setting s sph seeds cap cap_s ns ne ->
  let n := length seeds in
  let same := chain (beside sph seeds ns ne) in
  exists regions k far outer,
    color_surface s sph seeds point_angle cap cap_s ns ne = Ok (Some k, regions, false)
    /\ length regions = n
    /\ pushed_corner s far /\ outer < n /\ (forall j, j < n -> (dist_to s far outer <= dist_to s far j)%R)
    /\ let region i := nth i regions 0 in
       (forall i j, i < n -> j < n -> (region i = region j <-> same i j))
       /\ (forall i, i < n -> region i <= k) /\ (forall c, c <= k -> exists i, i < n /\ region i = c)
       /\ (forall i, i < n -> (region i = 0 <-> same outer i))
       /\ (forall i j fi fj, i < n -> j < n -> region i <> 0 -> region j <> 0 ->
             (fi < n /\ same i fi /\ forall x, x < n -> same i x -> fi <= x) ->
             (fj < n /\ same j fj /\ forall x, x < n -> same j x -> fj <= x) -> (region i < region j <-> fi < fj)).
Proof.
  intros HS n same. destruct (ss_tree HS) as (Hr & Hd & Hp). destruct (ss_cap HS) as (Hc & Hcs & Hnn).
  destruct (@C77_links sph seeds cap ns ne (ss_range HS) Hc Hnn (seeds_some HS) (ss_fan HS) (ss_book HS)) as (l & E & Hl & J).
  assert (EQ : forall a b, linked l a b <-> same a b) by (apply chain_linked; exact J).
  assert (Ln : length (st_pts s) = n) by (rewrite Hp; apply map_length).
  assert (Ne : l <> []).
  { destruct (some_pair HS) as (a & b & N & B). intros ->. destruct (proj2 (J a b) (conj N B)) as [[]|[]]. }
  pose proof (@C36_regions s cap_s l) as C. cbv zeta in C. rewrite Ln in C.
  destruct (C Hr Hd Hcs Ne Hl (ss_box HS) (ss_far HS)) as (g & regions & k & far & outer & Eg & Ec & Lr & Hf & Ho & Hm & H1 & H2 & H3 & H4 & H5).
  exists regions, k, far, outer. split.
  { unfold color_surface. rewrite E. cbn [bind]. fold n. rewrite Eg. cbn [bind]. exact Ec. }
  split; auto. split; auto. split; auto. split; auto. cbv zeta.
  split; [intros i j Hi Hj; rewrite <- EQ; auto|]. split; auto. split; auto. split; [intros i Hi; rewrite <- EQ; auto|].
  intros i j fi fj Hi Hj Ni Nj (A1 & A2 & A3) (B1 & B2 & B3). apply H5; auto.
  - split; auto. split; [now apply EQ|]. intros x Hx Lx. apply A3; auto. now apply EQ.
  - split; auto. split; [now apply EQ|]. intros x Hx Lx. apply B3; auto. now apply EQ.
Qed.

(** No region leaks through the surface: if the seeds can be labelled (inside, outside, number of a volume) so that seeds
    beside each other have the same label, then a region has one label; in particular two partners with different
    labels are in different regions. *)
Theorem C78_no_leak s sph seeds cap cap_s ns ne k regions bad {A} (label : nat -> A) : surface_setting s sph seeds cap cap_s ns ne ->
  color_surface s sph seeds point_angle cap cap_s ns ne = Ok (k, regions, bad) ->
  (forall a b, beside sph seeds ns ne a b -> label a = label b) ->
  forall i j, i < length seeds -> j < length seeds -> nth i regions 0 = nth j regions 0 -> label i = label j.
Proof.
  intros HS E HL i j Hi Hj Er. destruct (C78_regions HS) as (regions' & k' & far & outer & E' & _ & _ & _ & _ & H1 & _).
  rewrite E in E'. injection E' as _ -> _. apply H1 in Er; auto. clear - Er HL.
  induction Er as [|i j x _ IH Hs]; auto. rewrite IH. destruct Hs as [Hs|Hs]; apply HL in Hs; auto.
Qed.

(** Two pyramids glued at a sharp edge (PropsSeedSides): two regions, the inner and the outer seeds. *)
Lemma lens_setting_of s : ready s -> st_nd s = 3 -> st_pts s = map q_x lens_seeds -> surface_setting s lens lens_seeds 6 16 2 4.
Proof.
  intros Hr Hd Hp. pose proof dbl_max_big as HB.
  assert (CB : forall j d, j < 16 -> d < 3 -> (-1 <= coord (st_pts s) j d <= 1)%R).
  { intros j d Hj Hd'. rewrite Hp. unfold coord. do 16 (destruct j as [|j]; [destruct d as [|[|[|d]]]; try lia; cbn; lra|]). lia. }
  constructor.
  - auto.
  - intros x q a b c Hs. unfold seed_at in Hs. do 16 (destruct x as [|x]; [injection Hs as <-; cbn; intros T; injection T as <- <- <-; lia|]). destruct x; discriminate.
  - cbn. lia.
  - exists 0. split; [lia|discriminate].
  - intros i Hi _. destruct i as [|[|i]]; [| |lia]; do 4 eexists; [apply lens_fan0|apply lens_fan1].
  - intros i Hi _. do 2 (destruct i as [|i]; [lia|]). destruct i as [|[|[|[|i]]]]; [| | | |lia]; do 6 eexists; [apply lens_book2|apply lens_book3|apply lens_book4|apply lens_book5].
  - intros j d Hj Hd'. pose proof (CB j d Hj Hd'). lra.
  - intros x (Lx & Hx). exists 0. split; [cbn; lia|].
    assert (XB : forall d, d < 3 -> (-5 <= nth d x 0 <= 5)%R).
    { intros d Hd'. destruct (Hx d Hd') as (lo & hi & _ & (jl & Hjl & El) & (jh & Hjh & Eh) & ->). rewrite Hp, map_length in Hjl, Hjh.
      pose proof (CB jl d Hjl Hd'). pose proof (CB jh d Hjh Hd'). lra. }
    apply Rle_lt_trans with 100%R; [|lra]. unfold dist_to. rewrite Hd.
    unfold edist, sqdist. replace 100%R with (sqrt (100 * 100)) by (apply sqrt_square; lra). apply sqrt_le_1_alt. cbn [seq map].
    pose proof (XB 0 ltac:(lia)). pose proof (XB 1 ltac:(lia)). pose proof (XB 2 ltac:(lia)).
    pose proof (CB 0 0 ltac:(lia) ltac:(lia)). pose proof (CB 0 1 ltac:(lia) ltac:(lia)). pose proof (CB 0 2 ltac:(lia) ltac:(lia)).
    assert (SQ : forall a, (-6 <= a <= 6 -> a * a <= 36)%R) by (intros a Ha; nra).
    pose proof (SQ (nth 0 x 0 - coord (st_pts s) 0 0)%R ltac:(lra)). pose proof (SQ (nth 1 x 0 - coord (st_pts s) 0 1)%R ltac:(lra)).
    pose proof (SQ (nth 2 x 0 - coord (st_pts s) 0 2)%R ltac:(lra)). unfold rsum. cbn [fold_right]. lra.
Qed.

Lemma lens_setting : exists s, surface_setting s lens lens_seeds 6 16 2 4.
Proof.
  destruct (@C07_from_array 3 (map q_x lens_seeds)) as (s & _ & Hr & Hd & Hp); [lia|discriminate| |].
  { intros p Hp. cbn in Hp. repeat (destruct Hp as [<-|Hp]; [cbn; lia|]). destruct Hp. }
  exists s. now apply lens_setting_of.
Qed.

Example C78_lens : exists s regions, surface_setting s lens lens_seeds 6 16 2 4
  /\ color_surface s lens lens_seeds point_angle 6 16 2 4 = Ok (Some 1, regions, false)
  /\ forall i j, i < 16 -> j < 16 -> (nth i regions 0 = nth j regions 0 <-> Nat.even i = Nat.even j).
Proof.
  destruct lens_setting as (s & HS).
  assert (LB : forall a b, beside lens lens_seeds 2 4 a b -> Nat.even a = Nat.even b).
  { intros a b B. destruct (Nat.eq_dec a b) as [->|N]; auto.
    destruct (@C77_links lens lens_seeds 6 2 4 (ss_range HS) (proj1 (ss_cap HS)) (proj2 (proj2 (ss_cap HS))) (seeds_some HS) (ss_fan HS) (ss_book HS)) as (l & E & _ & J).
    destruct C77_lens as (l' & E' & _ & _ & _ & _ & K). rewrite E in E'. injection E' as <-. apply K, J. split; auto. }
  destruct (C78_regions HS) as (regions & k & far & outer & E & Lr & _ & _ & _ & H1 & H2 & H3 & _). change (length lens_seeds) with 16 in *.
  set (same := chain (beside lens lens_seeds 2 4)) in *.
  assert (one : forall a b, beside lens lens_seeds 2 4 a b -> same a b) by (intros a b B; econstructor; [constructor|left; exact B]).
  assert (tr : forall a b c, same a b -> beside lens lens_seeds 2 4 b c -> same a c) by (intros a b c A B; econstructor; [exact A|left; exact B]).
  assert (F0u : forall k k', k < 4 -> k' < 4 -> beside lens lens_seeds 2 4 (2 * k) (2 * k')).
  { intros x y Hx Hy. left. exists 0. split; [lia|]. do 4 eexists. split; [apply lens_fan0|]. right. exists x, y. auto. }
  assert (F0l : forall k k', k < 4 -> k' < 4 -> beside lens lens_seeds 2 4 (2 * k + 1) (2 * k' + 1)).
  { intros x y Hx Hy. left. exists 0. split; [lia|]. do 4 eexists. split; [apply lens_fan0|]. left. exists x, y. auto. }
  assert (F1l : forall k k', k < 4 -> k' < 4 -> beside lens lens_seeds 2 4 (2 * k + 8) (2 * k' + 8)).
  { intros x y Hx Hy. left. exists 1. split; [lia|]. do 4 eexists. split; [apply lens_fan1|]. left. exists x, y. auto. }
  assert (F1u : forall k k', k < 4 -> k' < 4 -> beside lens lens_seeds 2 4 (2 * k + 9) (2 * k' + 9)).
  { intros x y Hx Hy. left. exists 1. split; [lia|]. do 4 eexists. split; [apply lens_fan1|]. right. exists x, y. auto. }
  assert (B08 : beside lens lens_seeds 2 4 0 8).
  { right. exists 2. split; [lia|]. do 6 eexists. split; [apply lens_book2|]. exists 1. split.
    - exists 0, 0. split; [lia|]. split; [lia|]. right. split; reflexivity.
    - exists 1, 0. split; [lia|]. split; [lia|]. left. split; reflexivity. }
  assert (B19 : beside lens lens_seeds 2 4 1 9).
  { right. exists 2. split; [lia|]. do 6 eexists. split; [apply lens_book2|]. exists 0. split.
    - exists 0, 0. split; [lia|]. split; [lia|]. left. split; reflexivity.
    - exists 1, 0. split; [lia|]. split; [lia|]. right. split; reflexivity. }
  assert (ALL : forall i, i < 16 -> same (if Nat.even i then 0 else 1) i).
  { intros i Hi. do 8 (destruct i as [|i]; [solve [constructor | exact (one _ _ (F0u 0 1 ltac:(lia) ltac:(lia))) | exact (one _ _ (F0u 0 2 ltac:(lia) ltac:(lia)))
        | exact (one _ _ (F0u 0 3 ltac:(lia) ltac:(lia))) | exact (one _ _ (F0l 0 1 ltac:(lia) ltac:(lia))) | exact (one _ _ (F0l 0 2 ltac:(lia) ltac:(lia)))
        | exact (one _ _ (F0l 0 3 ltac:(lia) ltac:(lia)))]|]).
    do 8 (destruct i as [|i]; [solve [exact (one _ _ B08) | exact (one _ _ B19)
        | exact (tr _ _ _ (one _ _ B08) (F1l 0 1 ltac:(lia) ltac:(lia))) | exact (tr _ _ _ (one _ _ B08) (F1l 0 2 ltac:(lia) ltac:(lia)))
        | exact (tr _ _ _ (one _ _ B08) (F1l 0 3 ltac:(lia) ltac:(lia))) | exact (tr _ _ _ (one _ _ B19) (F1u 0 1 ltac:(lia) ltac:(lia)))
        | exact (tr _ _ _ (one _ _ B19) (F1u 0 2 ltac:(lia) ltac:(lia))) | exact (tr _ _ _ (one _ _ B19) (F1u 0 3 ltac:(lia) ltac:(lia)))]|]).
    lia. }
  assert (RG : forall i, i < 16 -> nth i regions 0 = nth (if Nat.even i then 0 else 1) regions 0).
  { intros i Hi. symmetry. apply H1; [destruct (Nat.even i); lia|auto|auto]. }
  assert (N01 : nth 0 regions 0 <> nth 1 regions 0).
  { intros K. pose proof (@C78_no_leak s lens lens_seeds 6 16 2 4 (Some k) regions false bool Nat.even HS E LB 0 1 ltac:(cbn; lia) ltac:(cbn; lia) K) as Q. discriminate Q. }
  assert (K1 : k = 1).
  { assert (Q : forall c, c <= k -> c = nth 0 regions 0 \/ c = nth 1 regions 0).
    { intros c Hc. destruct (H3 c Hc) as (i & Hi & <-). rewrite (RG i Hi). destruct (Nat.even i); auto. }
    pose proof (H2 0 ltac:(lia)). pose proof (H2 1 ltac:(lia)). destruct k as [|[|k]]; auto; [lia|].
    pose proof (Q 0 ltac:(lia)). pose proof (Q 1 ltac:(lia)). pose proof (Q 2 ltac:(lia)). lia. }
  exists s, regions. split; [exact HS|]. rewrite K1 in E. split; [exact E|].
  intros i j Hi Hj. rewrite (RG i Hi), (RG j Hj). destruct (Nat.even i), (Nat.even j); split; intros Q; auto; try discriminate Q; exfalso; apply N01; auto.
Qed.

Print Assumptions C78_regions.
Print Assumptions C78_no_leak.
