(** Proofs about the corner spheres. *)
From Coq Require Import Reals Lra.
From Verif Require Import Base Num Vec KdTree SmartTree KdSpec SmartTreeSpec SmartQueryProofs SmartTreeProofs TreeGrow DenseQR Geometry GeometrySpec GeometryProofs
  Spheres SpheresSpec SpheresProofs SpheresLipProofs ActivePool ActivePoolSpec SamplePool SamplePoolSpec SamplePoolProofs SurfaceShrinkProofs CornerSpheres CornerSpec.
Local Open Scope R_scope.

(** The admissible sizes at x, without and with the sizing function. *)
Definition size_ok (k : csetting R) (x : list R) (r : R) : Prop :=
  clear_of_features k x r
  /\ forall t, k_input k = Some t -> exists c, closest_size t (vec x) c /\ r <= radius t c.
Definition size_small (k : csetting R) (x : list R) (r : R) : Prop :=
  clear_of_features k x r
  /\ forall t c, k_input k = Some t -> closest_size t (vec x) c -> r <= radius t c.
Definition easy (k : csetting R) : Prop :=
  0 <= k_tol k /\ k_thr k < 1 /\ 0 < k_rmax k
  /\ (forall t, k_input k = Some t -> positive_radii t).

Lemma far_from (s : stree R) x j : st_nd s = 3%nat -> norm (st_nd s) (offset s x j) = vdist 3 (vec x) (center s j).
Proof. intros ->. reflexivity. Qed.

Section Radius.
  Variables (k : csetting R) (points : list (list R)) (corners : list nat).
  Hypothesis Hk : good_setting k points corners.

  Lemma corner_radius_ok c : In c corners ->
    exists r, corner_radius k (place points c) = Ok r /\ size_ok k (place points c) r
      /\ (forall r', size_small k (place points c) r' -> r' <= r)
      /\ (easy k -> 0 < r).
  Proof.
    intros Hc. set (x := place points c). destruct Hk as ((Rc & Ec & Nc & Lc & Vc) & (Re & Ee & Ne & Le & Ve) & Hp & Hi & Hm & Ht).
    assert (Hx : (3 <= length x)%nat). { unfold x, place. rewrite firstn_length. destruct (Hp c Hc). lia. }
    unfold corner_radius.
    destruct (@closest_nonsmooth_ok _ Rc _ Nc Lc) with (x := x) (tol := k_tol k) (thr := k_thr k) (d0 := @dbl_max R _) as (b1 & -> & N1);
      [intros v Hin; rewrite Ec; auto|rewrite Ec; auto|left; apply dbl_max_pos|]. cbn [bind].
    destruct (@closest_nonsmooth_edge_ok _ Re _ Ne Le) with (x := x) (tol := k_tol k) (thr := k_thr k) (d0 := @dbl_max R _) as (b2 & -> & N2);
      [intros v Hin; rewrite Ee; auto|rewrite Ee; auto|left; apply dbl_max_pos|]. cbn [bind].
    rewrite nlit4, nmin_R. cbn [nltb nmul RNum].
    set (a := 2 / 5 * snd b1). set (b := 2 / 5 * snd b2).
    assert (Em : (if Rltb (k_rmax k) (Rmin a b) then k_rmax k else Rmin a b) = Rmin (Rmin (k_rmax k) a) b).
    { destruct (Rltb (k_rmax k) (Rmin a b)) eqn:E; [apply Rltb_true in E|apply Rltb_false in E];
      unfold Rmin in *; repeat (destruct (Rle_dec _ _)); lra. }
    rewrite Em. clear Em.
    assert (L0 : least_of (fun v => v = k_rmax k) (k_rmax k)) by (split; [auto|intros v ->; lra]).
    pose proof (@least_nearest _ _ _ _ _ _ _ L0 Hm N1) as L1. fold a in L1.
    assert (M1 : Rmin (k_rmax k) a <= 2 / 5 * dbl_max) by (apply Rmin_bound; auto).
    pose proof (@least_nearest _ _ _ _ _ _ _ L1 M1 N2) as L2. fold b in L2.
    assert (Hin : forall t, k_input k = Some t -> spheres t /\ point_at_reach t (vec x)).
    { intros t E. destruct (Hi t E) as (H1 & H2). split; auto. destruct (H2 c Hc) as (j & Hj & Hd). exists j. auto. }
    destruct (@input_limit_ok (k_input k) x _ _ Hin Hx L2) as (r & ci & -> & _ & Hci & L3).
    exists r. split; auto. destruct L3 as (L3 & L4). split; [|split].
    - split.
      + split; [apply L4; auto|]. split.
        * intros j Hj Hs. apply L4. left. left. right. exists j. split; [apply in_seq; unfold count in Hj; lia|]. split; auto.
          rewrite dist_to_vdist; auto.
        * intros j Hj Hs. apply L4. left. right. exists j. split; [apply in_seq; unfold count in Hj; lia|]. split; auto.
          rewrite dist_to_vdist; auto.
      + intros t E. exists ci. split; [apply (Hci t E)|]. apply L4. right. eauto.
    - intros r' ((H1 & H2 & H3) & H4). destruct L3 as [[[->|(j & Hj & Hs & ->)]|(j & Hj & Hs & ->)]|(t & E & ->)]; auto.
      + rewrite dist_to_vdist by auto. apply in_seq in Hj. apply H2; auto. unfold count. lia.
      + rewrite dist_to_vdist by auto. apply in_seq in Hj. apply H3; auto. unfold count. lia.
      + apply H4; auto. apply (Hci t E).
    - intros (P1 & P2 & P3 & P4). destruct L3 as [[[->|(j & Hj & Hs & ->)]|(j & Hj & Hs & ->)]|(t & E & ->)]; auto.
      + rewrite dist_to_vdist by auto. unfold smooth_from in Hs. rewrite (@far_from (k_cloud k) x j Ec) in Hs. destruct (Rle_lt_dec (vdist 3 (vec x) (center (k_cloud k) j)) (k_tol k)); [tauto|lra].
      + rewrite dist_to_vdist by auto. unfold smooth_edge in Hs. rewrite (@far_from (k_edges k) x j Ee) in Hs. destruct (Rle_lt_dec (vdist 3 (vec x) (center (k_edges k) j)) (k_tol k)); [tauto|lra].
      + apply (P4 t E). apply (Hci t E).
  Qed.
End Radius.

(** * The first loop *)
Definition sphere_item (points : list (list R)) (p : nat * R) : item :=
  It (place points (fst p) ++ [snd p]) (repeat 0 3) (Some [2; fst p]%nat).
Definition between (points : list (list R)) (a b : nat) : R := vdist 3 (vec (place points a)) (vec (place points b)).

Section Loop.
  Variables (need : nat -> nat -> bool) (k : csetting R) (points : list (list R)) (corners : list nat).
  Hypothesis Hk : good_setting k points corners.

  Definition good_pair (p : nat * R) : Prop :=
    size_ok k (place points (fst p)) (snd p)
    /\ (forall r', size_small k (place points (fst p)) r' -> r' <= snd p)
    /\ (easy k -> 0 < snd p).
  Definition apart2 (a b : nat * R) : Prop :=
    k_tol k <= between points (fst a) (fst b)
    /\ (distinct_places points corners -> 0 < between points (fst a) (fst b)).
  Record filled (m : nat) (s : stree R) (l : list (nat * R)) : Prop := {
    f_tree : grown 3 s (map (sphere_item points) l);
    f_from : forall p, In p l -> In (fst p) (firstn m corners) /\ good_pair p;
    f_all : forall c, In c (firstn m corners) -> exists p, In p l /\ (fst p = c \/ between points c (fst p) < k_tol k);
    f_apart : ForallOrdPairs apart2 l
  }.

  Lemma place_len c : In c corners -> length (place points c) = 3%nat.
  Proof. intros Hc. destruct Hk as (_ & _ & Hp & _). destruct (Hp c Hc). unfold place. rewrite firstn_length. lia. Qed.
  Lemma corner_ok c : In c corners -> corner points c = Ok (place points c).
  Proof.
    intros Hc. destruct Hk as (_ & _ & Hp & _). destruct (Hp c Hc) as (H1 & H2). unfold corner, place.
    destruct (nth_error_lt points H1) as [row E]. rewrite (get_some E). cbn [bind]. rewrite (nth_error_nth points c [] E) in *.
    apply Nat.leb_le in H2. now rewrite H2.
  Qed.
  Lemma vec_app (x : list R) r d : (d < length x)%nat -> vec (x ++ [r]) d = vec x d.
  Proof. intros. unfold vec. now rewrite app_nth1. Qed.
  Lemma FOP_snoc {A} (P : A -> A -> Prop) l a : ForallOrdPairs P l -> Forall (fun b => P b a) l -> ForallOrdPairs P (l ++ [a]).
  Proof.
    intros H. induction H as [|b l Hb Hl IH]; intros F; cbn [app].
    - repeat constructor.
    - inversion F; subst. constructor; auto. apply Forall_app. split; auto.
  Qed.
  Lemma firstn_snoc {A} (l : list A) m d : (m < length l)%nat -> firstn (S m) l = firstn m l ++ [nth m l d].
  Proof. revert m. induction l as [|a l IH]; intros [|m] H; cbn in *; try lia; auto. rewrite <- IH by lia. reflexivity. Qed.

  Lemma add_corner_ok m s l : (m < length corners)%nat -> (0 < m -> l <> [])%nat -> filled m s l ->
    exists s' l', add_corner need k points corners m s = Ok s' /\ filled (S m) s' l' /\ l' <> [].
  Proof.
    intros Hm Hne [G Ff Fa Fp]. set (c := nth m corners 0%nat).
    assert (Hc : In c corners) by (apply nth_In; auto).
    unfold add_corner. destruct (nth_error_lt corners Hm) as [c' Ec].
    assert (c' = c) by (symmetry; apply nth_error_nth; auto). subst c'. rewrite (get_some Ec). cbn [bind].
    rewrite (@corner_ok c Hc). cbn [bind]. set (x := place points c).
    assert (Lx : length x = 3%nat) by (apply place_len; auto).
    pose proof (grown_pts G) as Ep.
    assert (Ctr : forall i, (i < length l)%nat -> vdist 3 (vec x) (center s i) = between points c (fst (nth i l (0%nat, 0)))).
    { intros i Hi. apply vdist_ext; auto. intros d Hd. unfold center, coord. rewrite Ep, map_map.
      rewrite nth_indep with (d' := (fun p => it_x (sphere_item points p)) (0%nat, 0)) by (rewrite map_length; auto).
      rewrite (map_nth (fun p => it_x (sphere_item points p))). cbn [sphere_item it_x].
      destruct (nth i l (0%nat, 0)) as (c1, r1) eqn:En. cbn [fst snd].
      assert (In c1 corners).
      { assert (Hi1 : In (c1, r1) l) by (rewrite <- En; apply nth_In; auto). apply Ff in Hi1 as (Hi1 & _). cbn [fst] in Hi1.
        rewrite <- (firstn_skipn m corners). apply in_or_app. auto. }
      apply vec_app. rewrite place_len; auto. }
    assert (R0 : exists b, (if Nat.ltb 0 m then '(_, (_, h)) <- closest s any x dbl_max ;; Ok (nltb h (k_tol k)) else Ok false) = Ok b
      /\ (b = true -> exists p, In p l /\ between points c (fst p) < k_tol k)
      /\ (b = false -> forall p, In p l -> k_tol k <= between points c (fst p))).
    { destruct (Nat.ltb 0 m) eqn:E0.
      - apply Nat.ltb_lt in E0. specialize (Hne E0).
        assert (Rd : ready s). { eapply grown_ready; [|exact G|]; [lia|]. intros C. apply map_eq_nil in C. auto. }
        assert (End : st_nd s = 3%nat) by apply G.
        destruct (@closest_ok s Rd any x dbl_max) as (q & -> & N); [rewrite End, Lx; auto|left; apply dbl_max_pos|]. cbn [bind].
        destruct q as (q, h). exists (Rltb h (k_tol k)). split; [reflexivity|].
        assert (Lc : length (st_pts s) = length l) by (rewrite Ep, !map_length; auto).
        destruct N as [(Eq & N)|(i & Hi & _ & Eq & _ & N)]; injection Eq as -> ->; cbn [snd] in *.
        + split; [intros H; apply Rltb_true in H; destruct Hk as (_ & _ & _ & _ & _ & Ht); exfalso; exact (Rlt_not_le _ _ H Ht)|].
          intros H p Hp. apply Rltb_false in H. destruct (In_nth _ _ (0%nat, 0) Hp) as (i & Hi & Ei).
          rewrite <- Ei, <- Ctr by auto. rewrite <- dist_to_vdist by auto. eapply Rle_trans; [exact H|]. apply N; [apply in_seq; lia|reflexivity].
        + apply in_seq in Hi. rewrite dist_to_vdist in * by auto. split.
          * intros H. apply Rltb_true in H. exists (nth i l (0%nat, 0)). split; [apply nth_In; lia|]. rewrite <- Ctr by lia. auto.
          * intros H p Hp. apply Rltb_false in H. destruct (In_nth _ _ (0%nat, 0) Hp) as (j & Hj & Ej).
            rewrite <- Ej, <- Ctr by auto. eapply Rle_trans; [exact H|]. rewrite <- (@dist_to_vdist s x j) by auto. apply N; [apply in_seq; lia|reflexivity].
      - exists false. split; auto. split; [discriminate|]. intros _ p Hp. apply Nat.ltb_ge in E0.
        apply Ff in Hp as (Hp & _). replace m with 0%nat in Hp by lia. destruct Hp. }
    destruct R0 as (b & -> & B1 & B2). cbn [bind]. destruct b.
    - destruct (B1 eq_refl) as (p & Hp & Hd). exists s, l. split; auto. split; [|intros ->; destruct Hp].
      split; auto.
      + intros q Hq. destruct (Ff q Hq) as (H1 & H2). split; auto. rewrite (@firstn_snoc _ corners m 0%nat) by auto. apply in_or_app. auto.
      + intros q Hq. rewrite (@firstn_snoc _ corners m 0%nat) in Hq by auto. apply in_app_or in Hq as [Hq|[<-|[]]]; auto. exists p. split; auto.
    - destruct (@corner_radius_ok k points corners Hk c Hc) as (r & Er & Sz & Mx & Ps). fold x in Er. rewrite Er. cbn [bind].
      destruct (@grown_add 3 need s (map (sphere_item points) l) (x ++ [r]) None (Some [2; c]%nat) ltac:(lia) G) as (s' & E' & G').
      { split; [rewrite app_length; lia|]. split; [discriminate|]. intros ? [= <-]. split; [discriminate|cbn; lia]. }
      exists s', (l ++ [(c, r)]). split; auto. split; [|destruct l; discriminate]. split.
      + rewrite map_app. exact G'.
      + intros q Hq. rewrite (@firstn_snoc _ corners m 0%nat) by auto. apply in_app_or in Hq as [Hq|[<-|[]]].
        * destruct (Ff q Hq) as (H1 & H2). split; auto. apply in_or_app. auto.
        * split; [apply in_or_app; right; left; auto|]. split; auto.
      + intros q Hq. rewrite (@firstn_snoc _ corners m 0%nat) in Hq by auto. apply in_app_or in Hq as [Hq|[<-|[]]].
        * destruct (Fa q Hq) as (p & Hp & H). exists p. split; auto. apply in_or_app. auto.
        * exists (c, r). split; [apply in_or_app; right; left; auto|]. auto.
      + apply FOP_snoc; auto. apply Forall_forall. intros q Hq. split; cbn [fst].
        * unfold between. rewrite vdist_sym. apply (B2 eq_refl q Hq).
        * intros Hd. destruct (Ff q Hq) as (H1 & _). destruct (In_nth _ _ 0%nat H1) as (a & Ha & Ea).
          rewrite firstn_length in Ha. assert (Ea' : nth a corners 0%nat = fst q).
          { rewrite <- Ea. rewrite <- (firstn_skipn m corners) at 1. rewrite app_nth1; auto. rewrite firstn_length. lia. }
          rewrite <- Ea'. unfold between, c. apply Hd. lia.
  Qed.

  Lemma first_loop_ok : (0 < length corners)%nat ->
    exists s l, for_res (length corners) 0 (add_corner need k points corners) (st_new 3) = Ok s
      /\ filled (length corners) s l /\ l <> [].
  Proof.
    intros Hl.
    destruct (@for_res_inv _ (fun m s => exists l, filled m s l /\ (0 < m -> l <> [])%nat) (length corners) 0 (add_corner need k points corners) (@st_new R _ 3)) as (s & E & l & H1 & H2).
    - exists []. split; [|lia]. split; [apply grown_new|intros ? []|intros ? []|constructor].
    - intros m s Hm (l & H1 & H2). destruct (@add_corner_ok m s l) as (s1 & l1 & E & F1 & N1); [lia|auto|auto|]. exists s1. split; [auto|]. exists l1. auto.
    - exists s, l. auto.
  Qed.
End Loop.

(** * The second loop *)
Section Cap.
  Variable s0 : stree R.
  Hypothesis Hs0 : spheres s0.
  Hypothesis Hsmall : forall i, (i < count s0)%nat -> radius s0 i <= 2 / 5 * dbl_max.

  Definition capped (r : R) (i : nat) : Prop :=
    r <= radius s0 i /\ (forall j, (j < count s0)%nat -> j <> i -> r <= 2 / 5 * gap s0 i j)
    /\ (r = radius s0 i \/ exists j, (j < count s0)%nat /\ j <> i /\ r = 2 / 5 * gap s0 i j).

  Lemma row_dist s i j : spheres s -> (i < count s)%nat -> dist_to s (nth i (st_pts s) []) j = gap s i j.
  Proof. intros (_ & End & _) Hi. rewrite dist_to_vdist by auto. reflexivity. Qed.

  Lemma cap_corner_ok m s : (m < count s0)%nat -> only_radii s0 s ->
    (forall i, (i < m)%nat -> capped (radius s i) i) -> (forall i, (m <= i < count s0)%nat -> radius s i = radius s0 i) ->
    exists s', cap_corner m s = Ok s' /\ only_radii s0 s'
      /\ (forall i, (i < S m)%nat -> capped (radius s' i) i) /\ (forall i, (S m <= i < count s0)%nat -> radius s' i = radius s0 i).
  Proof.
    intros Hm O H1 H2. assert (Hs : spheres s) by (eapply only_radii_spheres; eauto).
    assert (Ec : count s = count s0) by (apply only_radii_count; auto).
    unfold cap_corner. rewrite (@get_radius_ok s Hs m) by lia. cbn [bind].
    pose proof Hs as (Rd & End & _).
    destruct (@closest_to_ok s Rd any m dbl_max) as ((c, h) & -> & N); [unfold count in *; lia|left; apply dbl_max_pos|]. cbn [bind].
    rewrite nlit4. cbn [nltb nmul RNum].
    assert (Hh : (h = dbl_max \/ exists j, (j < count s0)%nat /\ j <> m /\ h = gap s0 m j)
                 /\ forall j, (j < count s0)%nat -> j <> m -> h <= gap s0 m j).
    { destruct N as [(Eq & N)|(i & Hi & (_ & He) & Eq & _ & N)]; injection Eq as -> ->; cbn [snd] in *.
      - split; auto. intros j Hj Hn. rewrite <- (@only_radii_gap s0 s m j O), <- (@row_dist s m j Hs) by lia.
        apply N; [apply in_seq; unfold count in *; lia|]. split; auto.
      - apply in_seq in Hi. rewrite (@row_dist s m i Hs) in * by lia. rewrite (@only_radii_gap s0 s m i O) in *. split.
        + right. exists i. split; [unfold count in *; lia|]. auto.
        + intros j Hj Hn. rewrite <- (@only_radii_gap s0 s m j O), <- (@row_dist s m j Hs) by lia.
          apply N; [apply in_seq; unfold count in *; lia|]. split; auto. }
    destruct Hh as (Hh & Hle). pose proof (H2 m ltac:(lia)) as Er.
    destruct (Rltb (2 / 5 * h) (radius s m)) eqn:E; [apply Rltb_true in E|apply Rltb_false in E].
    - destruct (@set_radius_ok s Hs m (2 / 5 * h)) as (s' & -> & O' & R1 & R2); [lia|].
      exists s'. split; auto. split; [eapply only_radii_trans; eauto|]. split.
      + intros i Hi. destruct (Nat.eq_dec i m) as [->|Ne]; [|rewrite R2 by auto; apply H1; lia].
        rewrite R1. split; [lra|]. split; [intros j Hj Hn; specialize (Hle j Hj Hn); lra|].
        destruct Hh as [->|(j & Hj & Hn & ->)]; [|right; eauto].
        exfalso. specialize (Hsmall Hm). rewrite Er in E. exact (Rlt_not_le _ _ E Hsmall).
      + intros i Hi. rewrite R2 by lia. apply H2. lia.
    - exists s. split; auto. split; auto. split; [|intros; apply H2; lia].
      intros i Hi. destruct (Nat.eq_dec i m) as [->|Ne]; [|apply H1; lia].
      split; [lra|]. split; [intros j Hj Hn; specialize (Hle j Hj Hn); lra|]. left. auto.
  Qed.

  Lemma second_loop_ok : exists s, for_res (st_n s0) 0 cap_corner s0 = Ok s /\ only_radii s0 s
    /\ forall i, (i < count s0)%nat -> capped (radius s i) i.
  Proof.
    destruct (@for_res_inv _ (fun m s => only_radii s0 s /\ (forall i, (i < m)%nat -> capped (radius s i) i)
      /\ (forall i, (m <= i < count s0)%nat -> radius s i = radius s0 i)) (st_n s0) 0 cap_corner s0) as (s & E & O & H1 & _).
    - split; [apply only_radii_refl|]. split; [lia|auto].
    - intros m s Hm (O & H1 & H2). destruct (@cap_corner_ok m s) as (s' & E & O' & H1' & H2'); auto; [unfold st_n in Hm; unfold count; lia|].
      exists s'. auto.
    - exists s. auto.
  Qed.
End Cap.

(** * The spheres of a list *)
Section Listed.
  Variables (points : list (list R)) (l : list (nat * R)) (s : stree R).
  Hypothesis G : grown 3 s (map (sphere_item points) l).
  Hypothesis Hl : forall p, In p l -> length (place points (fst p)) = 3%nat.
  Let p0 : nat * R := (0%nat, 0).

  Lemma listed_count : count s = length l.
  Proof. unfold count. rewrite (grown_pts G), !map_length. auto. Qed.
  Lemma listed_row i : (i < length l)%nat -> nth i (st_pts s) [] = place points (fst (nth i l p0)) ++ [snd (nth i l p0)].
  Proof.
    intros Hi. rewrite (grown_pts G), map_map.
    rewrite nth_indep with (d' := (fun p => it_x (sphere_item points p)) p0) by (rewrite map_length; auto).
    rewrite (map_nth (fun p => it_x (sphere_item points p))). reflexivity.
  Qed.
  Lemma listed_radius i : (i < length l)%nat -> radius s i = snd (nth i l p0).
  Proof.
    intros Hi. unfold radius, coord. rewrite listed_row by auto. rewrite app_nth2; rewrite (Hl _ (nth_In l p0 Hi)); auto.
  Qed.
  Lemma listed_center i d : (i < length l)%nat -> (d < 3)%nat -> center s i d = vec (place points (fst (nth i l p0))) d.
  Proof.
    intros Hi Hd. unfold center, coord. rewrite listed_row by auto. unfold vec. rewrite app_nth1; auto. rewrite (Hl _ (nth_In l p0 Hi)); auto.
  Qed.
  Lemma listed_gap i j : (i < length l)%nat -> (j < length l)%nat -> gap s i j = between points (fst (nth i l p0)) (fst (nth j l p0)).
  Proof. intros Hi Hj. apply vdist_ext; intros; apply listed_center; auto. Qed.
  Lemma listed_corner i c : (i < length l)%nat -> corner_of s i c <-> fst (nth i l p0) = c.
  Proof.
    intros Hi. unfold corner_of. rewrite (grown_att G) by (intros C; apply map_eq_nil in C; subst l; cbn in Hi; lia).
    rewrite map_map. rewrite (map_nth_error _ i l (nth_error_nth' l p0 Hi)). cbn [sphere_item it_a]. fold p0. split; [intros [= E]; auto|intros ->; auto].
  Qed.
  Lemma listed_spheres : l <> [] -> spheres s.
  Proof.
    intros Hne. split; [|split; [apply G|]].
    - eapply grown_ready; [|exact G|]; [lia|]. intros C. apply map_eq_nil in C. auto.
    - rewrite (grown_pts G), map_map. intros p Hp. apply in_map_iff in Hp as (q & <- & Hq). cbn [sphere_item it_x].
      rewrite app_length, (Hl _ Hq). cbn. lia.
  Qed.
End Listed.
Lemma FOP_nth {A} (P : A -> A -> Prop) l d : ForallOrdPairs P l -> forall i j, (i < j < length l)%nat -> P (nth i l d) (nth j l d).
Proof.
  intros H. induction H as [|a l Ha Hl IH]; intros i j Hij; cbn [length] in *; [lia|].
  destruct i as [|i], j as [|j]; try lia; cbn [nth].
  - rewrite Forall_forall in Ha. apply Ha. apply nth_In. lia.
  - apply IH. lia.
Qed.
Lemma between_sym points a b : between points a b = between points b a.
Proof. apply vdist_sym. Qed.
