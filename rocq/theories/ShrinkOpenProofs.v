From Coq Require Import Reals Lra.
From Verif Require Import Base Num Vec KdTree SmartTree KdSpec SmartTreeSpec SmartTreeProofs DenseQR Geometry GeometryProofs
  Spheres SpheresSpec SpheresProofs SpheresOverlapProofs PolyMesh PolyMeshSpec PolyMeshProofs ValidateSpec ShrinkOpen ShrinkOpenSpec.
Local Open Scope R_scope.

Lemma shrink_to_ok s i rmax : spheres s -> (i < count s)%nat ->
  exists s' t, shrink_to rmax s i = Ok (s', t) /\ only_radii s s' /\ radius s' i = Rmin (radius s i) rmax
    /\ (forall k, k <> i -> radius s' k = radius s k) /\ (t = true <-> rmax < radius s i) /\ (t = false -> s' = s).
Proof.
  intros Hs Hi. unfold shrink_to. rewrite (@get_radius_ok s Hs i Hi). cbn [bind].
  destruct (nltb rmax (radius s i)) eqn:E.
  - apply Rltb_true in E. destruct (@set_radius_ok s Hs i rmax Hi) as (s' & -> & O & R1 & R2). exists s', true. cbn [bind].
    split; [reflexivity|]. split; [exact O|]. split; [rewrite R1; symmetry; apply Rmin_right; lra|]. split; [exact R2|]. split; [tauto|discriminate].
  - apply Rltb_false in E. exists s, false. split; [reflexivity|]. split; [apply only_radii_refl|]. split; [symmetry; apply Rmin_left; lra|].
    split; [auto|]. split; [split; [discriminate|lra]|auto].
Qed.

Section V.
  Variables (b0 : balls R) (faces pf : list (list nat)).
  Let n := total b0.
  Let ns := count (b_s b0).
  Let ne := count (b_e b0).
  Let nc := count (b_c b0).
  Hypothesis Hb : ball_trees b0.
  Hypothesis Hpf : forall a b, (a < n)%nat -> a <> b -> get_num_edge_faces faces pf a b = Ok (length (faces_with faces a b)).

  Lemma tree_some s0 s i : In s0 [b_s b0; b_e b0; b_c b0] -> only_radii s0 s -> (i < count s0)%nat -> spheres s /\ (i < count s)%nat.
  Proof.
    clear Hpf. intros H O Hi. split; [|rewrite (only_radii_count O); exact Hi].
    destruct (Hb H) as [E|Hs]; [unfold count in Hi; rewrite E in Hi; cbn in Hi; lia|]. eapply only_radii_spheres; eauto.
  Qed.
  Lemma counts b : only_sizes b0 b -> count (b_s b) = ns /\ count (b_e b) = ne /\ count (b_c b) = nc.
  Proof. clear Hpf Hb. intros (A & B & C). split; [|split]; now apply only_radii_count. Qed.
  Lemma place_same b m : only_sizes b0 b -> forall d, (d < 3)%nat -> place b m d = place b0 m d.
  Proof.
    clear Hpf Hb. intros O d Hd. destruct (counts O) as (A & B & C). destruct O as (Os & Oe & Oc). unfold place, number. rewrite A, B.
    fold ns ne. destruct (m <? ns)%nat; [|destruct (m <? ns + ne)%nat]; cbn [fst snd]; unfold center; [apply Os|apply Oe|apply Oc]; lia.
  Qed.

  (** What one end does. *)
  Lemma shrink_end_ok b m rmax : only_sizes b0 b -> (m < n)%nat ->
    exists b1, shrink_end rmax m b = Ok b1 /\ only_sizes b0 b1
      /\ size b1 m = Rmin (size b m) rmax /\ (forall k, (k < n)%nat -> k <> m -> size b1 k = size b k)
      /\ (f_s b1 = true <-> f_s b = true \/ (m < ns)%nat /\ rmax < size b m)
      /\ (f_e b1 = true <-> f_e b = true \/ (ns <= m)%nat /\ rmax < size b m)
      /\ f_c b1 = f_c b.
  Proof.
    intros O Hm. destruct (counts O) as (A & B & C). pose proof O as O'. destruct O' as (Os & Oe & Oc). unfold n, total in Hm. fold ns ne nc in Hm.
    unfold shrink_end. change (st_n (b_s b)) with (count (b_s b)). change (st_n (b_e b)) with (count (b_e b)). change (st_n (b_c b)) with (count (b_c b)).
    cbv zeta. rewrite A, B, C.
    assert (Sz : forall b k, only_sizes b0 b -> size b k = if (k <? ns)%nat then radius (b_s b) k
                 else if (k <? ns + ne)%nat then radius (b_e b) (k - ns) else radius (b_c b) (k - ns - ne)).
    { intros b' k Ob. destruct (counts Ob) as (A' & B' & C'). unfold size, number. rewrite A', B'.
      destruct (k <? ns)%nat; [reflexivity|]. destruct (k <? ns + ne)%nat; reflexivity. }
    rewrite (Sz b m O).
    destruct (m <? ns)%nat eqn:E1; [apply Nat.ltb_lt in E1|apply Nat.ltb_ge in E1;
      destruct (m <? ns + ne)%nat eqn:E2; [apply Nat.ltb_lt in E2|apply Nat.ltb_ge in E2; rewrite (proj2 (Nat.ltb_lt _ _) Hm)]].
    - destruct (@tree_some (b_s b0) (b_s b) m) as (Hs & Hi); [cbn; auto|exact Os|exact E1|].
      destruct (@shrink_to_ok (b_s b) m rmax Hs Hi) as (s' & t & -> & O1 & R1 & R2 & T1 & T2). cbn [bind].
      assert (O2 : only_sizes b0 (Balls s' (b_e b) (b_c b) (t || f_s b) (f_e b) (f_c b))).
      { split; [|split]; cbn; auto. eapply only_radii_trans; eauto. }
      eexists. split; [reflexivity|]. split; [exact O2|]. cbn [f_s f_e f_c].
      split; [rewrite (Sz _ m O2), (proj2 (Nat.ltb_lt _ _) E1); exact R1|].
      split. { intros k Hk Hkm. rewrite (Sz _ k O2), (Sz b k O). cbn [b_s b_e b_c]. destruct (k <? ns)%nat; auto. }
      split; [rewrite orb_true_iff, T1; tauto|]. split; [|reflexivity]. split; [auto|]. intros [?|(? & _)]; [auto|lia].
    - destruct (@tree_some (b_e b0) (b_e b) (m - ns)) as (Hs & Hi); [cbn; auto|exact Oe|fold ne; lia|].
      destruct (@shrink_to_ok (b_e b) (m - ns) rmax Hs Hi) as (s' & t & -> & O1 & R1 & R2 & T1 & T2). cbn [bind].
      assert (O2 : only_sizes b0 (Balls (b_s b) s' (b_c b) (f_s b) (t || f_e b) (f_c b))).
      { split; [|split]; cbn; auto. eapply only_radii_trans; eauto. }
      eexists. split; [reflexivity|]. split; [exact O2|]. cbn [f_s f_e f_c].
      split; [rewrite (Sz _ m O2), (proj2 (Nat.ltb_ge _ _) E1), (proj2 (Nat.ltb_lt _ _) E2); exact R1|].
      split. { intros k Hk Hkm. rewrite (Sz _ k O2), (Sz b k O). cbn [b_s b_e b_c]. destruct (k <? ns)%nat eqn:Ek; auto. apply Nat.ltb_ge in Ek.
        destruct (k <? ns + ne)%nat; auto. apply R2. lia. }
      split; [split; [auto|intros [?|(? & _)]; [auto|lia]]|]. split; [rewrite orb_true_iff, T1; tauto|reflexivity].
    - destruct (@tree_some (b_c b0) (b_c b) (m - ns - ne)) as (Hs & Hi); [cbn; auto|exact Oc|fold nc; lia|].
      destruct (@shrink_to_ok (b_c b) (m - ns - ne) rmax Hs Hi) as (s' & t & -> & O1 & R1 & R2 & T1 & T2). cbn [bind].
      assert (O2 : only_sizes b0 (Balls (b_s b) (b_e b) s' (f_s b) (t || f_e b) (f_c b))).
      { split; [|split]; cbn; auto. eapply only_radii_trans; eauto. }
      eexists. split; [reflexivity|]. split; [exact O2|]. cbn [f_s f_e f_c].
      split; [rewrite (Sz _ m O2), (proj2 (Nat.ltb_ge _ _) E1), (proj2 (Nat.ltb_ge _ _) E2); exact R1|].
      split. { intros k Hk Hkm. rewrite (Sz _ k O2), (Sz b k O). cbn [b_s b_e b_c]. destruct (k <? ns)%nat eqn:Ek; auto. apply Nat.ltb_ge in Ek.
        destruct (k <? ns + ne)%nat eqn:Ek2; auto. apply Nat.ltb_ge in Ek2. apply R2. lia. }
      split; [split; [auto|intros [?|(? & _)]; [auto|lia]]|]. split; [rewrite orb_true_iff, T1; tauto|reflexivity].
  Qed.

  (** The state after the ends l: (m, k) is the end m of the edge from m to k. *)
  Definition at_end (m k : nat) (l : list (nat * nat)) : Prop := In (m, k) l /\ open_edge faces m k.
  Definition after (l : list (nat * nat)) (b : balls R) : Prop :=
    only_sizes b0 b
    /\ (forall m, (m < n)%nat -> size b m <= size b0 m /\ (forall k, at_end m k l -> size b m <= 49/100 * apart b0 m k)
         /\ (size b m = size b0 m \/ exists k, at_end m k l /\ size b m = 49/100 * apart b0 m k))
    /\ (f_s b = true <-> f_s b0 = true \/ exists m, (m < ns)%nat /\ size b m < size b0 m)
    /\ (f_e b = true <-> f_e b0 = true \/ exists m, (ns <= m < n)%nat /\ size b m < size b0 m)
    /\ f_c b = f_c b0
    /\ ((forall m k, ~ at_end m k l) -> b = b0).

  Lemma at_end_skip l m k x y : ~ open_edge faces m k -> (at_end x y (l ++ [(m, k)]) <-> at_end x y l).
  Proof.
    intros H. unfold at_end. rewrite in_app_iff. cbn. split; [|tauto]. intros ([?|[E|[]]] & O); [auto|]. injection E as -> ->. tauto.
  Qed.
  Lemma after_skip l m k b : ~ open_edge faces m k -> after l b -> after (l ++ [(m, k)]) b.
  Proof.
    intros H (O & S & Fs & Fe & Fc & Same). pose proof (fun x y => @at_end_skip l m k x y H) as E.
    split; [exact O|]. split; [|split; [exact Fs|split; [exact Fe|split; [exact Fc|]]]].
    - intros x Hx. destruct (S x Hx) as (S1 & S2 & S3). split; [exact S1|]. split; [intros y Hy; apply S2, E, Hy|].
      destruct S3 as [S3|(y & Hy & S3)]; [now left|right]. exists y. split; [now apply E|exact S3].
    - intros Hn. apply Same. intros x y Hxy. apply (Hn x y). now apply E.
  Qed.
  Lemma after_step l m k b : (m < n)%nat -> open_edge faces m k -> after l b ->
    exists b1, shrink_end (49/100 * apart b0 m k) m b = Ok b1 /\ after (l ++ [(m, k)]) b1.
  Proof.
    intros Hm Hop (O & S & Fs & Fe & Fc & Same). set (rmax := 49/100 * apart b0 m k).
    destruct (@shrink_end_ok b m rmax O Hm) as (b1 & E & O1 & R1 & R2 & G1 & G2 & G3). exists b1. split; [exact E|].
    assert (Le : forall x, (x < n)%nat -> size b1 x <= size b x).
    { intros x Hx. destruct (Nat.eq_dec x m) as [->|N]; [rewrite R1; apply Rmin_l|rewrite R2 by auto; lra]. }
    assert (New : at_end m k (l ++ [(m, k)])) by (split; [apply in_or_app; cbn; auto|exact Hop]).
    assert (Old : forall x y, at_end x y l -> at_end x y (l ++ [(m, k)])) by (intros x y (? & ?); split; [apply in_or_app; auto|auto]).
    split; [exact O1|]. split.
    { intros x Hx. destruct (S x Hx) as (S1 & S2 & S3). pose proof (Le x Hx) as L. split; [lra|]. split.
      - intros y (Hy & Ho). apply in_app_or in Hy. destruct Hy as [Hy|[Hy|[]]]; [pose proof (S2 y (conj Hy Ho)); lra|].
        injection Hy as <- <-. rewrite R1. apply Rmin_r.
      - destruct (Nat.eq_dec x m) as [->|N].
        + rewrite R1. assert (Q : Rmin (size b m) rmax = size b m \/ Rmin (size b m) rmax = rmax) by (unfold Rmin; destruct (Rle_dec (size b m) rmax); auto). destruct Q as [Q|Q]; rewrite Q.
          * destruct S3 as [S3|(y & Hy & S3)]; [now left|right; exists y; auto].
          * right. exists k. auto.
        + rewrite R2 by auto. destruct S3 as [S3|(y & Hy & S3)]; [now left|right; exists y; auto]. }
    assert (Lt : forall x, (x < n)%nat -> (size b1 x < size b0 x <-> size b x < size b0 x \/ x = m /\ rmax < size b m)).
    { intros x Hx. destruct (S x Hx) as (S1 & _). destruct (Nat.eq_dec x m) as [->|N].
      - rewrite R1. unfold Rmin. destruct (Rle_dec (size b m) rmax); split; intros; try lra.
        all: destruct (Rlt_dec (size b m) (size b0 m)); [now left|right; split; [reflexivity|lra]].
      - rewrite R2 by auto. tauto. }
    assert (Hns : (ns <= n)%nat) by (unfold n, total, ns; lia).
    split; [|split; [|split; [congruence|]]].
    - rewrite G1, Fs. split.
      + intros [[?|(x & Hx & ?)]|(H1 & H2)]; [now left|right; exists x; split; [auto|apply Lt; [lia|now left]]|right; exists m; split; [auto|apply Lt; [lia|now right]]].
      + intros [?|(x & Hx & H)]; [now left; left|]. apply Lt in H; [|lia]. destruct H as [H|(-> & H)]; [left; right; eauto|right; auto].
    - rewrite G2, Fe. split.
      + intros [[?|(x & Hx & ?)]|(H1 & H2)]; [now left|right; exists x; split; [auto|apply Lt; [lia|now left]]|right; exists m; split; [lia|apply Lt; [lia|now right]]].
      + intros [?|(x & Hx & H)]; [now left; left|]. apply Lt in H; [|lia]. destruct H as [H|(-> & H)]; [left; right; eauto|right; split; [lia|auto]].
    - intros Hn. exfalso. exact (Hn m k New).
  Qed.

  Lemma faces_with_sym a b : length (faces_with faces a b) = length (faces_with faces b a).
  Proof. unfold faces_with. f_equal. apply filter_ext. intros i. apply andb_comm. Qed.
  Lemma open_sym a b : open_edge faces a b -> open_edge faces b a.
  Proof. intros (H1 & H2). split; [auto|]. now rewrite faces_with_sym. Qed.
  Lemma apart_sym a b : apart b0 a b = apart b0 b a.
  Proof. apply vdist_sym. Qed.

  Lemma centres_length : length (centres b0) = n.
  Proof. clear Hpf Hb. unfold centres, n, total, count. rewrite !app_length, !map_length. lia. Qed.
  Lemma firstn_place s i : spheres s -> (i < count s)%nat -> exists p, nth_error (map (firstn (st_nd s)) (st_pts s)) i = Some p
    /\ forall d, (d < 3)%nat -> gv p d = center s i d.
  Proof.
    clear Hpf Hb. intros (_ & Hd & _) Hi. destruct (nth_error (st_pts s) i) as [row|] eqn:E; [|apply nth_error_None in E; unfold count in Hi; lia].
    exists (firstn 3 row). rewrite Hd. split; [now apply map_nth_error|]. intros d Hd3. unfold gv, center, coord.
    rewrite (nth_error_nth _ _ [] E). destruct row as [|x [|y [|z t]]]; destruct d as [|[|[|d]]]; try reflexivity; lia.
  Qed.
  Lemma centre_ok m : (m < n)%nat -> exists p, get (centres b0) m = Ok p /\ forall d, (d < 3)%nat -> gv p d = place b0 m d.
  Proof.
    clear Hpf. intros Hm. unfold n, total in Hm. fold ns ne nc in Hm. unfold get, centres, place, number. fold ns ne.
    assert (Ls : length (map (firstn (st_nd (b_s b0))) (st_pts (b_s b0))) = ns) by apply map_length.
    assert (Lne : length (map (firstn (st_nd (b_e b0))) (st_pts (b_e b0))) = ne) by apply map_length.
    destruct (m <? ns)%nat eqn:E1; [apply Nat.ltb_lt in E1|apply Nat.ltb_ge in E1;
      destruct (m <? ns + ne)%nat eqn:E2; [apply Nat.ltb_lt in E2|apply Nat.ltb_ge in E2]]; cbn [fst snd].
    - destruct (@tree_some (b_s b0) (b_s b0) m) as (Hs & Hi); [cbn; auto|apply only_radii_refl|exact E1|].
      destruct (@firstn_place (b_s b0) m Hs Hi) as (p & Ep & Hp). exists p. split; [|exact Hp]. rewrite nth_error_app1 by (rewrite Ls; lia). now rewrite Ep.
    - destruct (@tree_some (b_e b0) (b_e b0) (m - ns)) as (Hs & Hi); [cbn; auto|apply only_radii_refl|fold ne; lia|].
      destruct (@firstn_place (b_e b0) (m - ns) Hs Hi) as (p & Ep & Hp). exists p. split; [|exact Hp].
      rewrite nth_error_app2, Ls by (rewrite Ls; lia). rewrite nth_error_app1 by (rewrite Lne; lia). now rewrite Ep.
    - destruct (@tree_some (b_c b0) (b_c b0) (m - ns - ne)) as (Hs & Hi); [cbn; auto|apply only_radii_refl|fold nc; lia|].
      destruct (@firstn_place (b_c b0) (m - ns - ne) Hs Hi) as (p & Ep & Hp). exists p. split; [|exact Hp].
      rewrite nth_error_app2, Ls by (rewrite Ls; lia). rewrite nth_error_app2, Lne by (rewrite Lne; lia). now rewrite Ep.
  Qed.

  Lemma open_check_ok l i1 i2 b : (i1 < n)%nat -> (i2 < n)%nat -> i1 <> i2 -> after l b ->
    exists b', open_check (centres b0) faces pf i1 i2 b = Ok b' /\ after (l ++ [(i1, i2); (i2, i1)]) b'.
  Proof.
    intros H1 H2 Hd A. unfold open_check. rewrite (Hpf H1 Hd). cbn [bind].
    replace (l ++ [(i1, i2); (i2, i1)]) with ((l ++ [(i1, i2)]) ++ [(i2, i1)]) by (rewrite <- app_assoc; reflexivity).
    destruct (length (faces_with faces i1 i2) =? 1)%nat eqn:E; [apply Nat.eqb_eq in E|apply Nat.eqb_neq in E].
    - destruct (centre_ok H1) as (p1 & -> & P1), (centre_ok H2) as (p2 & -> & P2). cbn [bind].
      assert (Er : @nlit R RNum 49 2 * distance 3 (gv p1) (gv p2) = 49/100 * apart b0 i1 i2).
      { rewrite distance_R. unfold apart. rewrite (@vdist_ext 3 (gv p1) (place b0 i1) (gv p2) (place b0 i2)) by auto. f_equal. }
      change (nmul (nlit 49 2) (distance 3 (gv p1) (gv p2))) with (@nlit R RNum 49 2 * distance 3 (gv p1) (gv p2)).
      rewrite Er. assert (Ho : open_edge faces i1 i2) by (split; auto).
      destruct (@after_step l i1 i2 b H1 Ho A) as (b1 & -> & A1). cbn [bind]. rewrite apart_sym.
      exact (@after_step _ i2 i1 b1 H2 (open_sym Ho) A1).
    - exists b. split; [reflexivity|]. apply after_skip; [|apply after_skip; [|exact A]]; intros (_ & H); [rewrite faces_with_sym in H|]; auto.
  Qed.

  Definition face_ends (f : list nat) : list (nat * nat) := flat_map (fun e => [e; (snd e, fst e)]) (face_edges f).
  Hypothesis Htri : proper_triangles n faces.
  Lemma open_face_ok l f b : In f faces -> after l b ->
    exists b', open_face (centres b0) faces pf f b = Ok b' /\ after (l ++ face_ends f) b'.
  Proof.
    intros Hf A. destruct Htri as (Ht & Hnd). destruct (Ht f Hf) as (Hlen & Hc). specialize (Hnd f Hf).
    destruct f as [|x [|y [|z [|? ?]]]]; try discriminate. clear Hlen.
    assert (x <> y /\ y <> z /\ z <> x) as (Nab & Nbc & Nca).
    { inversion Hnd as [|? ? X1 Y1]. inversion Y1 as [|? ? X2 Y2]. simpl in X1, X2. intuition congruence. }
    assert (Ha : (x < n)%nat) by (apply Hc; simpl; auto). assert (Hy : (y < n)%nat) by (apply Hc; simpl; auto). assert (Hz : (z < n)%nat) by (apply Hc; simpl; auto).
    unfold open_face. cbn [fold_res]. change (get [x; y; z] 0) with (Ok x). change (get [x; y; z] (wrap3 0)) with (Ok y). cbn [bind].
    destruct (@open_check_ok l x y b Ha Hy Nab A) as (s1 & -> & A1). cbn [bind].
    change (get [x; y; z] 1) with (Ok y). change (get [x; y; z] (wrap3 1)) with (Ok z). cbn [bind].
    destruct (@open_check_ok _ y z s1 Hy Hz Nbc A1) as (s2 & -> & A2). cbn [bind].
    change (get [x; y; z] 2) with (Ok z). change (get [x; y; z] (wrap3 2)) with (Ok x). cbn [bind].
    destruct (@open_check_ok _ z x s2 Hz Ha Nca A2) as (s3 & -> & A3). cbn [bind]. exists s3. split; [reflexivity|]. rewrite <- !app_assoc in A3. exact A3.
  Qed.
  Lemma open_faces_ok fs l b : incl fs faces -> after l b ->
    exists b', fold_res (open_face (centres b0) faces pf) fs b = Ok b' /\ after (l ++ flat_map face_ends fs) b'.
  Proof.
    revert l b. induction fs as [|f t IH]; intros l b Hi A; cbn [fold_res flat_map]; [exists b; rewrite app_nil_r; auto|].
    destruct (@open_face_ok l f b) as (s1 & -> & A1); auto. { apply Hi. left. auto. } cbn [bind].
    destruct (IH _ s1 (fun x H => Hi x (or_intror H)) A1) as (s2 & E & A2). exists s2. split; auto. rewrite app_assoc. auto.
  Qed.
  Lemma after_start : after [] b0.
  Proof.
    clear Htri Hpf Hb. split; [split; [|split]; apply only_radii_refl|]. split. { intros m _. split; [lra|]. split; [intros k ([] & _)|now left]. }
    split; [split; [auto|intros [?|(m & _ & ?)]; [auto|lra]]|]. split; [split; [auto|intros [?|(m & _ & ?)]; [auto|lra]]|]. auto.
  Qed.
  (** Every open edge is seen from both ends. *)
  Lemma ends_all m k : at_end m k (flat_map face_ends faces) <-> open_edge faces m k.
  Proof.
    split; [intros (_ & H); exact H|]. intros Ho. split; [|exact Ho]. destruct Ho as (Hd & Ho).
    destruct (faces_with faces m k) as [|i t] eqn:E; [discriminate Ho|].
    assert (Hi : In i (faces_with faces m k)) by (rewrite E; now left). apply faces_with_in in Hi. destruct Hi as (Hi & Hm & Hk).
    apply in_flat_map. exists (nth i faces []). split; [now apply nth_In|].
    destruct Htri as (Ht & _). destruct (Ht (nth i faces []) (nth_In _ _ Hi)) as (Hlen & _).
    destruct (nth i faces []) as [|x [|y [|z [|? ?]]]]; try discriminate Hlen. cbn in Hm, Hk. cbn.
    destruct Hm as [<-|[<-|[<-|[]]]], Hk as [<-|[<-|[<-|[]]]]; try congruence; auto 10.
  Qed.
End V.

Lemma valid_ok b faces : ball_trees b -> proper_triangles (total b) faces ->
  exists b', valid_surface_mesh b faces = Ok (false, b', (centres b, faces)) /\ after b faces (flat_map face_ends faces) b'.
Proof.
  intros Hb Hp. destruct (build_ok (proj1 Hp)) as (pf & E & L & N). unfold valid_surface_mesh. cbv zeta. rewrite centres_length, E. cbn [bind].
  assert (Hpf : forall a c, (a < total b)%nat -> a <> c -> get_num_edge_faces faces pf a c = Ok (length (faces_with faces a c))).
  { intros a c Ha Hac. apply (@edge_exact (total b)); auto. }
  destruct (@open_faces_ok b faces pf Hb Hpf Hp faces [] b (incl_refl _) (after_start b faces)) as (b' & -> & A). exists b'. split; [reflexivity|exact A].
Qed.
