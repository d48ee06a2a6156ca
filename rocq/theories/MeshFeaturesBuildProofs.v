(** Proofs about the construction of a surface mesh: the composition. *)
From Coq Require Import Reals Lra.
From Verif Require Import Base Num Vec MemoryHandler SortSpec MemoryHandlerProofs DenseQR Geometry GeometrySpec GeometryProofs
  PolyMesh PolyMeshSpec PolyMeshProofs PolyMeshOrientProofs PolyMeshAdjustProofs FeatureSpec FeatureProofs MeshFeatures MeshFeaturesSpec
  MeshFeaturesProofs.

(** ** Sorting the corners *)
Lemma nat_sw : strict_weak Nat.ltb.
Proof.
  constructor.
  - intros x. apply Nat.ltb_irrefl.
  - intros x y z H1 H2. apply Nat.ltb_lt in H1, H2. apply Nat.ltb_lt. lia.
  - intros x y z H1 H2. apply Nat.ltb_ge in H1, H2. apply Nat.ltb_ge. lia.
Qed.
Lemma sorted_from_order l : NoDup l -> (forall a b ka kb, a < b -> nth_error l a = Some ka -> nth_error l b = Some kb -> (kb <? ka) = false) -> Sorted lt l.
Proof.
  induction l as [|x t IH]; intros Hn Ho; [constructor|]. apply NoDup_cons_iff in Hn as (Hx & Hn). constructor.
  - apply IH; auto. intros a b ka kb Hab Ea Eb. apply (Ho (S a) (S b)); auto. lia.
  - destruct t as [|y t]; constructor. pose proof (Ho 0 1 x y ltac:(lia) eq_refl eq_refl) as H. apply Nat.ltb_ge in H.
    assert (x <> y) by (intros ->; apply Hx; left; auto). lia.
Qed.
Lemma sorted_lt_nodup l : Sorted lt l -> NoDup l.
Proof.
  intros H. apply Sorted_StronglySorted in H; [|intros x y z; lia]. induction H as [|x t H IH Hf]; constructor; auto.
  intros Hx. rewrite Forall_forall in Hf. specialize (Hf x Hx). lia.
Qed.
Lemma sort_corners cs : Sorted lt cs ->
  exists cs', (match cs with [] => Ok [] | _ => quicksort Nat.ltb cs 0 (length cs - 1) end) = Ok cs' /\ Sorted lt cs' /\ forall p, In p cs' <-> In p cs.
Proof.
  intros Hs. destruct cs as [|c t] eqn:Ec; [exists []; split; auto; split; [constructor|tauto]|]. rewrite <- Ec in *.
  destruct (@quicksort_correct nat Nat.ltb nat_sw cs 0 (length cs - 1)) as (cs' & E & P & So & _); [lia|rewrite Ec; simpl; lia|].
  exists cs'. split; auto. pose proof (Permutation_length P) as L. split.
  - apply sorted_from_order. { eapply Permutation_NoDup; [exact P|]. now apply sorted_lt_nodup. }
    intros a b ka kb Hab Ea Eb. apply (So a b ka kb); auto; try lia.
    assert (b < length cs') by (apply nth_error_Some; congruence). lia.
  - intros p. split; apply Permutation_in; auto. now symmetry.
Qed.

(** ** The bounding box *)
Section Box.
  Local Open Scope R_scope.
  Definition big : R := IZR (2 ^ 1000).
  Lemma big_max : 7 * big < @dbl_max R _.
  Proof. unfold big, dbl_max. cbn [nofZ RNum]. rewrite <- mult_IZR. apply IZR_lt. vm_compute. reflexivity. Qed.
  Lemma big_pos : 0 < big.
  Proof. unfold big. apply IZR_lt. reflexivity. Qed.
  Lemma abs_inv x a : Rabs x <= a -> - a <= x <= a.
  Proof. unfold Rabs. destruct (Rcase_abs x); lra. Qed.
  Lemma box_bounds pts d : bounded pts -> pts <> [] -> (d < 3)%nat -> Rabs (box_min pts d) <= big /\ Rabs (box_max pts d) <= big.
  Proof.
    intros Hb Hne Hd. pose proof big_max as M. pose proof big_pos as P. destruct pts as [|p t]; [congruence|]. unfold box_min, box_max. cbn [fold_left].
    change nltb with Rltb.
    assert (Hv : forall q, In q (p :: t) -> Rabs (row_vec q d) <= big) by (intros q Hq; apply Hb; auto).
    pose proof (Hv p (or_introl eq_refl)) as Hp. apply abs_inv in Hp.
    replace (Rltb (row_vec p d) (@dbl_max R RNum)) with true by (symmetry; apply Rltb_true; lra).
    replace (Rltb (- @dbl_max R RNum)%num (row_vec p d)) with true by (symmetry; apply Rltb_true; change (@nopp R RNum) with Ropp; lra).
    assert (Hv' : forall q, In q t -> Rabs (row_vec q d) <= big) by (intros q Hq; apply Hv; right; auto). clear Hv Hb Hne.
    assert (Hp' : Rabs (row_vec p d) <= big) by (apply Rabs_le; auto). clear Hp.
    split; generalize dependent (row_vec p d); induction t as [|q t IH]; intros m Hm; cbn [fold_left]; auto; apply IH; auto;
      try (intros q' Hq'; apply Hv'; right; auto); pose proof (Hv' q (or_introl eq_refl)); destruct (Rltb _ _); auto.
  Qed.
  Lemma box_far pts p : bounded pts -> In p pts -> far (fun d => box_min pts d - (box_max pts d - box_min pts d)) p < @dbl_max R _.
  Proof.
    intros Hb Hin. pose proof big_max as M. pose proof big_pos as P. apply Rle_lt_trans with (7 * big); auto.
    unfold far, vdist, norm. apply Rsqr_incr_0_var; [|lra]. unfold Rsqr at 1. rewrite sqrt_sqrt.
    2:{ rewrite dot3. apply Rplus_le_le_0_compat; [apply Rplus_le_le_0_compat|]; apply Rle_0_sqr. }
    rewrite dot3. assert (Hne : pts <> []) by (intros ->; destruct Hin).
    assert (D : forall d, (d < 3)%nat -> (nth d p 0 - (box_min pts d - (box_max pts d - box_min pts d))) * (nth d p 0 - (box_min pts d - (box_max pts d - box_min pts d))) <= 16 * (big * big)).
    { intros d Hd. destruct (@box_bounds pts d Hb Hne Hd) as (B1 & B2). pose proof (Hb p d Hin Hd) as B3. fold big in B3.
      apply abs_inv in B1, B2, B3. set (x := nth d p 0 - _). assert (- (4 * big) <= x <= 4 * big) by (unfold x; lra). nra. }
    pose proof (D 0%nat ltac:(lia)). pose proof (D 1%nat ltac:(lia)). pose proof (D 2%nat ltac:(lia)). unfold Rsqr. nra.
  Qed.
End Box.

(** ** Renumbering *)
Section Renumber.
  Local Open Scope R_scope.
  Variables (pts np : list (list R)) (faces faces1 : list (list nat)) (K : list nat).
  Hypothesis Hp : proper_triangles (length pts) faces.
  Hypothesis Hc : clean pts faces.
  Hypothesis Hco : consistent faces.
  Hypothesis Hasc : ascending K.
  Hypothesis HK : forall p, In p K <-> used faces p.
  Hypothesis Hnp : map Some np = map (nth_error pts) K.
  Hypothesis Hsh : map (shape np) faces1 = map (shape pts) faces.
  Hypothesis Ht1 : triangles (length np) faces1.
  Let g (c : nat) : nat := nth c K 0%nat.

  Lemma len_K : length K = length np.
  Proof. apply (f_equal (@length _)) in Hnp. rewrite !map_length in Hnp. auto. Qed.
  Lemma np_at c : (c < length np)%nat -> nth_error np c = nth_error pts (g c) /\ (g c < length pts)%nat.
  Proof.
    intros Hlt. pose proof len_K as LK. assert (Hg : nth_error K c = Some (g c)) by (apply nth_error_nth'; lia).
    assert (E : nth_error (map Some np) c = nth_error (map (nth_error pts) K) c) by now rewrite Hnp.
    rewrite !nth_error_map, Hg in E. destruct (nth_error_lt np (i := c) Hlt) as (v & Ev). rewrite Ev in *. cbn in E. injection E as E.
    split; auto. apply nth_error_Some. congruence.
  Qed.
  Lemma np_nth c : (c < length np)%nat -> nth c np [] = nth (g c) pts [].
  Proof.
    intros Hlt. destruct (np_at Hlt) as (E & Hg). destruct (nth_error_lt np (i := c) Hlt) as (v & Ev).
    rewrite (nth_error_nth _ _ [] Ev). rewrite Ev in E. symmetry. apply nth_error_nth. auto.
  Qed.
  Lemma np_point c : (c < length np)%nat -> at_point np c = at_point pts (g c).
  Proof. intros Hlt. unfold at_point. now rewrite np_nth. Qed.
  Lemma pts_inj a b : (a < length pts)%nat -> (b < length pts)%nat -> nth_error pts a = nth_error pts b -> a = b.
  Proof.
    intros Ha Hb E. destruct (Nat.eq_dec a b) as [|Hne]; auto. exfalso. destruct Hc as (_ & _ & Hap). specialize (Hap a b Ha Hb Hne).
    assert (E' : at_point pts a = at_point pts b).
    { unfold at_point. destruct (nth_error_lt pts (i := a) Ha) as (v & Ev). rewrite Ev in E. symmetry in E.
      now rewrite (nth_error_nth _ _ [] Ev), (nth_error_nth _ _ [] E). }
    rewrite E', vdist_self in Hap. lra.
  Qed.
  Lemma g_inj a b : (a < length np)%nat -> (b < length np)%nat -> g a = g b -> a = b.
  Proof.
    intros Ha Hb E. pose proof len_K as LK. pose proof (sorted_lt_nodup Hasc) as Hn. apply (proj1 (NoDup_nth K 0%nat) Hn); auto; rewrite LK; auto.
  Qed.
  Lemma renumbered : faces = map (map g) faces1.
  Proof.
    assert (Inj : forall a b, (a < length pts)%nat -> (b < length pts)%nat -> nth_error pts a = nth_error pts b -> a = b) by exact pts_inj.
    assert (At : forall c, (c < length np)%nat -> nth_error np c = nth_error pts (g c) /\ (g c < length pts)%nat) by exact np_at.
    clearbody g. destruct Hp as (Ht & _). revert Ht. revert Hsh Ht1. clear - Inj At. revert faces.
    induction faces1 as [|f1 t1 IH]; intros [|f t] Hs H1 H2; cbn [map] in *; try discriminate; auto.
    injection Hs as Hf Hs. f_equal.
    - destruct (H1 f1 (or_introl eq_refl)) as (_ & R1). destruct (H2 f (or_introl eq_refl)) as (_ & R2). clear - Hf R1 R2 Inj At.
      revert f Hf R1 R2. unfold shape. induction f1 as [|c1 f1 IH]; intros [|c f] Hf R1 R2; cbn [map] in *; try discriminate; auto.
      injection Hf as Hc Hf. f_equal.
      + destruct (At c1) as (E & Hg); [apply R1; left; auto|]. apply Inj; auto; [apply R2; left; auto|]. congruence.
      + apply IH; auto; intros; [apply R1|apply R2]; right; auto.
    - apply IH; auto; intros u Hu; [apply H1|apply H2]; right; auto.
  Qed.
  Lemma face1_range k c : In c (nth k faces1 []) -> (c < length np)%nat.
  Proof.
    intros Hin. destruct (lt_dec k (length faces1)) as [Hk|Hk]; [|rewrite nth_overflow in Hin by lia; destruct Hin].
    destruct (Ht1 (nth k faces1 [])) as (_ & R); [apply nth_In; auto|]. auto.
  Qed.
  Lemma nth_renumbered k : nth k faces [] = map g (nth k faces1 []).
  Proof.
    rewrite renumbered. change ([] : list nat) with (map g []) at 1. apply map_nth.
  Qed.
  Lemma existsb_renumbered a l : (a < length np)%nat -> (forall c, In c l -> (c < length np)%nat) ->
    existsb (Nat.eqb (g a)) (map g l) = existsb (Nat.eqb a) l.
  Proof.
    intros Ha. induction l as [|c t IH]; intros Hl; auto. cbn [map existsb]. rewrite IH by (intros; apply Hl; right; auto). f_equal.
    destruct (Nat.eqb_spec a c) as [->|Hne]; [apply Nat.eqb_refl|]. apply Nat.eqb_neq. intros E. apply Hne, g_inj; auto. apply Hl; left; auto.
  Qed.
  Lemma with_renumbered a b : (a < length np)%nat -> (b < length np)%nat -> faces_with faces (g a) (g b) = faces_with faces1 a b.
  Proof.
    intros Ha Hb. unfold faces_with. assert (L : length faces = length faces1) by (rewrite renumbered; apply map_length). rewrite L.
    apply filter_ext. intros k. rewrite nth_renumbered, !existsb_renumbered; auto; intros c; apply face1_range.
  Qed.
  Lemma runs_renumbered f a b : runs f a b -> runs (map g f) (g a) (g b).
  Proof.
    intros (j & Hj & E1 & E2). exists j. rewrite map_length. split; auto. rewrite !nth_error_map, E1, E2. auto.
  Qed.
  Lemma consistent1 : consistent faces1.
  Proof.
    intros i j a b f h Hij Ei Ej Hw Hr Hr'.
    destruct (Ht1 f (nth_error_In _ _ Ei)) as (_ & Rf). destruct (runs_in Hr) as (Ia & Ib).
    assert (Ef : forall k u, nth_error faces1 k = Some u -> nth_error faces k = Some (map g u)).
    { intros k u E. rewrite renumbered, nth_error_map, E. auto. }
    apply (@Hco i j (g a) (g b) (map g f) (map g h)); auto using runs_renumbered.
    rewrite with_renumbered; auto.
  Qed.
  Lemma proper1 : proper_triangles (length np) faces1.
  Proof.
    split; auto. intros f Hf. destruct Hp as (_ & Hn). apply (NoDup_map_inv g). apply Hn. rewrite renumbered. now apply in_map.
  Qed.
  Lemma clean1 : clean np faces1.
  Proof.
    destruct Hc as (H1 & H2 & H3). split; [|split].
    - intros p Hin. apply In_nth with (d := []) in Hin as (c & Hlt & <-). rewrite np_nth by auto. apply H1, nth_In. now apply np_at.
    - intros f Hf. assert (Hf' : In (map g f) faces) by (rewrite renumbered; now apply in_map). specialize (H2 _ Hf').
      destruct (Ht1 f Hf) as (L3 & R).
      assert (E : forall k, (k < 3)%nat -> corner_points np f k = corner_points pts (map g f) k).
      { intros k Hk. unfold corner_points. rewrite np_point by (apply R, nth_In; lia). f_equal.
        rewrite (nth_indep (map g f) 0%nat (g 0%nat)) by (rewrite map_length; lia). now rewrite map_nth. }
      unfold sliver in *. rewrite !E by lia. exact H2.
    - intros p q Hp' Hq' Hne. rewrite !np_point by auto. apply H3; try (apply np_at; auto). intros E. apply Hne, g_inj; auto.
  Qed.
  Lemma used1 p : (p < length np)%nat -> used faces1 p.
  Proof.
    intros Hlt. assert (Hin : In (g p) K) by (apply nth_In; rewrite len_K; auto). apply HK in Hin as (f & Hf & Hin).
    rewrite renumbered in Hf. apply in_map_iff in Hf as (f1 & <- & Hf). apply in_map_iff in Hin as (c & E & Hin).
    exists f1. split; auto. destruct (Ht1 f1 Hf) as (_ & R). assert (c = p) by (apply g_inj; auto). congruence.
  Qed.
End Renumber.

(** ** Turning the faces *)
Section Turn.
  Local Open Scope R_scope.
  Lemma turned_cases f f' : length f = 3%nat -> NoDup f -> Permutation f f' -> opp_orient f f' ->
    exists a b c, f = [a; b; c] /\ (f' = [a; c; b] \/ f' = [c; b; a] \/ f' = [b; a; c]).
  Proof.
    intros L Hn Hpm Ho. destruct (triple _ L) as (a & b & c & ->). apply nodup3 in Hn.
    pose proof (Permutation_length Hpm) as L'. destruct (triple f') as (x & y & z & ->); auto. exists a, b, c. split; auto.
    pose proof (proj2 (Ho y x)) as H1. pose proof (proj2 (Ho z y)) as H2. rewrite !runs3 in H1, H2.
    specialize (H1 ltac:(auto)). specialize (H2 ltac:(auto)).
    destruct H1 as [(-> & ->)|[(-> & ->)|(-> & ->)]]; destruct H2 as [(E1 & E2)|[(E1 & E2)|(E1 & E2)]]; subst; try tauto; auto; try (exfalso; intuition congruence).
  Qed.
  Lemma unit_turned pts f f' d : length f = 3%nat -> NoDup f -> Permutation f f' -> opp_orient f f' -> (d < 3)%nat ->
    unit_normal pts f' d = - unit_normal pts f d.
  Proof.
    intros L Hn Hpm Ho Hd. destruct (turned_cases L Hn Hpm Ho) as (a & b & c & -> & Hf').
    unfold unit_normal, corner_points.
    set (A := at_point pts a). set (B := at_point pts b). set (C := at_point pts c).
    assert (Ev : forall e, (e < 3)%nat ->
      vprod (sub (at_point pts (nth 1 f' 0%nat)) (at_point pts (nth 0 f' 0%nat))) (sub (at_point pts (nth 2 f' 0%nat)) (at_point pts (nth 0 f' 0%nat))) e
      = - vprod (sub B A) (sub C A) e).
    { intros e He. destruct Hf' as [->|[->| ->]]; cbn [nth]; fold A B C; unfold vprod, sub; destruct e as [|[|[|]]]; try lia; ring. }
    change (at_point pts (nth 1 [a; b; c] 0%nat)) with B. change (at_point pts (nth 0 [a; b; c] 0%nat)) with A.
    change (at_point pts (nth 2 [a; b; c] 0%nat)) with C.
    set (u := vprod (sub B A) (sub C A)) in *.
    match goal with |- ?x d / norm 3 ?x = _ => set (u' := x) in * end.
    assert (En : norm 3 u' = norm 3 u). { unfold norm. rewrite !dot3, !Ev by lia. f_equal. ring. }
    rewrite En, Ev by auto. unfold Rdiv. ring.
  Qed.
  Lemma normals3 pts : forall faces ns, build_face_normals pts faces = Ok ns -> forall n : list R, In n ns -> length n = 3%nat.
  Proof.
    induction faces as [|f t IH]; intros ns E n Hn; cbn [build_face_normals] in E.
    - injection E as <-. destruct Hn.
    - apply bind_Ok_inv in E as (x & Ex & E). apply bind_Ok_inv in E as (r & Er & E). injection E as <-. destruct Hn as [<-|Hn]; [|eapply IH; eauto].
      unfold face_normal in Ex. apply bind_Ok_inv in Ex as (l & _ & Ex). apply bind_Ok_inv in Ex as (? & _ & Ex).
      apply bind_Ok_inv in Ex as (? & _ & Ex). apply bind_Ok_inv in Ex as (? & _ & Ex). injection Ex as <-. reflexivity.
  Qed.
  Lemma neg_at (ns : list (list R)) i d : (forall n, In n ns -> length n = 3%nat) -> (i < length ns)%nat -> (d < 3)%nat ->
    row_vec (nth i (map (map nopp) ns) []) d = - row_vec (nth i ns []) d.
  Proof.
    intros L3 Hi Hd. unfold row_vec. rewrite (nth_indep (map (map (@nopp R _)) ns) [] (map nopp []%list)) by (rewrite map_length; lia).
    rewrite map_nth. rewrite (nth_indep _ (@n0 R _) (@nopp R _ (@n0 R _))). 2:{ rewrite map_length. rewrite L3; auto. apply nth_In. lia. }
    now rewrite map_nth.
  Qed.
End Turn.

(** ** The whole *)
Section Whole.
  Local Open Scope R_scope.
  Variables (garbage : bool) (thr : R) (pts : list (list R)) (faces : list (list nat)).
  Hypothesis Hp : proper_triangles (length pts) faces.
  Hypothesis Hc : clean pts faces.
  Hypothesis Hco : consistent faces.
  Hypothesis Hne : faces <> [].
  Hypothesis Hb : bounded pts.

  Lemma extract_ok np faces' pf ns : proper_triangles (length np) faces' -> consistent faces' ->
    (forall p q, (p < length np)%nat -> (q < length np)%nat -> p <> q -> 1 / 10 ^ 10 <= vdist 3 (at_point np p) (at_point np q)) ->
    length pf = length np -> (forall p, (p < length np)%nat -> nth p pf [] = faces_at faces' p) -> length ns = length faces' ->
    (forall i, (i < length faces')%nat -> forall d, (d < 3)%nat -> row_vec (nth i ns []) d = unit_normal np (nth i faces' []) d) ->
    exists edges corners pse m, extract_sharp_features thr np faces' pf ns = Ok (edges, corners, pse)
      /\ min_smooth_dot edges pse faces' pf ns = Ok m
      /\ right_features thr np faces' edges corners
      /\ least_facing thr np faces' m
      /\ forall a b, (a < length np)%nat -> a <> b -> exists r, sharp_edge edges pse a b = Ok r /\ (r = true <-> is_sharp_edge thr np faces' a b).
  Proof.
    intros Hp' Hco' Hap Lpf Hpf Lns Hns. unfold extract_sharp_features.
    rewrite (@mesh_sharp_ok thr np faces' pf Hp' Hco' Lpf Hpf ns Lns Hns). cbn [bind].
    pose proof (@edges_nodup thr np faces' Hp') as E1. pose proof (@edges_once thr np faces' Hp') as E2.
    pose proof (@edges_exact thr np faces' Hp') as E3. pose proof (@all_edges_range thr np faces' Hp') as E4.
    set (edges := all_edges thr np faces') in *. clearbody edges.
    destruct (@mesh_point_edges_ok (length np) edges E4) as (pe & Epe & Lpe & Hpe). rewrite Epe. cbn [bind].
    destruct (@mesh_corners_ok thr np faces' pf edges Hp' Hap Lpf Hpf ns Lns Hns E1 E2 E3 pe Lpe Hpe (length np) 0 eq_refl) as (cs & Ec & Hso & Hcs).
    rewrite Ec. cbn [bind]. destruct (sort_corners Hso) as (cs' & Es & Hso' & Hin). rewrite Es. cbn [bind].
    destruct (@min_smooth_ok thr np faces' pf edges Hp' Hap Lpf Hpf ns Lns Hns E2 E3 pe Lpe Hpe) as (m & Em & Hm).
    exists edges, cs', pe, m. split; auto. split; auto. split.
    - split; auto. split; auto. split; auto. split; auto. intros p. rewrite Hin, Hcs. intuition lia.
    - split; auto. intros a b Ha Hab. exact (@query_ok thr np faces' pf edges Hp' Hap Lpf Hpf ns Lns Hns E2 E3 pe Lpe Hpe a b Ha Hab).
  Qed.

  Lemma process_ok : exists m K faces1, process_model garbage thr pts faces = Ok m
    /\ ascending K /\ (forall p, In p K <-> used faces p)
    /\ map Some (pm_points m) = map (nth_error pts) K
    /\ map (shape (pm_points m)) faces1 = map (shape pts) faces
    /\ (pm_faces m = faces1 \/ all_turned faces1 (pm_faces m))
    /\ proper_triangles (length (pm_points m)) (pm_faces m) /\ consistent (pm_faces m)
    /\ length (pm_normals m) = length (pm_faces m)
    /\ (forall i d, (i < length (pm_faces m))%nat -> (d < 3)%nat -> at_point (pm_normals m) i d = unit_normal (pm_points m) (nth i (pm_faces m) []) d)
    /\ right_features thr (pm_points m) (pm_faces m) (pm_edges m) (pm_corners m)
    /\ least_facing thr (pm_points m) (pm_faces m) (pm_smooth m)
    /\ forall a b, (a < length (pm_points m))%nat -> a <> b ->
         exists r, pm_sharp_edge m a b = Ok r /\ (r = true <-> is_sharp_edge thr (pm_points m) (pm_faces m) a b).
  Proof.
    unfold process_model. destruct (build_ok (proj1 Hp)) as (pf & E1 & L1 & N1). rewrite E1. cbn [bind].
    destruct (@remove_isolated_ok _ pts faces pf (proj1 Hp) L1 N1) as (np & faces1 & pf1 & K & E2 & Hasc & HK & Hnp & Hsh & Ht1 & L2 & N2).
    rewrite E2. cbn [bind].
    assert (Hp1 : proper_triangles (length np) faces1) by exact (@proper1 pts np faces faces1 K Hp Hc HK Hnp Hsh Ht1).
    assert (Hc1 : clean np faces1) by exact (@clean1 pts np faces faces1 K Hp Hc Hasc HK Hnp Hsh Ht1).
    assert (Hco1 : consistent faces1) by exact (@consistent1 pts np faces faces1 K Hp Hc Hco Hasc HK Hnp Hsh Ht1).
    assert (Hu1 : forall p, (p < length np)%nat -> used faces1 p) by exact (@used1 pts np faces faces1 K Hp Hc Hasc HK Hnp Hsh Ht1).
    destruct (@all_edges_ok_ok (length np) faces1 pf1 Hp1 L2 N2 faces1 (incl_refl _)) as (w & Ew & _).
    unfold water_tight_model. rewrite Ew. cbn [bind].
    destruct (@normals_ok np faces1 Hp1 Hc1 faces1 (incl_refl _)) as (ns & E3 & L3 & N3). rewrite E3. cbn [bind].
    unfold impose_consistent_orientation. rewrite (@orient_consistent (length np) faces1 pf1 Hp1 L2 N2 garbage Hco1). cbn [bind].
    pose proof (@normals3 np faces1 ns E3) as W3.
    assert (Hnn : np <> []).
    { intros E. assert (LK := @len_K _ _ _ Hnp). rewrite E in LK. apply length_zero_iff_nil in LK. subst K.
      destruct faces as [|f t]; [congruence|]. destruct Hp as (Ht & _). destruct (Ht f (or_introl eq_refl)) as (Lf & _).
      destruct (triple _ Lf) as (a & b & c & ->). apply (proj2 (HK a)). exists [a; b; c]. simpl. auto. }
    assert (Hfar : forall p, In p np -> far (fun d => box_min pts d - (box_max pts d - box_min pts d)) p < @dbl_max R _).
    { intros p Hin. apply box_far; auto. assert (H : In (Some p) (map Some np)) by now apply in_map. rewrite Hnp in H.
      apply in_map_iff in H as (k & Ek & _). eapply nth_error_In; eauto. }
    destruct (@adjust_ok (box_min pts) (box_max pts) np pf1 faces1 ns Ht1 L2 N2 L3 W3 Hnn Hu1 Hfar) as (faces' & ns' & _ & _ & Ea & _).
    rewrite Ea. cbn [bind]. destruct (@adjust_shape R _ (length np) _ _ _ _ _ _ _ _ Ht1 Ea) as (Sc & Aon & Hcons).
    pose proof (same_corners_proper Sc Hp1) as Hp'. specialize (Hcons Hco1). pose proof Sc as (Lf & Scp).
    assert (Hns' : length ns' = length faces' /\ forall i, (i < length faces')%nat -> forall d, (d < 3)%nat -> row_vec (nth i ns' []) d = unit_normal np (nth i faces' []) d).
    { destruct Aon as [(-> & ->)|(Ho & ->)]; [split; auto|]. split; [rewrite map_length; lia|]. intros i Hi d Hd. rewrite neg_at by (auto; lia).
      rewrite N3 by (auto; lia). destruct Hp1 as (Ht & Hn). assert (Hin : In (nth i faces1 []) faces1) by (apply nth_In; lia).
      symmetry. apply unit_turned; auto; [apply Ht; auto|now apply same_corners_nth|]. apply (Ho i); apply nth_error_nth'; lia. }
    destruct Hns' as (Lns' & Hns').
    destruct (@extract_ok np faces' pf1 ns' Hp' Hcons (proj2 (proj2 Hc1)) L2) as (edges & corners & pse & m & Ex & Em & HF & HL & HQ); auto.
    { intros p Hlt. rewrite N2 by auto. now apply same_corners_at. }
    rewrite Ex. cbn [bind]. rewrite Em. cbn [bind]. eexists. exists K, faces1. split; [reflexivity|].
    cbn [pm_points pm_faces pm_normals pm_edges pm_corners pm_smooth]. unfold pm_sharp_edge. cbn [pm_edges pm_point_edges].
    repeat (split; [solve [auto]|]). split.
    - destruct Aon as [(-> & _)|(Ho & _)]; auto. right. split; auto. intros i f f' Ef Ef'. split; [eapply Scp; eauto|].
      intros a b. symmetry. apply (Ho i f f' Ef Ef').
    - repeat (split; [solve [auto]|]). split; [|auto]. intros i d Hi Hd. exact (Hns' i Hi d Hd).
  Qed.
End Whole.
