(** Proofs about the pairs of seeds: geometry and coverage. *)
From Coq Require Import Reals Lra.
From Verif Require Import Base Num Vec KdTree SmartTree KdSpec SmartTreeSpec DenseQR Geometry GeometrySpec GeometryProofs
  Spheres SpheresSpec SpheresProofs SpheresOverlapProofs PropsGeometry SeedPairs SeedPairsSpec.
Local Open Scope R_scope.

Lemma ten_pos : 0 < 1 / 10 ^ 10.
Proof. apply Rdiv_lt_0_compat; [lra|apply pow_lt; lra]. Qed.

(** * Numbering *)
Section Numbering.
  Variables ss es cs : stree R.
  Variable L : R.
  Hypothesis Hss : sphere_set L ss.
  Hypothesis Hes : sphere_set L es.
  Hypothesis Hcs : sphere_set L cs.
  Let all := all_spheres ss es cs.

  Lemma set_row s i : sphere_set L s -> (i < st_n s)%nat -> get_sphere s i = Ok (nth i (st_pts s) []).
  Proof.
    intros (_ & _ & _ & H4) Hi. unfold get_sphere. destruct (nth_error_lt (st_pts s) (i := i) Hi) as (row & E).
    rewrite (get_some E). cbn [bind]. rewrite (nth_error_nth _ _ _ E).
    assert (length row = 4%nat) by (apply H4; eapply nth_error_In; eauto). rewrite H. cbn [Nat.leb].
    rewrite <- H, firstn_all. reflexivity.
  Qed.
  Lemma all_len : length all = (st_n ss + st_n es + st_n cs)%nat.
  Proof. unfold all, all_spheres, st_n. rewrite !app_length. lia. Qed.
  Lemma all_nth_s i : (i < st_n ss)%nat -> nth i all [] = nth i (st_pts ss) [].
  Proof. intros H. unfold all, all_spheres. apply app_nth1. exact H. Qed.
  Lemma all_nth_e i : (i < st_n es)%nat -> nth (st_n ss + i) all [] = nth i (st_pts es) [].
  Proof. intros H. unfold all, all_spheres. unfold st_n at 1. rewrite app_nth2_plus. apply app_nth1. exact H. Qed.
  Lemma all_nth_c i : (i < st_n cs)%nat -> nth (st_n ss + st_n es + i) all [] = nth i (st_pts cs) [].
  Proof. intros H. unfold all, all_spheres. rewrite <- Nat.add_assoc. unfold st_n. rewrite app_nth2_plus, app_nth2_plus. reflexivity. Qed.
  Lemma all_four i : (i < length all)%nat -> length (nth i all []) = 4%nat.
  Proof.
    intros Hi. pose proof all_len. assert (In (nth i all []) all) by (apply nth_In; auto).
    unfold all, all_spheres in H0. apply in_app_or in H0 as [H0|H0]; [apply Hss; auto|].
    apply in_app_or in H0 as [H0|H0]; [apply Hes|apply Hcs]; auto.
  Qed.
  Lemma sphere_at_ok i : (i < length all)%nat -> sphere_at ss es cs i = Ok (nth i all []).
  Proof.
    intros Hi. rewrite all_len in Hi. unfold sphere_at.
    destruct (Nat.ltb_spec i (st_n ss)).
    - rewrite (set_row Hss) by auto. f_equal. symmetry. apply all_nth_s. auto.
    - destruct (Nat.ltb_spec i (st_n ss + st_n es)).
      + rewrite (set_row Hes) by lia. f_equal. rewrite <- all_nth_e by lia. f_equal. lia.
      + rewrite (set_row Hcs) by lia. f_equal. rewrite <- all_nth_c by lia. f_equal. lia.
  Qed.
End Numbering.

(** * Geometry of a triple *)
Lemma dot_vprod_l a b : dot 3 (vprod a b) a = 0.
Proof. rewrite dot3. unfold vprod. ring. Qed.
Lemma dot_vprod_r a b : dot 3 (vprod a b) b = 0.
Proof. rewrite dot3. unfold vprod. ring. Qed.
(** The plane of three points: differences are orthogonal to the vector product. *)
Lemma hull_orthogonal c x m : in_hull 3 3 c x -> (m < 3)%nat ->
  dot 3 (vprod (sub (c 1%nat) (c 0%nat)) (sub (c 2%nat) (c 0%nat))) (sub x (c m)) = 0.
Proof.
  intros (a & Sa & Hx) Hm.
  assert (E0 : a 0%nat = 1 - a 1%nat - a 2%nat) by (rewrite !sumn_S, sumn_0 in Sa; lra).
  rewrite dot3. unfold sub. rewrite !Hx by lia. rewrite !sumn_S, !sumn_0. unfold vprod. rewrite E0.
  destruct m as [|[|[|m]]]; [| | |lia]; ring.
Qed.
(** The point of the plane with equal powers is unique. *)
Lemma radical_unique c (r : nat -> R) x y : in_hull 3 3 c x -> in_hull 3 3 c y ->
  (forall m, (m < 3)%nat -> power 3 x (c m) (r m) = power 3 x (c 0%nat) (r 0%nat)) ->
  (forall m, (m < 3)%nat -> power 3 y (c m) (r m) = power 3 y (c 0%nat) (r 0%nat)) ->
  forall d, (d < 3)%nat -> x d = y d.
Proof.
  intros (a & Sa & Hx) (b & Sb & Hy) Px Py.
  assert (O : forall m, (m < 3)%nat -> dot 3 (sub x y) (sub (c m) (c 0%nat)) = 0).
  { intros m Hm. specialize (Px m Hm). specialize (Py m Hm). unfold power in Px, Py. rewrite !vdist_sq, !dot3 in Px, Py.
    rewrite dot3. unfold sub. lra. }
  assert (D : forall d, (d < 3)%nat -> sub x y d = (a 1%nat - b 1%nat) * sub (c 1%nat) (c 0%nat) d + (a 2%nat - b 2%nat) * sub (c 2%nat) (c 0%nat) d).
  { intros d Hd. unfold sub. rewrite Hx, Hy by auto. 
    assert (a 0%nat = 1 - a 1%nat - a 2%nat) by (rewrite !sumn_S, sumn_0 in Sa; lra).
    assert (b 0%nat = 1 - b 1%nat - b 2%nat) by (rewrite !sumn_S, sumn_0 in Sb; lra).
    rewrite !sumn_S, !sumn_0. rewrite H, H0. ring. }
  assert (Z : dot 3 (sub x y) (sub x y) = 0).
  { rewrite (@dot_ext 3 (sub x y) (sub x y) (sub x y) _ (fun _ _ => eq_refl) D).
    rewrite dot_plus_r, !dot_scal_r, !O by lia. ring. }
  intros d Hd. rewrite dot3 in Z. unfold sub in Z.
  assert (0 <= (x 0%nat - y 0%nat) * (x 0%nat - y 0%nat)) by apply Rle_0_sqr.
  assert (0 <= (x 1%nat - y 1%nat) * (x 1%nat - y 1%nat)) by apply Rle_0_sqr.
  assert (0 <= (x 2%nat - y 2%nat) * (x 2%nat - y 2%nat)) by apply Rle_0_sqr.
  assert (forall t, t * t = 0 -> t = 0) by (intros t Ht; destruct (Rmult_integral _ _ Ht); auto).
  destruct d as [|[|[|d]]]; [| | |lia]; apply Rminus_diag_uniq, H2; lra.
Qed.

Section Triple.
  Variables ss es cs : stree R.
  Variable L : R.
  Hypothesis Hss : sphere_set L ss.
  Hypothesis Hes : sphere_set L es.
  Hypothesis Hcs : sphere_set L cs.
  Let all := all_spheres ss es cs.
  Hypothesis Hmod : moderate all.

  Lemma in_touch_R i j : in_touch (nth i all []) (nth j all []) = true <-> touching all i j.
  Proof.
    unfold in_touch, touching. rewrite distance_R, tol_eq. change nsub with Rminus. change nadd with Rplus. change nltb with Rltb.
    change (gv (nth i all []) 3%nat) with (rad all i). change (gv (nth j all []) 3%nat) with (rad all j).
    change (gv (nth i all [])) with (centre all i). change (gv (nth j all [])) with (centre all j).
    destruct (Rltb _ _) eqn:E; cbn [negb]; [apply Rltb_true in E|apply Rltb_false in E]; split; intros; try discriminate; auto; lra.
  Qed.
  Lemma vec_triple (f : nat -> R) (r : R) d : vec (map f (seq 0 3) ++ [r]) d = match d with 0%nat => f 0%nat | 1%nat => f 1%nat | 2%nat => f 2%nat | 3%nat => r | _ => 0 end.
  Proof. unfold vec. destruct d as [|[|[|[|d]]]]; try reflexivity. cbn. destruct d; reflexivity. Qed.

  Lemma meeting_pair_ok darts stale fc i j k :
    (i < length all)%nat -> (j < length all)%nat -> (k < length all)%nat ->
    (area (triangle all i j k) < 1 / 10 ^ 10
     \/ (independent 3 3 (1 / 10 ^ 5) (triangle all i j k) /\ ~ sliver (triangle all i j k)
         /\ power_vertex 3 3 (triangle all i j k) (fun m => triangle all i j k m 3%nat) darts <> Ok None)) ->
    exists o, meeting_pair ss es cs darts stale fc i j k = Ok o
      /\ match o with
         | Some p => touching all i j /\ touching all i k /\ touching all j k
                     /\ good_pair all (snd (triangle_normal fc)) i j k p
                     /\ 1 / 10 ^ 10 <= area (triangle all i j k)
         | None => touching all i j -> touching all i k -> touching all j k ->
             1 / 10 ^ 10 <= area (triangle all i j k) ->
             forall x, in_hull 3 3 (triangle all i j k) x ->
               power 3 x (centre all j) (rad all j) = power 3 x (centre all i) (rad all i) ->
               power 3 x (centre all k) (rad all k) = power 3 x (centre all i) (rad all i) ->
               rad all i - 1 / 10 ^ 10 < vdist 3 x (centre all i)
         end.
  Proof.
    intros Hi Hj Hk Huse. unfold meeting_pair.
    rewrite !(@sphere_at_ok ss es cs L Hss Hes Hcs) by auto. fold all. cbn [bind].
    destruct (in_touch (nth i all []) (nth j all [])) eqn:Tij; cbn [negb].
    2:{ exists None. split; auto. intros X. apply in_touch_R in X. congruence. }
    destruct (in_touch (nth i all []) (nth k all [])) eqn:Tik; cbn [negb].
    2:{ exists None. split; auto. intros _ X. apply in_touch_R in X. congruence. }
    destruct (in_touch (nth j all []) (nth k all [])) eqn:Tjk; cbn [negb].
    2:{ exists None. split; auto. intros _ _ X. apply in_touch_R in X. congruence. }
    apply in_touch_R in Tij, Tik, Tjk.
    change (three (nth i all []) (nth j all []) (nth k all [])) with (triangle all i j k).
    set (c := triangle all i j k) in *. set (r := fun m : nat => c m 3%nat).
    assert (PV : exists pv, power_vertex 3 3 c r darts = Ok pv).
    { unfold power_vertex. cbn [Nat.eqb Nat.ltb Nat.leb orb Nat.add]. destruct (pv_loop _ _ _ _ _ _); eauto. }
    destruct PV as (pv & EPV). rewrite EPV. cbn [bind].
    set (x := match pv with Some v => v | None => stale end).
    rewrite distance_R, tol_eq. change nsub with Rminus. change nltb with Rltb. change nadd with Rplus. change nmul with Rmult. change nsqrt with sqrt.
    change (gv (nth i all [])) with (centre all i). change (centre all i 3%nat) with (rad all i).
    change (gv (nth j all []) 3%nat) with (rad all j). change (gv (nth k all []) 3%nat) with (rad all k).
    rewrite triangle_area_R. fold (area c).
    pose proof ten_pos as T.
    (* facts about the power vertex *)
    assert (HP : 1 / 10 ^ 10 <= area c ->
      (in_hull 3 3 c x /\ forall m, (m < 3)%nat -> power 3 x (c m) (r m) = power 3 x (c 0%nat) (r 0%nat)) /\ ~ sliver c).
    { intros Ha. destruct Huse as [Hs|(Hind & Hns & Hdarts)]; [lra|]. split; auto.
      destruct pv as [v|]; [|elim Hdarts; exact EPV]. destruct (@C20_n_spheres 3 3 c r darts v) as (P1 & P2); auto.
      simpl. pose proof (pow_lt 10 10 ltac:(lra)). assert (10 ^ 10 = 10000000000) by lra. lra. }
    destruct (Rltb (rad all i - 1 / 10 ^ 10) (vdist 3 x (centre all i))) eqn:Eh.
    { exists None. split; auto. apply Rltb_true in Eh. intros _ _ _ Ha y Hy Pj Pk. destruct (HP Ha) as ((Hx & Px) & _).
      assert (E : forall d, (d < 3)%nat -> x d = y d).
      { apply (@radical_unique c r x y); auto. intros m Hm. destruct m as [|[|[|m]]]; [reflexivity|exact Pj|exact Pk|lia]. }
      rewrite (@vdist_ext 3 y x (centre all i) (centre all i)); auto. intros d Hd. symmetry. auto. }
    apply Rltb_false in Eh.
    destruct (Rltb (area c) (1 / 10 ^ 10)) eqn:Ea.
    { exists None. split; auto. apply Rltb_true in Ea. intros _ _ _ Ha. lra. }
    apply Rltb_false in Ea. destruct (HP Ea) as ((Hx & Px) & Hns).
    eexists. split; [reflexivity|]. split; auto. split; auto. split; auto. split; auto.
    destruct (@triangle_normal_R c) as [(_ & n & En & Hpos & Hn)|(Hs & _)]; [|contradiction].
    set (a := sub (c 1%nat) (c 0%nat)) in *. set (b := sub (c 2%nat) (c 0%nat)) in *. set (w := vprod a b) in *.
    rewrite En. cbn [snd].
    change (@dot_product R _ 3) with (@dot_product R RNum 3). rewrite dot_product_R. change (@n0 R RNum) with 0. change nopp with Ropp.
    set (m := snd (triangle_normal fc)). set (flip := Rltb (dot 3 m n) 0).
    set (n' := fun d : nat => if flip then - n d else n d).
    assert (Eq : forall d, n d = / norm 3 w * w d) by (intros d; rewrite Hn; unfold Rdiv; ring).
    assert (Hunit : dot 3 n n = 1).
    { rewrite (@dot_ext 3 n (fun d => / norm 3 w * w d) n (fun d => / norm 3 w * w d)) by auto.
      rewrite dot_scal_l, dot_scal_r, <- norm_sq. field. lra. }
    set (e := if flip then -1 else 1).
    assert (En' : forall d, n' d = e * n d) by (intros d; unfold n', e; destruct flip; ring).
    assert (Ee : e * e = 1) by (unfold e; destruct flip; ring).
    assert (Hunit' : unit 3 n').
    { unfold unit. rewrite (@dot_ext 3 n' (fun d => e * n d) n' (fun d => e * n d)) by auto. rewrite dot_scal_l, dot_scal_r, Hunit. lra. }
    assert (Horth : forall q, (q < 3)%nat -> orthogonal 3 n' (sub x (c q))).
    { intros q Hq. unfold orthogonal. rewrite (@dot_ext 3 n' (fun d => (e * / norm 3 w) * w d) _ (sub x (c q))); auto.
      2:{ intros d _. rewrite En', Eq. ring. }
      rewrite dot_scal_l. unfold w, a, b. rewrite (hull_orthogonal Hx Hq). ring. }
    set (h := vdist 3 x (centre all i)) in *. pose proof (vdist_nonneg 3 x (centre all i)) as Hh0. fold h in Hh0.
    set (v := sqrt (rad all i * rad all i - h * h)).
    assert (Hv : 0 < v).
    { apply sqrt_lt_R0. assert (0 < (rad all i - h) * (rad all i + h)) by (apply Rmult_lt_0_compat; lra). lra. }
    assert (Hrad : forall q, (q < length all)%nat -> 0 < rad all q) by (intros q Hq; apply (Hmod Hq Hq)).
    assert (OnS : forall u q, (q < 3)%nat -> vdist 3 (fun d => x d + (if u : bool then v else - v) * n' d) (c q) = c q 3%nat).
    { intros u q Hq.
      rewrite <- (@meeting_on_sphere u x n' (c 0%nat) (c q)); auto.
      - apply vdist_ext; auto. intros d _. unfold meeting. rewrite distance_R. fold h.
        change (c 0%nat) with (centre all i). fold h. change nsqrt with sqrt. change nmul with Rmult. change nsub with Rminus. change nadd with Rplus.
        change (centre all i 3%nat) with (rad all i). fold v. destruct u; ring.
      - exact (Px q Hq).
      - change (h <= rad all i). lra.
      - destruct q as [|[|[|q]]]; [| | |lia]; left; [exact (Hrad i Hi)|exact (Hrad j Hj)|exact (Hrad k Hk)]. }
    unfold good_pair. cbn [p_up p_lo p_nrm p_att]. cbv zeta.
    set (RR := nmin (nmin (rad all i) (rad all j)) (rad all k)).
    set (up := vec (map (fun d => x d + v * n' d) (seq 0 3) ++ [RR])). set (lo := vec (map (fun d => x d - v * n' d) (seq 0 3) ++ [RR])).
    assert (Eup : forall d, (d < 3)%nat -> up d = x d + v * n' d).
    { intros d Hd. unfold up. rewrite vec_triple. destruct d as [|[|[|d]]]; auto; lia. }
    assert (Elo : forall d, (d < 3)%nat -> lo d = x d - v * n' d).
    { intros d Hd. unfold lo. rewrite vec_triple. destruct d as [|[|[|d]]]; auto; lia. }
    assert (Ed : forall d, (d < 3)%nat -> sub up lo d = (2 * v) * n' d) by (intros d Hd; unfold sub; rewrite Eup, Elo by auto; ring).
    assert (On : forall q, (q < 3)%nat -> vdist 3 up (c q) = c q 3%nat /\ vdist 3 lo (c q) = c q 3%nat).
    { intros q Hq. split.
      - rewrite <- (OnS true q Hq). apply vdist_ext; auto.
      - rewrite <- (OnS false q Hq). apply vdist_ext; auto. intros d Hd. rewrite Elo by auto. ring. }
    split; [reflexivity|]. split; [reflexivity|]. split; [reflexivity|].
    split; [split; [apply (On 0%nat); lia|split; [apply (On 1%nat); lia|apply (On 2%nat); lia]]|].
    split; [split; [apply (On 0%nat); lia|split; [apply (On 1%nat); lia|apply (On 2%nat); lia]]|].
    assert (Hsd : forall z, dot 3 z (sub up lo) = 2 * v * e * dot 3 z n).
    { intros z. rewrite (@dot_ext 3 z z (sub up lo) (fun d => 2 * v * e * n d)); auto; [apply dot_scal_r|].
      intros d Hd. rewrite Ed, En' by auto. ring. }
    assert (Hab : dot 3 n a = 0 /\ dot 3 n b = 0).
    { split; (rewrite (@dot_ext 3 n (fun d => / norm 3 w * w d) _ _ (fun d _ => Eq d) (fun _ _ => eq_refl)); rewrite dot_scal_l);
        [unfold w; rewrite dot_vprod_l|unfold w; rewrite dot_vprod_r]; ring. }
    split; [|split; [|split; [|split]]].
    - unfold mirrored, orthogonal. split; [|split].
      + rewrite dot_comm, Hsd, dot_comm. change (dot 3 n (sub (centre all j) (centre all i))) with (dot 3 n a). rewrite (proj1 Hab). ring.
      + rewrite dot_comm, Hsd, dot_comm. change (dot 3 n (sub (centre all k) (centre all i))) with (dot 3 n b). rewrite (proj2 Hab). ring.
      + destruct Hx as (al & Sal & Hal). exists al. split; auto. intros d Hd. rewrite <- Hal by auto. rewrite Eup, Elo by auto. lra.
    - rewrite Hsd. assert (0 <= e * dot 3 m n).
      { unfold e, flip. destruct (Rltb (dot 3 m n) 0) eqn:E; [apply Rltb_true in E|apply Rltb_false in E]; lra. }
      replace (2 * v * e * dot 3 m n) with (2 * v * (e * dot 3 m n)) by ring. apply Rmult_le_pos; lra.
    - assert (Hw : dot 3 w n = norm 3 w).
      { rewrite (@dot_ext 3 w w n (fun d => / norm 3 w * w d)) by auto. rewrite dot_scal_r, <- norm_sq. field. lra. }
      assert (Hvw : 0 < 2 * v * norm 3 w) by (apply Rmult_lt_0_compat; lra).
      unfold flip in *. destruct (Rltb (dot 3 m n) 0).
      + exists k, j. split; [reflexivity|]. split; [right; reflexivity|]. rewrite Hsd. unfold e.
        rewrite (@dot_ext 3 _ (fun d => (-1) * w d) n n); auto.
        2:{ intros d _. change (sub (centre all k) (centre all i)) with b. change (sub (centre all j) (centre all i)) with a. unfold w, vprod. destruct d as [|[|d]]; ring. }
        rewrite dot_scal_l, Hw. lra.
      + exists j, k. split; [reflexivity|]. split; [left; reflexivity|]. rewrite Hsd. unfold e.
        change (vprod (sub (centre all j) (centre all i)) (sub (centre all k) (centre all i))) with w. rewrite Hw. lra.
    - unfold up. rewrite vec_triple. unfold RR. rewrite !nmin_R. reflexivity.
    - unfold up, lo. rewrite !vec_triple. reflexivity.
  Qed.
End Triple.
