(** Proofs about Interior.v: the trees of spheres and the smoothing of the radii. *)
From Coq Require Import Reals Lra.
From Verif Require Import Base Num SamplingSpec Vec KdSpec KdTree SmartTree SmartTreeSpec DenseQR Geometry GeometryProofs Spheres
  PolyMesh PolyMeshProofs Regions RegionsProofs KdQueryProofs KdReenumProofs SpokeFlatProofs SmartQueryProofs Interior InteriorSpec SurfaceShrinkProofs.
Local Open Scope R_scope.

Lemma gv_nth (s : list R) d : gv s d = nth d s 0. Proof. reflexivity. Qed.
Lemma sq_distance_R (x y : list R) : sq_distance x y = cdist x y * cdist x y.
Proof. unfold sq_distance, cdist. rewrite range0_R, vdist_sq. apply sumn_ext. intros. reflexivity. Qed.
Lemma sqrt_distance (x y : list R) : @nsqrt R _ (sq_distance x y) = cdist x y.
Proof. rewrite sq_distance_R. cbn. apply sqrt_square. apply vdist_nonneg. Qed.
Lemma cdist_nonneg a b : 0 <= cdist a b. Proof. apply vdist_nonneg. Qed.
Lemma cdist_sym a b : cdist a b = cdist b a. Proof. apply vdist_sym. Qed.
Lemma cdist_triangle a b c : cdist a c <= cdist a b + cdist b c. Proof. apply vdist_triangle. Qed.
Lemma cdist_ext a a' b b' : (forall d, (d < 3)%nat -> nth d a 0 = nth d a' 0) -> (forall d, (d < 3)%nat -> nth d b 0 = nth d b' 0) ->
  cdist a b = cdist a' b'.
Proof. intros H H'. apply vdist_ext; auto. Qed.

Lemma edist_cdist P x i y : (forall d, (d < 3)%nat -> P i d = nth d y 0) -> edist 3 P x i = cdist x y.
Proof.
  intros H. unfold edist, sqdist, cdist, vdist, norm, dot, sumn. f_equal. f_equal. apply map_ext_in.
  intros d Hd. apply in_seq in Hd. rewrite H by lia. reflexivity.
Qed.

Lemma flat_centers_length (l : list (list R)) : length (flat_centers l) = (length l * 3)%nat.
Proof. unfold flat_centers. induction l as [|s l IH]; auto. cbn [flat_map]. rewrite app_length, IH. cbn [length three_coords]. lia. Qed.
Lemma flat_centers_coord (l : list (list R)) i d : (i < length l)%nat -> (d < 3)%nat ->
  flat_coord 3 (flat_centers l) i d = nth d (nth i l []) 0.
Proof.
  unfold flat_coord. revert i. induction l as [|s l IH]; intros i Hi Hd; [cbn in Hi; lia|].
  destruct i as [|i].
  - destruct d as [|[|[|d]]]; try lia; reflexivity.
  - change (nth (S i) (s :: l) []) with (nth i l []). rewrite <- (IH i) by (cbn in Hi; lia).
    replace (S i * 3 + d)%nat with (S (S (S (i * 3 + d)))) by lia. reflexivity.
Qed.

(** The tree [t] indexes the centres of [l]. *)
Definition indexes (l : list (list R)) (t : @ptree R) : Prop :=
  let '(lk, root, old, sorted) := t in
  exists lf rt tr, lk = (lf, rt) /\ Permutation old (seq 0 (length l)) /\ length sorted = (length l * 3)%nat
    /\ (forall i d, (i < length l)%nat -> (d < 3)%nat -> flat_coord 3 sorted i d = nth d (nth (nth i old 0%nat) l []) 0)
    /\ kd_tree Rltb (flat_coord 3 sorted) 3 (length l) lf rt root tr.

Lemma index_tree_ok (l : list (list R)) : l <> [] -> exists t, index_tree l = Ok t /\ indexes l t.
Proof.
  intros Hl. unfold index_tree.
  assert (Hn : (0 < length l)%nat) by (destruct l; [congruence|cbn; lia]).
  assert (Hf : (length l * 3 <= length (flat_centers l))%nat) by (rewrite flat_centers_length; lia).
  destruct (@flat_build_ok 3 (length l) (flat_centers l) ltac:(lia) Hf Hn) as (lf & rt & root & h & t & E & K).
  rewrite E. cbn [bind].
  destruct (@flat_reenumerate_ok (flat_centers l) (length l) lf rt root t Hf K)
    as (lf' & rt' & ord & sorted & t' & E' & P & Ls & C & K' & _).
  rewrite E'. eexists. split; [reflexivity|]. exists lf', rt', t'.
  split; auto. split; auto. split; auto. split; auto.
  intros i d Hi Hd. rewrite C by auto. apply flat_centers_coord; auto.
  assert (In (nth i ord 0%nat) ord). { apply nth_In. rewrite (Permutation_length P), seq_length. auto. }
  apply (Permutation_in _ P) in H. apply in_seq in H. lia.
Qed.

Lemma indexes_old l t i : indexes l t -> (i < length l)%nat -> let '(_, _, old, _) := t in
  exists k, get old i = Ok k /\ (k < length l)%nat /\ k = nth i old 0%nat.
Proof.
  destruct t as [[[lk root] old] sorted]. intros (lf & rt & tr & _ & P & _) Hi.
  assert (Hl : length old = length l) by (rewrite (Permutation_length P), seq_length; auto).
  exists (nth i old 0%nat). split; [apply get_nth; lia|]. split; auto.
  assert (In (nth i old 0%nat) old) by (apply nth_In; lia).
  apply (Permutation_in _ P) in H. apply in_seq in H. lia.
Qed.
Lemma indexes_surj l lk root old sorted j : indexes l (lk, root, old, sorted) -> (j < length l)%nat ->
  exists i, (i < length l)%nat /\ nth i old 0%nat = j.
Proof.
  intros (lf & rt & tr & _ & P & _) Hj.
  assert (In j old) by (apply (Permutation_in _ (Permutation_sym P)), in_seq; lia).
  apply In_nth with (d := 0%nat) in H. destruct H as (i & Hi & E). exists i. split; auto.
  rewrite <- (seq_length (length l) 0), <- (Permutation_length P). auto.
Qed.

(** Only the centres matter. *)
Lemma indexes_ext l l' t : length l' = length l ->
  (forall i d, (i < length l)%nat -> (d < 3)%nat -> nth d (nth i l' []) 0 = nth d (nth i l []) 0) -> indexes l t -> indexes l' t.
Proof.
  intros Hl Hc. destruct t as [[[lk root] old] sorted]. intros (lf & rt & tr & -> & P & Ls & C & K).
  exists lf, rt, tr. rewrite Hl. split; auto. split; auto. split; auto. split; auto.
  intros i d Hi Hd. rewrite C by auto. symmetry. apply Hc; auto.
  assert (In (nth i old 0%nat) old). { apply nth_In. rewrite (Permutation_length P), seq_length. auto. }
  apply (Permutation_in _ P) in H. apply in_seq in H. lia.
Qed.

Lemma tree_closest_ok l t x : indexes l t -> (3 <= length x)%nat -> l <> [] -> in_range x l ->
  exists i, tree_closest (length l) t x = Ok (i, cdist x (nth i l [])) /\ nearest_sphere x l i.
Proof.
  destruct t as [[[lk root] old] sorted]. intros H Hx Hl Hr. pose proof H as H'.
  destruct H' as (lf & rt & tr & -> & P & Ls & C & K).
  unfold tree_closest.
  destruct (@flat_closest_ok 3 (length l) sorted ltac:(lia) ltac:(lia) lf rt root tr K x dbl_max Hx) as (b & E & N).
  rewrite E. cbn [bind].
  assert (Ed : forall i, (i < length l)%nat -> edist 3 (flat_coord 3 sorted) x i = cdist x (nth (nth i old 0%nat) l [])).
  { intros i Hi. apply edist_cdist. intros. now rewrite C. }
  assert (Hn : (0 < length l)%nat) by (destruct l; [congruence|cbn; lia]).
  destruct N as [(-> & N)|(i & Hi & _ & -> & Hd & N)].
  - exfalso. pose proof (@indexes_old l ((lf, rt), root, old, sorted) 0%nat H Hn) as G. cbn beta iota in G.
    destruct G as (k & Ek & Hk & Ek').
    assert (H0 : snd (length l, dbl_max) <= edist 3 (flat_coord 3 sorted) x 0) by (apply N; [apply in_seq; lia|auto]).
    rewrite Ed in H0 by lia. rewrite <- Ek' in H0.
    assert (H1 : cdist x (nth k l []) < dbl_max) by (apply Hr, nth_In; auto).
    exact (Rlt_not_le _ _ H1 H0).
  - apply in_seq in Hi. pose proof (@indexes_old l ((lf, rt), root, old, sorted) i H ltac:(lia)) as G. cbn beta iota in G.
    destruct G as (k & Ek & Hk & Ek'). cbn [snd fst] in *.
    rewrite Ek. cbn [bind]. exists k. rewrite Ed by lia. rewrite <- Ek'. split; auto. split; auto.
    intros j Hj. destruct (indexes_surj H Hj) as (j' & Hj' & <-).
    rewrite <- (Ed j') by auto. rewrite Ek', <- Ed by lia. apply N; [apply in_seq; lia|auto].
Qed.

Lemma tree_in_sphere_ok l t x r : indexes l t -> (3 <= length x)%nat ->
  exists out, tree_in_sphere (length l) t x r = Ok out /\ (forall j, In j out -> (j < length l)%nat)
    /\ forall j, (j < length l)%nat -> cdist x (nth j l []) < r -> In j out.
Proof.
  destruct t as [[[lk root] old] sorted]. intros H Hx. pose proof H as H'.
  destruct H' as (lf & rt & tr & -> & P & Ls & C & K). unfold tree_in_sphere.
  destruct (@flat_in_sphere_ok 3 (length l) sorted ltac:(lia) ltac:(lia) lf rt root tr K x r Hx) as (out & E & S0).
  rewrite E. cbn [bind]. destruct S0 as (o & Eo & _ & Hin & _ & Hmust). cbn [app] in Eo. subst out.
  assert (Hlt : forall i, In i o -> (i < length l)%nat) by (intros i Hi; apply Hin, in_seq in Hi; lia).
  rewrite (@mapr_ok _ _ _ (fun i => nth i old 0%nat)).
  2:{ intros i Hi. pose proof (@indexes_old l ((lf, rt), root, old, sorted) i H (Hlt i Hi)) as G. cbn beta iota in G.
      destruct G as (k & Ek & _ & <-). auto. }
  eexists. split; [reflexivity|]. split.
  - intros j Hj. apply in_map_iff in Hj. destruct Hj as (i & <- & Hi).
    pose proof (@indexes_old l ((lf, rt), root, old, sorted) i H (Hlt i Hi)) as G. cbn beta iota in G.
    destruct G as (k & _ & Hk & <-). auto.
  - intros j Hj Hd. destruct (indexes_surj H Hj) as (i & Hi & <-).
    apply (in_map (fun i => nth i old 0%nat)). apply Hmust; auto.
    + apply in_seq. lia.
    + erewrite edist_cdist; [exact Hd|]. intros. now rewrite C.
Qed.

(** ** Smoothing *)
Lemma rsum_upd (l : list R) i v : (i < length l)%nat -> rsum (upd l i v) = rsum l - nth i l 0 + v.
Proof.
  revert i. induction l as [|a l IH]; intros [|i] Hi; cbn in Hi; try lia; unfold rsum in *; cbn [upd fold_right nth]; [lra|].
  rewrite IH by lia. lra.
Qed.
Lemma rsum_nonneg' (l : list R) : (forall i, (i < length l)%nat -> 0 <= nth i l 0) -> 0 <= rsum l.
Proof.
  induction l as [|a l IH]; unfold rsum in *; cbn [fold_right]; intros H; [lra|].
  pose proof (H 0%nat ltac:(cbn; lia)). cbn in H0.
  assert (0 <= fold_right Rplus 0 l) by (apply IH; intros i Hi; apply (H (S i)); cbn; lia). lra.
Qed.

Section Lip.
  Variables (L : R) (n : nat) (sorted : list R) (nbrs : list (list nat)) (sz0 : list R).
  Hypothesis HL : 0 <= L.
  Hypothesis Hn : length sz0 = n.
  Hypothesis Hnb : length nbrs = n.
  Hypothesis Hin : forall l j, In l nbrs -> In j l -> (j < n)%nat.
  Hypothesis Hpos : forall i, (i < n)%nat -> 0 <= nth i sz0 0.
  Let D i j := cdist (sorted_row sorted j) (sorted_row sorted i).

  Definition lstate (sz : list R) : Prop :=
    length sz = n
    /\ (forall i, (i < n)%nat -> 0 <= nth i sz 0 <= nth i sz0 0)
    /\ (forall g : nat -> R, (forall i, (i < n)%nat -> g i <= nth i sz0 0) ->
          (forall i j, (i < n)%nat -> (j < n)%nat -> g i <= g j + L * D i j) -> forall i, (i < n)%nat -> g i <= nth i sz 0).

  Lemma lip_step_ok i j sz ch : (i < n)%nat -> (j < n)%nat -> lstate sz ->
    exists st, lip_step L sorted i j (sz, ch) = Ok st
      /\ ((st = (sz, ch) /\ nth i sz 0 <= nth j sz 0 + L * D i j + 1 / 10 ^ 10)
          \/ (snd st = true /\ lstate (fst st) /\ rsum (fst st) <= rsum sz - 1 / 10 ^ 10)).
  Proof.
    intros Hi Hj (H1 & H2 & H3). unfold lip_step. cbn [fst snd].
    rewrite !(get_nth _ 0) by lia. cbn [bind]. rewrite sqrt_distance, tol_eq. fold (D i j).
    assert (HD : 0 <= D i j) by apply cdist_nonneg. assert (HLD : 0 <= L * D i j) by (apply Rmult_le_pos; auto).
    assert (He : 0 < 1 / 10 ^ 10) by (apply Rdiv_lt_0_compat; [lra|apply pow_lt; lra]).
    cbn [nltb RNum nadd nmul].
    destruct (Rltb (nth i sz 0) (nth j sz 0)) eqn:E1.
    { apply Rltb_true in E1. eexists. split; [reflexivity|]. left. split; auto. lra. }
    apply Rltb_false in E1.
    destruct (Rltb (nth j sz 0 + D i j * L + 1 / 10 ^ 10) (nth i sz 0)) eqn:E2.
    - apply Rltb_true in E2. rewrite set_Ok by lia. cbn [bind]. eexists. split; [reflexivity|]. right. cbn [fst snd].
      split; auto. assert (Hr : nth j sz 0 + D i j * L < nth i sz 0 - 1 / 10 ^ 10) by lra.
      pose proof (H2 j Hj) as Hpj.
      split.
      + split; [rewrite upd_length; auto|]. split.
        * intros k Hk. rewrite nth_upd by lia. destruct (Nat.eqb_spec k i) as [->|Hne]; [|apply H2; auto].
          pose proof (H2 i Hi). lra.
        * intros g G1 G2 k Hk. rewrite nth_upd by lia. destruct (Nat.eqb_spec k i) as [->|Hne]; [|apply H3; auto].
          pose proof (G2 i j Hi Hj). pose proof (H3 g G1 G2 j Hj). lra.
      + rewrite rsum_upd by lia. lra.
    - apply Rltb_false in E2. eexists. split; [reflexivity|]. left. split; auto. lra.
  Qed.

  Definition pairs_of := flat_map (fun '(i, l) => map (fun j => (i, j)) l) (numbered nbrs).
  Lemma pairs_lt i j : In (i, j) pairs_of <-> exists l, nth_error nbrs i = Some l /\ In j l.
  Proof.
    unfold pairs_of. rewrite in_flat_map. split.
    - intros ((k & l) & H & H'). apply in_map_iff in H'. destruct H' as (j' & E & H'). injection E as -> ->.
      apply in_numbered in H. eauto.
    - intros (l & E & H). exists (i, l). split; [|apply in_map; auto].
      apply nth_error_In with i. rewrite numbered_nth, E. auto.
  Qed.
  Lemma lip_pass_ok sz : lstate sz ->
    exists st, lip_pass L sorted nbrs sz = Ok st /\ lstate (fst st)
      /\ (snd st = false -> fst st = sz /\ forall i j l, nth_error nbrs i = Some l -> In j l ->
            nth i sz 0 <= nth j sz 0 + L * D i j + 1 / 10 ^ 10)
      /\ (snd st = true -> rsum (fst st) <= rsum sz - 1 / 10 ^ 10).
  Proof.
    intros Hs. unfold lip_pass.
    assert (He : 0 < 1 / 10 ^ 10) by (apply Rdiv_lt_0_compat; [lra|apply pow_lt; lra]).
    erewrite fold_res_ext.
    2:{ intros [i l] st _. instantiate (1 := fun '(i, l) st => fold_res (fun '(i, j) => lip_step L sorted i j) (map (fun j => (i, j)) l) st).
        cbn beta iota. clear. revert st. induction l as [|j l IH]; intros st; auto. cbn [fold_res map].
        destruct (lip_step L sorted i j st); cbn [bind]; auto. }
    erewrite fold_res_ext with (g := fun a st => fold_res (fun '(i, j) => lip_step L sorted i j) ((fun '(i, l) => map (fun j => (i, j)) l) a) st)
      by (intros [i l] st _; reflexivity).
    rewrite fold_res_flat. fold pairs_of.
    destruct (@fold_res_inv _ _ (fun pre (st : list R * bool) => lstate (fst st)
        /\ (snd st = false -> fst st = sz /\ forall i j, In (i, j) pre -> nth i sz 0 <= nth j sz 0 + L * D i j + 1 / 10 ^ 10)
        /\ (snd st = true -> rsum (fst st) <= rsum sz - 1 / 10 ^ 10))
      (fun '(i, j) => lip_step L sorted i j) pairs_of (sz, false)) as (st & E & I1 & I2 & I3).
    - split; [auto|]. split; cbn; [split; auto; intros i j []|discriminate].
    - intros pre [i j] post [s ch] Epre (I1 & I2 & I3). cbn [fst snd] in *.
      assert (Hij : In (i, j) pairs_of) by (rewrite Epre; apply in_elt).
      apply pairs_lt in Hij. destruct Hij as (l & El & Hj).
      assert (Hi : (i < n)%nat) by (rewrite <- Hnb; apply nth_error_Some; congruence).
      assert (Hj' : (j < n)%nat) by (eapply Hin; eauto; eapply nth_error_In; eauto).
      destruct (@lip_step_ok i j s ch Hi Hj' I1) as (st & E & [(-> & Hle)|(Hc & Hl & Hsum)]); exists st || eexists; (split; [eauto|]).
      + cbn [fst snd]. split; auto. split; auto. intros Ech. destruct (I2 Ech) as (-> & I2').
        split; auto. intros i' j' H. apply in_app_or in H. destruct H as [H|[H|[]]]; auto. injection H as -> ->. auto.
      + split; auto. split; [rewrite Hc; discriminate|]. intros _.
        destruct ch; [specialize (I3 eq_refl); lra|]. destruct (I2 eq_refl) as (-> & _). auto.
    - exists st. split; auto. split; auto. split; auto. intros Hc. destruct (I2 Hc) as (E1 & E2). split; auto.
      intros i j l El Hj. apply E2. apply pairs_lt. eauto.
  Qed.

  Definition settled (sz : list R) : Prop := lstate sz
    /\ forall i j l, nth_error nbrs i = Some l -> In j l -> nth i sz 0 <= nth j sz 0 + L * D i j + 1 / 10 ^ 10.
  Lemma lip_passes_ok : forall (m : nat) sz, lstate sz -> rsum sz <= INR m * (1 / 10 ^ 10) ->
    forall fuel, (m < fuel)%nat -> exists sz', lip_passes fuel L sorted nbrs sz = Ok sz' /\ settled sz'.
  Proof.
    assert (He : 0 < 1 / 10 ^ 10) by (apply Rdiv_lt_0_compat; [lra|apply pow_lt; lra]).
    induction m as [|m IH]; intros sz Hs Hm fuel Hf; (destruct fuel as [|fuel]; [lia|]); cbn [lip_passes];
      destruct (lip_pass_ok Hs) as ((sz' & ch) & E & I1 & I2 & I3); rewrite E; cbn [bind fst snd] in *; destruct ch.
    - exfalso. specialize (I3 eq_refl). cbn in Hm.
      assert (0 <= rsum sz') by (apply rsum_nonneg'; destruct I1 as (Hl & Hp & _); rewrite Hl; intros i Hi; apply Hp; auto). lra.
    - destruct (I2 eq_refl) as (-> & H). exists sz. split; auto. split; auto.
    - specialize (I3 eq_refl). rewrite S_INR in Hm. apply IH; auto; [lra|lia].
    - destruct (I2 eq_refl) as (-> & H). exists sz. split; auto. split; auto.
  Qed.
  (** Any result is settled, whatever the fuel. *)
  Lemma lip_passes_Ok : forall fuel sz sz', lstate sz -> lip_passes fuel L sorted nbrs sz = Ok sz' -> settled sz'.
  Proof.
    induction fuel as [|fuel IH]; intros sz sz' Hs E; [discriminate|]. cbn [lip_passes] in E.
    destruct (lip_pass_ok Hs) as ((s & ch) & E' & I1 & I2 & I3). rewrite E' in E. cbn [bind fst snd] in *.
    destruct ch; [apply (IH s); auto|]. injection E as <-. destruct (I2 eq_refl) as (-> & H). split; auto.
  Qed.
End Lip.

Lemma sorted_row_ext sorted i y : (forall d, (d < 3)%nat -> flat_coord 3 sorted i d = nth d y 0) ->
  forall d, (d < 3)%nat -> nth d (@sorted_row R _ sorted i) 0 = nth d y 0.
Proof.
  intros H d Hd. rewrite <- H by auto. unfold sorted_row, flat_coord.
  destruct d as [|[|[|d]]]; try lia; reflexivity.
Qed.

Definition smoothed (L : R) (l l' : list (list R)) : Prop :=
  shrunk l l' /\ Forall sphere l' /\ near_slope L (1 / 10 ^ 10) l l' /\ above_all_slopes L l l'.

Lemma above_nat (x : R) : exists m : nat, x < INR m.
Proof.
  exists (Z.to_nat (up (Rmax x 0))). pose proof (archimed (Rmax x 0)) as (H & _). pose proof (Rmax_l x 0). pose proof (Rmax_r x 0).
  rewrite INR_IZR_INZ, Z2Nat.id; [lra|]. apply le_IZR. lra.
Qed.

Section LipSeeds.
  Variables (L : R) (l : list (list R)) (lf rt : list nat) (root : nat) (old : list nat) (sorted : list R).
  Hypothesis HL : 0 <= L.
  Hypothesis HI : indexes l ((lf, rt), root, old, sorted).
  Hypothesis Hs : Forall sphere l.
  Let n := length l.
  Let o i := nth i old 0%nat.
  Let sz0 := map (fun i => rad (nth (o i) l [])) (seq 0 n).

  Lemma o_lt i : (i < n)%nat -> (o i < n)%nat /\ get old i = Ok (o i).
  Proof. intros Hi. pose proof (@indexes_old l _ i HI Hi) as G. cbn beta iota in G. destruct G as (k & E & Hk & ->). auto. Qed.
  Lemma o_inj i j : (i < n)%nat -> (j < n)%nat -> o i = o j -> i = j.
  Proof.
    intros Hi Hj E. destruct HI as (_ & _ & _ & _ & P & _).
    assert (N : NoDup old) by (apply (Permutation_NoDup (Permutation_sym P)), seq_NoDup).
    assert (Hl : length old = n) by (rewrite (Permutation_length P), seq_length; auto).
    apply (proj1 (NoDup_nth old 0%nat) N); auto; lia.
  Qed.
  Lemma sz0_nth i : (i < n)%nat -> nth i sz0 0 = rad (nth (o i) l []).
  Proof.
    intros Hi. unfold sz0. rewrite (nth_indep _ 0 (rad (nth (o 0) l []))) by (rewrite map_length, seq_length; auto).
    rewrite (map_nth (fun i => rad (nth (o i) l []))), seq_nth by auto. reflexivity.
  Qed.
  Lemma D_nth i j : (i < n)%nat -> (j < n)%nat -> cdist (sorted_row sorted j) (sorted_row sorted i) = cdist (nth (o i) l []) (nth (o j) l []).
  Proof.
    intros Hi Hj. destruct HI as (_ & _ & _ & _ & _ & _ & C & _). rewrite cdist_sym.
    apply cdist_ext; apply sorted_row_ext; intros; apply C; auto.
  Qed.

  Lemma write_back sz' : length sz' = n ->
    exists l', fold_res (fun i l => k <- get old i ;; s <- get l k ;; r <- get sz' i ;; set l k (with_radius s r)) (seq 0 n) l = Ok l'
      /\ length l' = n /\ forall i, (i < n)%nat -> nth (o i) l' [] = with_radius (nth (o i) l []) (nth i sz' 0).
  Proof.
    intros Hl.
    destruct (@fold_res_inv _ _ (fun pre (st : list (list R)) => length st = n
        /\ forall i, (i < n)%nat -> nth (o i) st [] = if (i <? length pre)%nat then with_radius (nth (o i) l []) (nth i sz' 0) else nth (o i) l [])
      (fun i l => k <- get old i ;; s <- get l k ;; r <- get sz' i ;; set l k (with_radius s r)) (seq 0 n) l) as (l' & E & E1 & E2).
    - split; auto.
    - intros pre i post st Epre (S1 & S2).
      assert (Ei : i = length pre /\ (i < n)%nat).
      { assert (nth_error (seq 0 n) (length pre) = Some i) by (rewrite Epre, nth_error_app2, Nat.sub_diag; auto).
        assert (length pre < n)%nat. { rewrite <- (seq_length n 0), Epre, app_length. cbn. lia. }
        rewrite nth_error_nth' with (d := 0%nat) in H by (rewrite seq_length; auto). rewrite seq_nth in H by auto.
        injection H as <-. lia. }
      destruct Ei as (Ei & Hi). destruct (o_lt Hi) as (Ho & Eo). rewrite Eo. cbn [bind].
      rewrite (get_nth _ []) by lia. cbn [bind]. rewrite (get_nth _ 0) by lia. cbn [bind]. rewrite set_Ok by lia.
      eexists. split; [reflexivity|]. split; [rewrite upd_length; auto|].
      intros k Hk. rewrite nth_upd by lia. rewrite app_length. cbn [length].
      destruct (Nat.eqb_spec (o k) (o i)) as [Eq|Hne].
      + apply o_inj in Eq; auto. subst k. rewrite S2 by auto.
        destruct (Nat.ltb_spec i (length pre)); [lia|]. destruct (Nat.ltb_spec i (length pre + 1)); [|lia]. reflexivity.
      + assert (k <> i) by congruence. rewrite S2 by auto.
        destruct (Nat.ltb_spec k (length pre)); destruct (Nat.ltb_spec k (length pre + 1)); auto; lia.
    - exists l'. split; auto. split; auto. intros i Hi. rewrite E2, seq_length by auto.
      apply Nat.ltb_lt in Hi. rewrite Hi. reflexivity.
  Qed.

  Lemma nbrs_exist : exists nbrs,
    mapr (fun i => r <- get sz0 i ;; flat_in_sphere 3 sorted n (lf, rt) root (sorted_row sorted i) (n2 * r)%num) (seq 0 n) = Ok nbrs
    /\ length nbrs = n /\ (forall m j, In m nbrs -> In j m -> (j < n)%nat)
    /\ forall i j, (i < n)%nat -> (j < n)%nat -> cdist (nth (o i) l []) (nth (o j) l []) < 2 * rad (nth (o i) l []) ->
         exists m, nth_error nbrs i = Some m /\ In j m.
  Proof.
    pose proof HI as (lf' & rt' & tr & Elk & P & Ls & C & K). injection Elk as <- <-.
    assert (G : forall i, (i < n)%nat -> exists out, flat_in_sphere 3 sorted n (lf, rt) root (sorted_row sorted i) (n2 * nth i sz0 0)%num = Ok out
      /\ (forall j, In j out -> (j < n)%nat)
      /\ forall j, (j < n)%nat -> cdist (nth (o i) l []) (nth (o j) l []) < 2 * rad (nth (o i) l []) -> In j out).
    { intros i Hi. rewrite sz0_nth by auto.
      destruct (@flat_in_sphere_ok 3 n sorted ltac:(lia) ltac:(unfold n; lia) lf rt root tr K (sorted_row sorted i) (2 * rad (nth (o i) l []))
        ltac:(cbn; lia)) as (out & E & (out' & Eo & _ & Hin & _ & Hm)). cbn [app] in Eo. subst out'.
      exists out. split; [exact E|]. split.
      - intros j Hj. apply Hin, in_seq in Hj. lia.
      - intros j Hj Hd. apply Hm; auto; [apply in_seq; lia|].
        erewrite edist_cdist with (y := nth (o j) l []) by (intros; apply C; auto).
        erewrite cdist_ext; [exact Hd| |]; auto. apply sorted_row_ext. intros; apply C; auto. }
    assert (G' : forall k lo, (lo + k <= n)%nat -> exists nbrs,
      mapr (fun i => r <- get sz0 i ;; flat_in_sphere 3 sorted n (lf, rt) root (sorted_row sorted i) (n2 * r)%num) (seq lo k) = Ok nbrs
      /\ length nbrs = k /\ (forall m j, In m nbrs -> In j m -> (j < n)%nat)
      /\ forall i j, (i < k)%nat -> (j < n)%nat -> cdist (nth (o (lo + i)) l []) (nth (o j) l []) < 2 * rad (nth (o (lo + i)) l []) ->
           exists m, nth_error nbrs i = Some m /\ In j m).
    { induction k as [|k IH]; intros lo Hk.
      - exists []. split; [reflexivity|]. split; [reflexivity|]. split; [intros m j []|intros; lia].
      - cbn [seq mapr]. rewrite (get_nth _ 0) by (unfold sz0; rewrite map_length, seq_length; lia). cbn [bind].
        destruct (G lo ltac:(lia)) as (out & E & O1 & O2). rewrite E. cbn [bind].
        destruct (IH (S lo) ltac:(lia)) as (r & Er & R1 & R2 & R3). rewrite Er. cbn [bind].
        exists (out :: r). split; [reflexivity|]. split; [cbn; lia|]. split.
        + intros m j [<-|Hm] Hj; eauto.
        + intros [|i] j Hi Hj Hd.
          * exists out. split; auto. apply O2; auto. now rewrite Nat.add_0_r in Hd.
          * cbn [nth_error]. apply R3; auto; [lia|]. now replace (S lo + i)%nat with (lo + S i)%nat by lia. }
    destruct (G' n 0%nat ltac:(lia)) as (nbrs & H1 & H2 & H3 & H4). exists nbrs. auto.
  Qed.

  Lemma smoothed_of sz' l' nbrs : length nbrs = n ->
    (forall i j, (i < n)%nat -> (j < n)%nat -> cdist (nth (o i) l []) (nth (o j) l []) < 2 * rad (nth (o i) l []) ->
         exists m, nth_error nbrs i = Some m /\ In j m) ->
    settled L n sorted nbrs sz0 sz' -> length l' = n ->
    (forall i, (i < n)%nat -> nth (o i) l' [] = with_radius (nth (o i) l []) (nth i sz' 0)) -> smoothed L l l'.
  Proof.
    intros Hnb Hcov ((S1 & S2 & S3) & S4) Hl' W.
    assert (Sur : forall k, (k < n)%nat -> exists i, (i < n)%nat /\ o i = k).
    { intros k Hk. apply (indexes_surj HI). auto. }
    assert (R : forall i, (i < n)%nat -> rad (nth (o i) l' []) = nth i sz' 0) by (intros i Hi; rewrite W by auto; reflexivity).
    split; [|split; [|split]].
    - split; auto. intros k Hk. destruct (Sur k Hk) as (i & Hi & <-). split; [rewrite W by auto; reflexivity|]. split.
      + intros d Hd. rewrite W by auto. destruct d as [|[|[|d]]]; try lia; reflexivity.
      + rewrite R by auto. rewrite <- sz0_nth by auto. apply S2. auto.
    - apply Forall_forall. intros s Hin. apply In_nth with (d := []) in Hin. destruct Hin as (k & Hk & <-).
      destruct (Sur k ltac:(lia)) as (i & Hi & <-). split; [rewrite W by auto; reflexivity|]. rewrite R by auto. apply S2; auto.
    - intros a b Ha Hb Hd. destruct (Sur a Ha) as (i & Hi & <-). destruct (Sur b Hb) as (j & Hj & <-).
      rewrite !R by auto. destruct (Hcov i j Hi Hj Hd) as (m & Em & Hm). rewrite <- D_nth by auto. apply (S4 i j m); auto.
    - intros g G1 G2 a Ha. destruct (Sur a Ha) as (i & Hi & <-). rewrite R by auto.
      apply (S3 (fun i => g (o i))); auto.
      + intros k Hk. rewrite sz0_nth by auto. apply G1. apply o_lt; auto.
      + intros k j Hk Hj. rewrite D_nth by auto. apply G2; apply o_lt; auto.
  Qed.

  Lemma sz0_state : lstate L n sorted sz0 sz0.
  Proof.
    split; [unfold sz0; rewrite map_length, seq_length; auto|]. split; [|auto].
    intros i Hi. split; [|lra]. rewrite sz0_nth by auto. rewrite Forall_forall in Hs. apply Hs, nth_In. apply o_lt; auto.
  Qed.
  Lemma sz0_pos i : (i < n)%nat -> 0 <= nth i sz0 0.
  Proof. intros Hi. apply sz0_state; auto. Qed.
  Lemma sizes_read : mapr (fun i => k <- get old i ;; s <- get l k ;; Ok (gv s 3%nat)) (seq 0 n) = Ok sz0.
  Proof.
    apply mapr_ok. intros i Hi. apply in_seq in Hi. destruct (@o_lt i ltac:(lia)) as (Ho & Eo). rewrite Eo. cbn [bind].
    rewrite (get_nth _ []) by auto. reflexivity.
  Qed.

  Lemma lip_seeds_total : exists m, forall fuel, (m <= fuel)%nat -> exists l',
    lip_seeds fuel L ((lf, rt), root, old, sorted) l = Ok l'.
  Proof.
    destruct nbrs_exist as (nbrs & E & Hnb & Hin & Hcov).
    assert (He : 0 < 1 / 10 ^ 10) by (apply Rdiv_lt_0_compat; [lra|apply pow_lt; lra]).
    destruct (above_nat (rsum sz0 / (1 / 10 ^ 10))) as (m & Hm).
    exists (S m). intros fuel Hf. unfold lip_seeds. fold n. rewrite sizes_read. cbn [bind].
    unfold mesher_lipschitz. rewrite E. cbn [bind].
    destruct (@lip_passes_ok L n sorted nbrs sz0 HL (proj1 sz0_state) Hnb Hin sz0_pos m sz0 sz0_state) with (fuel := fuel) as (sz' & E' & S'); [|lia|].
    { apply Rlt_le. apply (Rmult_lt_compat_r (1 / 10 ^ 10)) in Hm; auto.
      replace (rsum sz0 / (1 / 10 ^ 10) * (1 / 10 ^ 10)) with (rsum sz0) in Hm; auto.
      unfold Rdiv at 1. rewrite Rmult_assoc, Rinv_l, Rmult_1_r by lra. reflexivity. }
    rewrite E'. cbn [bind]. destruct (@write_back sz') as (l' & El & _). { apply S'. } eauto.
  Qed.
  Lemma lip_seeds_smoothed fuel l' : lip_seeds fuel L ((lf, rt), root, old, sorted) l = Ok l' -> smoothed L l l'.
  Proof.
    destruct nbrs_exist as (nbrs & E & Hnb & Hin & Hcov).
    unfold lip_seeds. fold n. rewrite sizes_read. cbn [bind]. unfold mesher_lipschitz. rewrite E. cbn [bind].
    intros H. apply bind_Ok_inv in H. destruct H as (sz' & E1 & E2).
    assert (S' : settled L n sorted nbrs sz0 sz').
    { exact (@lip_passes_Ok L n sorted nbrs sz0 HL (proj1 sz0_state) Hnb Hin sz0_pos fuel sz0 sz' sz0_state E1). }
    destruct (@write_back sz') as (l1 & El & Hl & W). { apply S'. }
    assert (l1 = l') by congruence. subst l1. eapply smoothed_of; eauto.
  Qed.
End LipSeeds.

Lemma lip_seeds_ok L l t : 0 <= L -> indexes l t -> Forall sphere l ->
  exists m, forall fuel, (m <= fuel)%nat -> exists l', lip_seeds fuel L t l = Ok l' /\ smoothed L l l'.
Proof.
  destruct t as [[[[lf rt] root] old] sorted]. intros HL HI Hs.
  destruct (@lip_seeds_total L l lf rt root old sorted HL HI Hs) as (m & H). exists m. intros fuel Hf.
  destruct (H fuel Hf) as (l' & E). exists l'. split; auto.
  apply (@lip_seeds_smoothed L l lf rt root old sorted HL HI Hs fuel l' E).
Qed.
Lemma lip_seeds_Ok L l t fuel l' : 0 <= L -> indexes l t -> Forall sphere l -> lip_seeds fuel L t l = Ok l' -> smoothed L l l'.
Proof.
  destruct t as [[[[lf rt] root] old] sorted]. intros HL HI Hs E.
  apply (@lip_seeds_smoothed L l lf rt root old sorted HL HI Hs fuel l' E).
Qed.
