(** Proofs about the queries of MeshingSmartTree and of the mesher's kd-tree
    (SmartTree.v). *)
From Verif Require Import Base Num MemoryHandler KdTree SamplingSpec SamplingProofs Vec KdSpec
  KdTreeProofs KdBuildProofs KdQueryProofs KdSpokeProofs KdReenumProofs SmartTree SmartTreeSpec SmartTreeProofs.
From Coq Require Import Reals Lra.
Local Open Scope R_scope.

Lemma kd_sub (P : nat -> nat -> R) nd n lf rt root t :
  kd_tree Rltb P nd n lf rt root t ->
  exists l r, t = Node root l r /\ sub P nd n lf rt t 0 /\ (height t <= S n)%nat /\ (root < n)%nat
    /\ (forall x, In x (elements t) <-> In x (seq 0 n)).
Proof.
  intros (L1 & L2 & (l & r & ->) & Rep & Perm & Ord). exists l, r. split; auto.
  assert (Hin : forall x, In x (elements (Node root l r)) <-> In x (seq 0 n)).
  { intros x. split; apply Permutation_in; [|symmetry]; exact Perm. }
  split; [|split; [|split; [|exact Hin]]].
  - split; auto.
    + eapply Permutation_NoDup; [symmetry; exact Perm|apply seq_NoDup].
    + intros j Hj. apply Hin, in_seq in Hj. lia.
  - pose proof (height_elements (Node root l r)) as H. rewrite (Permutation_length Perm), seq_length in H. lia.
  - specialize (Hin root). assert (In root (seq 0 n)) by (apply Hin; left; auto). apply in_seq in H. lia.
Qed.

Lemma nearest_iff D (e e' : nat -> Prop) S a b : (forall j, In j S -> e j <-> e' j) ->
  nearest D e S a b -> nearest D e' S a b.
Proof.
  intros H [(-> & H1)|(i & Hi & He & -> & Hl & Hm)].
  - left. split; auto. intros j Hj Hj'. apply H1; auto. apply H; auto.
  - right. exists i. split; auto. split; [apply H; auto|]. split; auto. split; auto.
    intros j Hj Hj'. apply Hm; auto. apply H; auto.
Qed.

Lemma collects_iff (e e' ins must : nat -> Prop) S S' acc out :
  (forall j, In j S -> e j <-> e' j) -> (forall j, In j S <-> In j S') ->
  collects e ins must S acc out -> collects e' ins must S' acc out.
Proof.
  intros He HS (l & -> & N & I & H1 & H2). exists l. split; auto. split; auto. split.
  - intros j Hj. apply HS, I, Hj.
  - split.
    + intros j Hj. destruct (H1 j Hj). split; auto. apply He; auto.
    + intros j Hj Hj' Hm. apply H2; auto. apply HS; auto. apply He; auto. apply HS; auto.
Qed.

(** The searches over a whole tree, for any storage of the coordinates. *)
Section Whole.
  Variable P : nat -> nat -> R.
  Variables (nd n : nat).
  Hypothesis nd_pos : (0 < nd)%nat.
  Variable crd : nat -> nat -> res R.
  Hypothesis crd_ok : forall i d, (i < n)%nat -> (d < nd)%nat -> crd i d = Ok (P i d).
  Variables (lf rt : list nat) (root : nat) (t : tree).
  Hypothesis K : kd_tree Rltb P nd n lf rt root t.
  Variable x : list R.
  Hypothesis Hx : (nd <= length x)%nat.
  Variable elig : nat -> res bool.
  Variable e : nat -> bool.
  Hypothesis elig_ok : forall i, (i < n)%nat -> elig i = Ok (e i).

  Lemma nn_whole best : 0 <= snd best ->
    exists b, nn crd nd (lf, rt) (S n) elig x 0 root best = Ok b
      /\ nearest (edist nd P x) (fun j => e j = true) (seq 0 n) best b.
  Proof.
    intros Hb. destruct (kd_sub K) as (l & r & -> & Hs & Hh & _ & Hin).
    destruct (@nn_ok P nd nd_pos crd n crd_ok lf rt x Hx elig e elig_ok (S n) 0 0 root l r best)
      as (b & E & N & _); auto; try (eapply dim_at_0; eauto).
    exists b. split; [exact E|]. eapply nearest_perm; [exact Hin|exact N].
  Qed.
  Lemma nn2_whole best :
    exists b, nn2 crd nd (lf, rt) (S n) elig x 0 root best = Ok b
      /\ nearest (edist nd P x) (fun j => e j = true) (seq 0 n) best b.
  Proof.
    destruct (kd_sub K) as (l & r & -> & Hs & Hh & _ & Hin).
    destruct (@nn2_ok P nd nd_pos crd n crd_ok lf rt x Hx elig e elig_ok (S n) 0 0 root l r best)
      as (b & E & N); auto; try (eapply dim_at_0; eauto).
    exists b. split; [exact E|]. eapply nearest_perm; [exact Hin|exact N].
  Qed.
  Lemma in_sphere_whole accept r acc :
    (forall j, (j < n)%nat -> edist nd P x j < r -> sqdist nd P x j < accept) ->
    exists out, in_sphere crd nd (lf, rt) (S n) elig accept x r 0 root acc = Ok out
      /\ collects (fun j => e j = true) (fun j => sqdist nd P x j < accept) (fun j => edist nd P x j < r)
           (seq 0 n) acc out.
  Proof.
    intros Ha. destruct (kd_sub K) as (l & r' & -> & Hs & Hh & _ & Hin).
    destruct (@in_sphere_ok P nd nd_pos crd n crd_ok lf rt x Hx elig e elig_ok (S n) accept r 0 0 root l r' acc)
      as (b & E & N); auto; try (eapply dim_at_0; eauto).
    exists b. split; [exact E|]. eapply collects_iff; [|exact Hin|exact N]. tauto.
  Qed.
End Whole.

Lemma sphere_bound_R (r : R) : sphere_bound r = (1 + 2 / 10 ^ 6) * r * r.
Proof. unfold sphere_bound, nlit, n1. cbn [nadd nmul ndiv nofZ RNum]. replace (IZR (10 ^ 6)) with (10 ^ 6) by (simpl; lra). reflexivity. Qed.

Lemma sphere_bound_covers nd P x (r : R) j : edist nd P x j < r -> sqdist nd P x j < sphere_bound r.
Proof.
  intros H. pose proof (dist_nonneg nd P x j). rewrite <- dist_sq, sphere_bound_R.
  assert (0 < r) by lra. set (D := edist nd P x j) in *. assert (D * D < r * r) by nra. nra.
Qed.

Section Object.
  Variable s : stree R.
  Hypothesis Hs : ready s.
  Let nd := st_nd s.
  Let n := length (st_pts s).

  Lemma ready_kd : exists t, kd_tree Rltb (coord (st_pts s)) nd n (fst (st_lk s)) (snd (st_lk s)) (st_org s) t.
  Proof. destruct Hs as (_ & _ & _ & t & K & _). exists t. exact K. Qed.
  Lemma ready_n : (0 < n)%nat.
  Proof. destruct Hs as (_ & H & _). unfold n. destruct (st_pts s); simpl; [congruence|lia]. Qed.
  Lemma ready_crd i d : (i < n)%nat -> (d < nd)%nat -> row_crd (st_pts s) i d = Ok (coord (st_pts s) i d).
  Proof. destruct Hs as (_ & _ & H & _). intros. apply row_crd_ok with nd; auto. Qed.

  Lemma closest_filtered_ok elig e x d0 : (nd <= length x)%nat -> 0 <= d0 ->
    (forall i, (i < n)%nat -> elig i = Ok (e i)) ->
    exists b, closest_filtered s elig x d0 = Ok b
      /\ nearest (dist_to s x) (fun j => e j = true) (all_points s) (n, d0) b.
  Proof.
    intros Hx Hd He. destruct ready_kd as (t & K). unfold closest_filtered, st_n.
    destruct (st_lk s) as [lf rt] eqn:El. cbn [fst snd] in K.
    apply (@nn_whole (coord (st_pts s)) nd n (proj1 Hs) (row_crd (st_pts s)) ready_crd lf rt (st_org s) t K x Hx elig e He (n, d0) Hd).
  Qed.

  Lemma closest_ok marked x d0 : (nd <= length x)%nat -> 0 <= d0 ->
    exists b, closest s marked x d0 = Ok (0%nat, b)
      /\ nearest (dist_to s x) (fun j => marked j = true) (all_points s) (n, d0) b.
  Proof.
    intros Hx Hd. unfold closest, st_n. pose proof ready_n as Hn. unfold n in Hn.
    destruct (length (st_pts s) =? 0)%nat eqn:E; [apply Nat.eqb_eq in E; lia|].
    destruct (@closest_filtered_ok (fun i => Ok (marked i)) marked x d0 Hx Hd) as (b & Eb & Nb); auto.
    unfold closest_filtered, st_n in Eb. rewrite Eb. cbn [bind]. exists b. auto.
  Qed.

  Lemma closest_to_ok marked q d0 : (q < n)%nat -> 0 <= d0 ->
    exists b, closest_to s marked q d0 = Ok b
      /\ nearest (dist_to s (nth q (st_pts s) [])) (fun j => marked j = true /\ j <> q) (all_points s) (n, d0) b.
  Proof.
    intros Hq Hd. unfold closest_to. destruct (nth_error_lt (st_pts s) Hq) as [p Hp].
    rewrite (get_some Hp). cbn [bind]. rewrite (nth_error_nth _ _ [] Hp).
    destruct (@closest_filtered_ok (fun i => Ok (marked i && negb (q =? i)%nat)) (fun i => marked i && negb (q =? i)%nat) p d0)
      as (b & Eb & Nb); auto.
    { destruct Hs as (_ & _ & H & _). exact (H p (nth_error_In _ _ Hp)). }
    exists b. split; [exact Eb|]. eapply nearest_iff; [|exact Nb]. intros j _. cbv beta.
    rewrite andb_true_iff, negb_true_iff, Nat.eqb_neq. intuition congruence.
  Qed.

  Lemma existsb_in j l : existsb (Nat.eqb j) l = true <-> In j l.
  Proof.
    rewrite existsb_exists. split; [intros (y & Hy & E); apply Nat.eqb_eq in E; now subst|].
    intros. exists j. split; auto. apply Nat.eqb_refl.
  Qed.

  Lemma closest_except_ok marked ex x d0 : (nd <= length x)%nat -> 0 <= d0 ->
    exists b, closest_except s marked ex x d0 = Ok b
      /\ nearest (dist_to s x) (fun j => marked j = true /\ ~ In j ex) (all_points s) (n, d0) b.
  Proof.
    intros Hx Hd.
    destruct (@closest_filtered_ok (fun i => Ok (marked i && negb (existsb (Nat.eqb i) ex)))
      (fun i => marked i && negb (existsb (Nat.eqb i) ex)) x d0) as (b & Eb & Nb); auto.
    exists b. split; [exact Eb|]. eapply nearest_iff; [|exact Nb]. intros j _. cbv beta.
    rewrite andb_true_iff, negb_true_iff. rewrite <- existsb_in. destruct (existsb _ ex); intuition congruence.
  Qed.

  Lemma closest_upto_ok m x d0 : (nd <= length x)%nat -> 0 <= d0 ->
    exists b, closest_upto s m x d0 = Ok b
      /\ nearest (dist_to s x) (fun j => (j <= m)%nat) (all_points s) (n, d0) b.
  Proof.
    intros Hx Hd.
    destruct (@closest_filtered_ok (fun i => Ok (i <=? m)%nat) (fun i => (i <=? m)%nat) x d0) as (b & Eb & Nb); auto.
    exists b. split; [exact Eb|]. eapply nearest_iff; [|exact Nb]. intros j _. apply Nat.leb_le.
  Qed.

  Lemma points_in_sphere_ok marked x r : (nd <= length x)%nat ->
    exists out, points_in_sphere s marked x r = Ok out
      /\ collects (fun j => marked j = true) (fun j => sqdist nd (coord (st_pts s)) x j < (1 + 2 / 10 ^ 6) * r * r)
           (fun j => dist_to s x j < r) (all_points s) [] out.
  Proof.
    intros Hx. destruct ready_kd as (t & K). unfold points_in_sphere, st_n.
    destruct (st_lk s) as [lf rt] eqn:El. cbn [fst snd] in K. rewrite <- sphere_bound_R.
    apply (@in_sphere_whole (coord (st_pts s)) nd n (proj1 Hs) (row_crd (st_pts s)) ready_crd lf rt (st_org s) t K x Hx
      (fun i => Ok (marked i)) marked); auto.
    intros j _. apply sphere_bound_covers.
  Qed.

  Lemma points_in_sphere_upto_ok m x r : (nd <= length x)%nat -> 
    exists out, points_in_sphere_upto s m x r = Ok out
      /\ collects (fun j => (j <= m)%nat) (fun j => sqdist nd (coord (st_pts s)) x j < r * r + 1 / 10 ^ 6)
           (fun j => dist_to s x j < r) (all_points s) [] out.
  Proof.
    intros Hx. destruct ready_kd as (t & K). unfold points_in_sphere_upto, st_n.
    destruct (st_lk s) as [lf rt] eqn:El. cbn [fst snd] in K.
    assert (En : (nadd (nmul r r) (nlit 1 6)) = r * r + 1 / 10 ^ 6).
    { unfold nlit. cbn [nadd nmul ndiv nofZ RNum]. f_equal. f_equal. simpl. lra. }
    rewrite En.
    destruct (@in_sphere_whole (coord (st_pts s)) nd n (proj1 Hs) (row_crd (st_pts s)) ready_crd lf rt (st_org s) t K x Hx
      (fun i => Ok (i <=? m)%nat) (fun i => (i <=? m)%nat)) with (accept := r * r + 1 / 10 ^ 6) (r := r) (acc := @nil nat)
      as (out & E & C); auto.
    { intros j _ Hj. pose proof (dist_nonneg nd (coord (st_pts s)) x j).
      rewrite <- dist_sq. assert (0 < 1 / 10 ^ 6) by (apply Rdiv_lt_0_compat; [lra|apply pow_lt; lra]). nra. }
    exists out. split; [exact E|]. eapply collects_iff; [|reflexivity|exact C]. intros j _. apply Nat.leb_le.
  Qed.

  (** The smoothness filters compute what they say. *)
  Variable nrm : list (list R).
  Hypothesis Hnrm : st_nrm s = Some nrm.
  Hypothesis Lnrm : length nrm = n.
  Hypothesis Rnrm : forall v, In v nrm -> (nd <= length v)%nat.

  Lemma getv' (x : list R) d : (nd <= length x)%nat -> (d < nd)%nat -> get x d = Ok (vec x d).
  Proof.
    intros Hx Hd. destruct (nth_error_lt x (i:=d)) as [a Ha]; [lia|].
    rewrite (get_some Ha). unfold vec. now rewrite (nth_error_nth x d 0 Ha).
  Qed.

  Lemma sums_to_ok v x i : (i < n)%nat -> (nd <= length x)%nat -> (nd <= length v)%nat ->
    sums_to s v x i = Ok (Vec.dot nd (offset s x i) (vec v), Vec.dot nd (offset s x i) (offset s x i)).
  Proof.
    intros Hi Hx Hv. unfold sums_to. fold nd.
    assert (G : forall m k a, (k + m = nd)%nat ->
      dir_sums s v x i k m a
      = Ok (fst a + rsum (map (fun k => offset s x i k * vec v k) (seq k m)),
            snd a + rsum (map (fun k => offset s x i k * offset s x i k) (seq k m)))).
    { induction m as [|m IH]; intros k a Hk; cbn [dir_sums].
      - simpl. rewrite rsum_nil. destruct a as [a1 a2]. simpl. f_equal. f_equal; lra.
      - rewrite (@getv' x), (@getv' v) by (auto; lia). cbn [bind]. rewrite ready_crd by (auto; lia). cbn [bind].
        rewrite IH by lia. simpl map. rewrite !rsum_cons. cbn. unfold offset. f_equal. f_equal; lra. }
    rewrite G by lia. unfold n0. cbn [fst snd nofZ RNum].
    f_equal. f_equal; unfold dot, sumn; lra.
  Qed.

  Lemma normal_of_ok i : (i < n)%nat -> normal_of s i = Ok (nth i nrm []) /\ (nd <= length (nth i nrm []))%nat.
  Proof.
    intros Hi. unfold normal_of. rewrite Hnrm. destruct (nth_error_lt nrm (i:=i)) as [v Hv]; [lia|].
    rewrite (get_some Hv), (nth_error_nth _ _ [] Hv). split; auto. apply Rnrm. eapply nth_error_In; eauto.
  Qed.

  Lemma sin_of_R u v : sin_of (Vec.dot nd u v) (Vec.norm nd u) = sine nd u v.
  Proof. reflexivity. Qed.


  Lemma closest_nonsmooth_ok x tol thr d0 : (nd <= length x)%nat -> 0 <= d0 ->
    exists b, closest_nonsmooth s x tol thr d0 = Ok b
      /\ nearest (dist_to s x) (fun j => ~ smooth_from s nrm x tol thr j) (all_points s) (n, d0) b.
  Proof.
    intros Hx Hd. unfold closest_nonsmooth.
    set (N := fun i => Vec.norm nd (offset s x i)).
    set (S := fun i => sine nd (offset s x i) (normal_at nrm i)).
    set (e := fun i => negb (Rltb thr (if Rltb tol (N i) then S i else 1))).
    destruct (@closest_filtered_ok (nonsmooth s x tol thr) e x d0 Hx Hd) as (b & Eb & Nb).
    { intros i Hi. destruct (normal_of_ok Hi) as [E L]. unfold nonsmooth. rewrite E. cbn [bind].
      rewrite sums_to_ok by auto. cbn [bind]. reflexivity. }
    exists b. split; [exact Eb|]. eapply nearest_iff; [|exact Nb]. intros j _. unfold e, smooth_from.
    fold nd. change (Vec.norm nd (offset s x j)) with (N j). change (sine nd (offset s x j) (normal_at nrm j)) with (S j).
    rewrite negb_true_iff, Rltb_false. rcase; intuition lra.
  Qed.

  Lemma closest_nonsmooth_edge_ok x tol thr d0 : (nd <= length x)%nat -> 0 <= d0 ->
    exists b, closest_nonsmooth_edge s x tol thr d0 = Ok b
      /\ nearest (dist_to s x) (fun j => ~ smooth_edge s nrm x tol thr j) (all_points s) (n, d0) b.
  Proof.
    intros Hx Hd. unfold closest_nonsmooth_edge.
    set (N := fun i => Vec.norm nd (offset s x i)).
    set (S := fun i => Rabs (cosine nd (offset s x i) (normal_at nrm i))).
    set (e := fun i => negb (Rltb thr (if Rltb tol (N i) then S i else 1))).
    destruct (@closest_filtered_ok (nonsmooth_edge s x tol thr) e x d0 Hx Hd) as (b & Eb & Nb).
    { intros i Hi. destruct (normal_of_ok Hi) as [E L]. unfold nonsmooth_edge. rewrite E. cbn [bind].
      rewrite sums_to_ok by auto. cbn [bind]. reflexivity. }
    exists b. split; [exact Eb|]. eapply nearest_iff; [|exact Nb]. intros j _. unfold e, smooth_edge.
    fold nd. change (Vec.norm nd (offset s x j)) with (N j). change (Rabs (cosine nd (offset s x j) (normal_at nrm j))) with (S j).
    rewrite negb_true_iff, Rltb_false. rcase; intuition lra.
  Qed.

  Lemma nlit10_R : (nlit 1 10 : R) = 1 / 10 ^ 10.
  Proof. unfold nlit. cbn [ndiv nofZ RNum]. f_equal. simpl. lra. Qed.

  Lemma closest_nonsmooth_normal_ok x xn thr d0 : (nd <= length x)%nat -> (nd <= length xn)%nat -> 0 <= d0 ->
    exists b, closest_nonsmooth_normal s x xn thr d0 = Ok b
      /\ nearest (dist_to s x) (fun j => ~ smooth_both s nrm x xn thr j) (all_points s) (n, d0) b.
  Proof.
    intros Hx Hxn Hd. unfold closest_nonsmooth_normal.
    set (N := fun i => Vec.norm nd (offset s x i)).
    set (S := fun i => sine nd (offset s x i) (normal_at nrm i)).
    set (T := fun i => sine nd (offset s x i) (vec xn)).
    set (e := fun i => negb (if Rltb (1 / 10 ^ 10) (N i) then Rltb thr (S i) && Rltb thr (T i) else true)).
    destruct (@closest_filtered_ok (nonsmooth_normal s x xn thr) e x d0 Hx Hd) as (b & Eb & Nb).
    { intros i Hi. destruct (normal_of_ok Hi) as [E L]. unfold nonsmooth_normal. rewrite E. cbn [bind].
      rewrite !sums_to_ok by auto. cbn [bind]. rewrite nlit10_R. reflexivity. }
    exists b. split; [exact Eb|]. eapply nearest_iff; [|exact Nb]. intros j _. unfold e, smooth_both.
    fold nd. change (Vec.norm nd (offset s x j)) with (N j). change (sine nd (offset s x j) (normal_at nrm j)) with (S j).
    change (sine nd (offset s x j) (vec xn)) with (T j).
    rewrite negb_true_iff. rcase.
    - rewrite andb_false_iff, !Rltb_false. intuition lra.
    - intuition (try lra; try congruence).
  Qed.

  Lemma vdot_ok a b : (nd <= length a)%nat -> (nd <= length b)%nat ->
    vdot a b 0 nd n0 = Ok (Vec.dot nd (vec a) (vec b)).
  Proof.
    intros Ha Hb.
    assert (G : forall m k s, (k + m = nd)%nat ->
      vdot a b k m s = Ok (s + rsum (map (fun k => vec a k * vec b k) (seq k m)))).
    { induction m as [|m IH]; intros k u Hk; cbn [vdot].
      - simpl. rewrite rsum_nil. f_equal. lra.
      - rewrite (@getv' a), (@getv' b) by (auto; lia). cbn [bind]. rewrite IH by lia. simpl map.
        rewrite !rsum_cons. cbn. f_equal. lra. }
    rewrite G by lia. unfold n0. cbn [nofZ RNum]. f_equal. unfold dot, sumn. lra.
  Qed.

  Lemma closest_nonsmooth_normals_ok x ns thr d0 : (nd <= length x)%nat -> (forall u, In u ns -> (nd <= length u)%nat) -> 0 <= d0 ->
    exists b, closest_nonsmooth_normals s x ns thr d0 = Ok b
      /\ nearest (dist_to s x) (fun j => ~ smooth_some s nrm x ns thr j) (all_points s) (n, d0) b.
  Proof.
    intros Hx Hns Hd. unfold closest_nonsmooth_normals.
    set (Q := fun i => Vec.dot nd (offset s x i) (offset s x i)).
    set (S := fun i => sine nd (offset s x i) (normal_at nrm i)).
    set (A := fun i => existsb (fun u => Rltb thr (Rabs (Vec.dot nd (vec u) (normal_at nrm i)))) ns).
    set (e := fun i => if Rltb thr (if Rltb (1 / 10 ^ 10) (Q i) then S i else 1) then negb (A i) else true).
    destruct (@closest_filtered_ok (nonsmooth_normals s x ns thr) e x d0 Hx Hd) as (b & Eb & Nb).
    { intros i Hi. destruct (normal_of_ok Hi) as [E L]. unfold nonsmooth_normals. rewrite E. cbn [bind].
      rewrite !sums_to_ok by auto. cbn [bind]. rewrite nlit10_R.
      assert (Hal : some_aligned (st_nd s) thr (nth i nrm []) ns = Ok (A i)).
      { unfold A. generalize Hns. generalize ns as l. induction l as [|u l IH]; intros Hl; simpl; auto.
        fold nd. rewrite vdot_ok by (auto; apply Hl; left; auto). cbn [bind].
        change (nabs (Vec.dot nd (vec u) (vec (nth i nrm [])))) with (Rabs (Vec.dot nd (vec u) (normal_at nrm i))).
        change (@nltb R RNum) with Rltb. destruct (Rltb _ _); auto. apply IH. intros; apply Hl; right; auto. }
      rewrite Hal. cbn [bind]. unfold e.
      change (nltb (1 / 10 ^ 10) (Vec.dot nd (offset s x i) (offset s x i))) with (Rltb (1 / 10 ^ 10) (Q i)).
      destruct (Rltb (1 / 10 ^ 10) (Q i)); cbn [nltb RNum];
        [change (sin_of _ _) with (S i)|change (@n1 R RNum) with 1]; destruct (Rltb _ _); reflexivity. }
    exists b. split; [exact Eb|]. eapply nearest_iff; [|exact Nb]. intros j _. unfold e, smooth_some.
    fold nd. change (Vec.dot nd (offset s x j) (offset s x j)) with (Q j).
    change (sine nd (offset s x j) (normal_at nrm j)) with (S j).
    assert (HA : A j = true <-> exists u, In u ns /\ thr < Rabs (Vec.dot nd (vec u) (normal_at nrm j))).
    { unfold A. rewrite existsb_exists. split; intros (u & Hu & Hl); exists u; (split; [auto|]); now apply Rltb_true. }
    rewrite <- HA. destruct (Rltb (1 / 10 ^ 10) (Q j)) eqn:F; [apply Rltb_true in F|apply Rltb_false in F];
      rcase; destruct (A j); cbn [negb]; intuition (try lra; try congruence).
  Qed.
End Object.
