(** trim_spoke of MeshingSmartTree and the kd-tree of the mesher (SmartTree.v). *)
From Verif Require Import Base Num MemoryHandler KdTree SamplingSpec SamplingProofs Vec KdSpec
  KdTreeProofs KdBuildProofs KdQueryProofs KdSpokeProofs KdReenumProofs SmartTree SmartTreeSpec
  SmartTreeProofs SmartQueryProofs.
From Coq Require Import Reals Lra.
Local Open Scope R_scope.

Lemma get_vec nd (x : list R) d : (nd <= length x)%nat -> (d < nd)%nat -> get x d = Ok (vec x d).
Proof.
  intros Hx Hd. destruct (nth_error_lt x (i:=d)) as [a Ha]; [lia|].
  rewrite (get_some Ha). unfold vec. now rewrite (nth_error_nth x d 0 Ha).
Qed.

Lemma match_nil {A B} (l : list A) (a b : B) :
  match l with [] => a | _ :: _ => b end = if (length l =? 0)%nat then a else b.
Proof. destruct l; reflexivity. Qed.

Section Spoke.
  Variable s : stree R.
  Hypothesis Hs : ready s.
  Let nd := st_nd s.
  Let n := length (st_pts s).
  Variables c o dir : list R.
  Hypothesis Hc : (nd <= length c)%nat.
  Hypothesis Ho : (nd <= length o)%nat.
  Hypothesis Hdir : (nd <= length dir)%nat.
  Hypothesis unit_dir : norm nd (vec dir) = 1.
  Variable marked : nat -> bool.
  Variable involved : list nat.

  (** Seeds that may cut the spoke. *)
  Let E (j : nat) : Prop := (marked j = true /\ ~ In j involved) /\ heads_to nd (coord (st_pts s)) c dir j.
  Let D := cut nd (coord (st_pts s)) c o dir.

  Lemma dst_sq_vec y : (nd <= length y)%nat ->
    dst_sq (fun _ d => get c d) nd y 0 = Ok (sqdist nd (fun _ => vec c) y 0).
  Proof.
    intros Hy. apply (@dst_sq_ok (fun _ => vec c) nd (proj1 Hs) (fun _ d => get c d) 1%nat); auto.
    intros i d _ Hd. apply get_vec with nd; auto.
  Qed.

  Lemma trim_search_ok best : 0 <= snd best ->
    exists b, trim_search s marked involved c o dir (vdist nd (vec o) (vec c)) best = Ok b
      /\ nearest D E (all_points s) best b /\ 0 <= snd b.
  Proof.
    intros Hb. destruct (ready_kd Hs) as (t & K). unfold trim_search, st_n.
    destruct (st_lk s) as [lf rt] eqn:El. cbn [fst snd] in K.
    destruct (kd_sub K) as (l & r & -> & Hsub & Hh & _ & Hin).
    set (e := fun i => marked i && negb (existsb (Nat.eqb i) involved)).
    destruct (@trim_ok (coord (st_pts s)) nd (proj1 Hs) (row_crd (st_pts s)) n (ready_crd Hs) lf rt c o dir
      Hc Ho Hdir unit_dir (vdist nd (vec o) (vec c)) eq_refl (fun i => Ok (e i)) e (fun i _ => eq_refl)
      (S n) 0 0 (st_org s) l r best) as (b & Eb & Nb & Pb); auto.
    { eapply dim_at_0; [exact (proj1 Hs)|]. exact (ready_crd Hs). }
    exists b. split; [exact Eb|]. split; auto.
    eapply nearest_iff; [|eapply nearest_perm; [exact Hin|exact Nb]].
    intros j _. unfold E, e. cbv beta. rewrite andb_true_iff, negb_true_iff, <- existsb_in.
    destruct (existsb (Nat.eqb j) involved); intuition congruence.
  Qed.

  Lemma spoke_end_ok len : exists y, spoke_end o dir len 0 nd = Ok y /\ length y = nd.
  Proof.
    assert (G : forall m k, (k + m = nd)%nat -> exists y, spoke_end o dir len k m = Ok y /\ length y = m).
    { induction m as [|m IH]; intros k Hk; cbn [spoke_end]; [eauto|].
      rewrite (get_vec (nd:=nd)) by lia. cbn [bind]. rewrite (get_vec (nd:=nd)) by lia. cbn [bind].
      destruct (IH (S k)) as (y & Ey & Ly); [lia|]. rewrite Ey. cbn [bind]. eexists. split; [reflexivity|].
      simpl. lia. }
    apply G. lia.
  Qed.

  Lemma origin_dst : nsqrt (sqdist nd (fun _ => vec c) o 0) = vdist nd (vec o) (vec c).
  Proof. reflexivity. Qed.

  Lemma nearest_restart b0 b1 b2 (M : R) : snd b0 = M -> nearest D E (all_points s) b0 b1 ->
    nearest D E (all_points s) (fst b1, M) b2 -> nearest D E (all_points s) b0 b2.
  Proof.
    intros HM H1 H2. destruct H2 as [(-> & H2)|(i & Hi & He & -> & Hl & Hm)].
    - cbn [snd] in H2. destruct H1 as [(-> & H1)|(i & Hi & He & -> & Hl & Hm)].
      + left. split; auto. subst M. destruct b0; reflexivity.
      + specialize (H2 i Hi He). rewrite HM in Hl. lra.
    - right. exists i. cbn [snd] in Hl. rewrite HM. auto 10.
  Qed.

  Lemma dbl_max_pos : 0 <= (dbl_max : R).
  Proof. unfold dbl_max. cbn [nofZ RNum]. apply IZR_le. lia. Qed.

  Lemma trim_spoke_ok len nb : 0 <= len -> involved = [] \/ len = dbl_max ->
    exists b, trim_spoke s marked involved c o dir len nb = Ok b
      /\ nearest D E (all_points s) (nb, len) b.
  Proof.
    intros Hlen Hcase. unfold trim_spoke. fold nd. rewrite dst_sq_vec by auto. cbn [bind].
    rewrite origin_dst.
    destruct (@trim_search_ok (nb, len) Hlen) as (b & Eb & Nb & Pb). rewrite Eb. cbn [bind].
    rewrite match_nil. destruct (length involved =? 0)%nat eqn:Ei; [exists b; auto|].
    assert (Hm : len = dbl_max) by (destruct Hcase as [H|H]; [rewrite H in Ei; discriminate|auto]).
    destruct (spoke_end_ok (snd b)) as (y & Ey & Ly). rewrite Ey. cbn [bind].
    rewrite dst_sq_vec by lia. cbn [bind].
    destruct (@closest_ok s Hs marked y dbl_max) as ([ic hc] & Ec & _); auto using dbl_max_pos.
    { fold nd. lia. }
    rewrite Ec. cbn [bind]. destruct (_ && _); [|exists b; auto].
    destruct (@trim_search_ok (fst b, dbl_max)) as (b2 & Eb2 & Nb2 & _); [apply dbl_max_pos|].
    exists b2. split; auto. eapply nearest_restart; [|exact Nb|exact Nb2]. exact Hm.
  Qed.
End Spoke.

(** ** The mesher's kd-tree: points in one flat array *)
Section FlatTree.
  Variables (nd n : nat) (pts : list R).
  Hypothesis nd_pos : (0 < nd)%nat.
  Hypothesis Hlen : (n * nd <= length pts)%nat.

  Lemma flat_crd_ok i d : (i < n)%nat -> (d < nd)%nat -> flat_crd nd pts i d = Ok (flat_coord nd pts i d).
  Proof.
    intros Hi Hd. unfold flat_crd, flat_coord.
    destruct (nth_error_lt pts (i:=(i * nd + d)%nat)) as [a Ha]; [nia|].
    rewrite (get_some Ha). now rewrite (nth_error_nth _ _ 0 Ha).
  Qed.

  Lemma flat_build_ok : (0 < n)%nat ->
    exists lf rt root h t, flat_build nd pts n = Ok ((lf, rt), root, h)
      /\ kd_tree Rltb (flat_coord nd pts) nd n lf rt root t.
  Proof.
    intros Hn. unfold flat_build.
    destruct (@build_ok R Rltb Rltb_sw (flat_coord nd pts) nd nd_pos (flat_crd nd pts) n flat_crd_ok true Hn)
      as (lf & rt & root & h & t & E & K & _).
    exists lf, rt, root, h, t. split; auto.
  Qed.

  Variables (lf rt : list nat) (root : nat) (t : tree).
  Hypothesis K : kd_tree Rltb (flat_coord nd pts) nd n lf rt root t.

  Lemma flat_n : (n =? 0)%nat = false.
  Proof. destruct (kd_sub K) as (_ & _ & _ & _ & _ & H & _). apply Nat.eqb_neq. lia. Qed.

  Lemma flat_closest_ok x d0 : (nd <= length x)%nat ->
    exists b, flat_closest nd pts n (lf, rt) root x d0 = Ok (0%nat, b)
      /\ nearest (edist nd (flat_coord nd pts) x) (fun _ => True) (seq 0 n) (n, d0) b.
  Proof.
    intros Hx. unfold flat_closest. rewrite flat_n.
    destruct (@nn2_whole (flat_coord nd pts) nd n nd_pos (flat_crd nd pts) flat_crd_ok lf rt root t K x Hx
      (fun _ => Ok true) (fun _ => true) (fun _ _ => eq_refl) (n, d0)) as (b & E & N).
    rewrite E. cbn [bind]. exists b. split; auto. eapply nearest_iff; [|exact N]. tauto.
  Qed.

  Lemma ahead_ok x dir i : (nd <= length x)%nat -> (forall e, dir = Some e -> (nd <= length e)%nat) -> (i < n)%nat ->
    exists b, ahead nd pts x dir i = Ok b /\ (b = true <-> on_side nd pts x dir i).
  Proof.
    intros Hx He Hi. unfold ahead, on_side. destruct dir as [e|].
    - specialize (He e eq_refl).
      assert (G : forall m k a, (k + m = nd)%nat ->
        dir_dot nd pts x e i k m a = Ok (a + rsum (map (fun k => (flat_coord nd pts i k - vec x k) * vec e k) (seq k m)))).
      { induction m as [|m IH]; intros k a Hk; cbn [dir_dot].
        - simpl. rewrite rsum_nil. f_equal. lra.
        - rewrite (get_vec (nd:=nd)) by lia. cbn [bind]. rewrite flat_crd_ok by (auto; lia). cbn [bind].
          rewrite (get_vec (nd:=nd)) by lia. cbn [bind]. rewrite IH by lia. simpl map. rewrite rsum_cons. cbn. f_equal. lra. }
      rewrite G by lia. cbn [bind]. eexists. split; [reflexivity|]. unfold n0. cbn [nleb nofZ RNum].
      rewrite Rleb_true. unfold dot, sumn. split; lra.
    - eexists. split; [reflexivity|]. unfold n0. cbn [nleb nofZ RNum]. rewrite Rleb_true. split; auto. intros; lra.
  Qed.

  Lemma flat_closest_dir_ok x dir d0 : (nd <= length x)%nat -> (forall e, dir = Some e -> (nd <= length e)%nat) ->
    exists b, flat_closest_dir nd pts n (lf, rt) root x dir d0 = Ok (0%nat, b)
      /\ nearest (edist nd (flat_coord nd pts) x) (on_side nd pts x dir) (seq 0 n) (n, d0) b.
  Proof.
    intros Hx He. unfold flat_closest_dir. rewrite flat_n.
    set (e := fun i => match ahead nd pts x dir i with Ok b => b | _ => false end).
    assert (Ha : forall i, (i < n)%nat -> ahead nd pts x dir i = Ok (e i)).
    { intros i Hi. destruct (@ahead_ok x dir i Hx He Hi) as (b & E & _). unfold e. now rewrite E. }
    destruct (@nn2_whole (flat_coord nd pts) nd n nd_pos (flat_crd nd pts) flat_crd_ok lf rt root t K x Hx
      (ahead nd pts x dir) e Ha (n, d0)) as (b & E & N).
    rewrite E. cbn [bind]. exists b. split; auto. eapply nearest_iff; [|exact N].
    intros j Hj. apply in_seq in Hj. destruct (@ahead_ok x dir j Hx He) as (b' & E' & H); [lia|].
    cbv beta. unfold e. rewrite E'. exact H.
  Qed.

  Lemma flat_closest_to_ok q dir d0 : (q < n)%nat -> (forall e, dir = Some e -> (nd <= length e)%nat) ->
    exists b, flat_closest_to nd pts n (lf, rt) root q dir d0 = Ok (0%nat, b)
      /\ nearest (edist nd (flat_coord nd pts) (flat_row nd pts q)) (fun j => on_side nd pts (flat_row nd pts q) dir j /\ j <> q) (seq 0 n) (n, d0) b.
  Proof.
    intros Hq He. unfold flat_closest_to. rewrite flat_n.
    assert (G : forall m k, (k + m = nd)%nat ->
      (fix go k m := match m with O => Ok [] | S m' => a <- flat_crd nd pts q k ;; r <- go (S k) m' ;; Ok (a :: r) end) k m
      = Ok (map (flat_coord nd pts q) (seq k m))).
    { induction m as [|m IH]; intros k Hk; cbn [seq map]; auto.
      rewrite flat_crd_ok by (auto; lia). cbn [bind]. rewrite IH by lia. reflexivity. }
    rewrite G by lia. cbn [bind]. change (map (flat_coord nd pts q) (seq 0 nd)) with (flat_row nd pts q).
    assert (Hx : (nd <= length (flat_row nd pts q))%nat) by (unfold flat_row; rewrite map_length, seq_length; lia).
    set (e := fun i => match ahead nd pts (flat_row nd pts q) dir i with Ok b => b && negb (q =? i)%nat | _ => false end).
    assert (Ha : forall i, (i < n)%nat ->
      (a <- ahead nd pts (flat_row nd pts q) dir i ;; Ok (a && negb (q =? i)%nat)) = Ok (e i)).
    { intros i Hi. destruct (@ahead_ok (flat_row nd pts q) dir i Hx He Hi) as (b & E & _). unfold e. now rewrite E. }
    destruct (@nn2_whole (flat_coord nd pts) nd n nd_pos (flat_crd nd pts) flat_crd_ok lf rt root t K (flat_row nd pts q) Hx
      _ e Ha (n, d0)) as (b & E & N).
    rewrite E. cbn [bind]. exists b. split; auto. eapply nearest_iff; [|exact N].
    intros j Hj. apply in_seq in Hj. destruct (@ahead_ok (flat_row nd pts q) dir j Hx He) as (b' & E' & H); [lia|].
    cbv beta. unfold e. rewrite E', andb_true_iff, negb_true_iff, Nat.eqb_neq, H. intuition congruence.
  Qed.

  Lemma flat_in_sphere_ok x r : (nd <= length x)%nat ->
    exists out, flat_in_sphere nd pts n (lf, rt) root x r = Ok out
      /\ collects (fun _ => True) (fun j => sqdist nd (flat_coord nd pts) x j < (1 + 2 / 10 ^ 6) * r * r)
           (fun j => edist nd (flat_coord nd pts) x j < r) (seq 0 n) [] out.
  Proof.
    intros Hx. unfold flat_in_sphere. rewrite <- sphere_bound_R.
    destruct (@in_sphere_whole (flat_coord nd pts) nd n nd_pos (flat_crd nd pts) flat_crd_ok lf rt root t K x Hx
      (fun _ => Ok true) (fun _ => true) (fun _ _ => eq_refl) (sphere_bound r) r []) as (out & E & C).
    { intros j _. apply sphere_bound_covers. }
    exists out. split; auto. eapply collects_iff; [|reflexivity|exact C]. tauto.
  Qed.
End FlatTree.

(** Re-enumeration in the mesher (three dimensions). *)
Lemma flat_reenumerate_ok pts n lf rt root t :
  (n * 3 <= length pts)%nat -> kd_tree Rltb (flat_coord 3 pts) 3 n lf rt root t ->
  exists lf' rt' ord sorted t', flat_reenumerate 3 pts n (lf, rt) root = Ok ((lf', rt'), 0%nat, ord, sorted)
    /\ Permutation ord (seq 0 n) /\ length sorted = (n * 3)%nat
    /\ (forall i d, (i < n)%nat -> (d < 3)%nat -> flat_coord 3 sorted i d = flat_coord 3 pts (nth i ord 0%nat) d)
    /\ kd_tree Rltb (flat_coord 3 sorted) 3 n lf' rt' 0 t' /\ elements t' = seq 0 n.
Proof.
  intros Hlen K. unfold flat_reenumerate.
  destruct (@re_enumerate_ok _ _ _ _ _ _ _ _ _ K) as (lf' & rt' & t' & E & K' & El & _).
  rewrite E. cbn [bind].
  assert (Perm : Permutation (elements t) (seq 0 n)) by apply K.
  pose proof (Permutation_length Perm) as Lo. rewrite seq_length in Lo.
  assert (Hin : forall c, In c (elements t) -> (c < n)%nat).
  { intros c Hi. apply (Permutation_in _ Perm), in_seq in Hi. lia. }
  rewrite firstn_all2 by lia.
  assert (G : forall l, (forall c, In c l -> (c < n)%nat) -> exists srt,
    (fix go l := match l with
               | [] => Ok []
               | c :: t => a <- flat_crd 3 pts c 0 ;; b <- flat_crd 3 pts c 1 ;; d <- flat_crd 3 pts c 2 ;;
                           r <- go t ;; Ok (a :: b :: d :: r)
               end) l = Ok srt /\ length srt = (length l * 3)%nat
    /\ forall i d, (i < length l)%nat -> (d < 3)%nat -> flat_coord 3 srt i d = flat_coord 3 pts (nth i l 0%nat) d).
  { induction l as [|c l IH]; intros Hl.
    - exists []. split; auto. split; auto. simpl. intros; lia.
    - destruct IH as (srt & Es & Ls & Hsrt); [intros; apply Hl; right; auto|].
      assert (c < n)%nat by (apply Hl; left; auto).
      rewrite !(@flat_crd_ok 3 n pts) by (auto; lia). cbn [bind]. rewrite Es. cbn [bind].
      eexists. split; [reflexivity|]. split; [simpl; lia|].
      intros [|i] d Hi Hd.
      + destruct d as [|[|[|d]]]; try lia; reflexivity.
      + cbn [length] in Hi. cbn [nth]. rewrite <- Hsrt by lia. unfold flat_coord.
        replace (S i * 3 + d)%nat with (S (S (S (i * 3 + d)))) by lia. reflexivity. }
  destruct (G (elements t) Hin) as (srt & Es & Ls & Hsrt). rewrite Es. cbn [bind].
  exists lf', rt', (elements t), srt, t'. split; auto. split; auto. split; [lia|].
  rewrite Lo in Hsrt. split; auto. split; auto.
  eapply kd_tree_ext; [lia| |exact K']. intros i k Hi Hk. symmetry. apply Hsrt; auto.
Qed.
