(** Proofs about the sampling of the active faces. *)
From Coq Require Import Reals Lra.
From Verif Require Import Base Num Vec KdTree KdSpec SmartTree SmartTreeSpec SmartQueryProofs DenseQR Geometry GeometrySpec GeometryProofs Spheres SpheresSpec SpheresProofs
  SpheresOverlapProofs Sampling SamplingSpec SamplingProofs ActivePool ActivePoolSpec ActivePoolThreadProofs ActivePoolProofs
  ActivePoolStartProofs ActivePoolRunSpec ActivePoolRunProofs ActivePoolCoverProofs SamplePool SamplePoolSpec.
Local Open Scope R_scope.

(** ** The dart *)
Lemma pool_search_total (cdf : list R) U : forall fuel ist iend, (iend - ist < fuel)%nat -> (ist <= iend)%nat -> (iend < length cdf)%nat ->
  exists i, pool_search fuel cdf U ist iend = Ok i /\ (ist <= i <= iend)%nat.
Proof.
  induction fuel as [|f IH]; intros ist iend Hf Hle Hlt; [lia|]. cbn [pool_search].
  destruct (ist <? iend)%nat eqn:El; [|exists ist; auto]. apply Nat.ltb_lt in El.
  assert (Hm : (ist <= (ist + iend) / 2 < iend)%nat).
  { split; [apply Nat.div_le_lower_bound; lia|apply Nat.div_lt_upper_bound; lia]. }
  destruct (get_lt cdf (i := (ist + iend) / 2)) as (c & ->); [lia|]. cbn [bind].
  destruct (U <? c)%num; [|destruct (c <? U)%num].
  - destruct (IH ist ((ist + iend) / 2)%nat) as (i & -> & H); try lia. exists i. split; auto. lia.
  - destruct (IH ((ist + iend) / 2 + 1)%nat iend) as (i & -> & H); try lia. exists i. split; auto. lia.
  - eexists. split; [reflexivity|lia].
Qed.
Lemma pool_pick_total (cdf : list R) U : cdf <> [] -> exists i, pool_pick U cdf = Ok i /\ (i < length cdf)%nat.
Proof.
  intros Hne. unfold pool_pick. destruct cdf as [|a t] eqn:E; [congruence|]. rewrite <- E in *.
  assert (0 < length cdf)%nat by (subst; cbn; lia).
  destruct (@pool_search_total cdf U (S (length cdf)) 0 (length cdf - 1)) as (i & Ei & Hi); try lia. exists i. split; auto. lia.
Qed.

Section Dart.
  Variable points : list (list R).
  Variable faces : list (list nat).
  Hypothesis Hpts : good_points points.
  Hypothesis Hfaces : good_faces points faces.

  Lemma point3_len i : (i < length points)%nat -> length (point3 points i) = 3%nat.
  Proof. intros Hi. unfold point3. rewrite firstn_length. pose proof (Hpts _ (nth_In points [] Hi)). lia. Qed.
  Lemma face_tri_len f : (f < length faces)%nat -> let '(a, b, c) := face_tri points faces f in length a = 3%nat /\ length b = 3%nat /\ length c = 3%nat.
  Proof.
    intros Hf. destruct (Hfaces _ (nth_In faces [] Hf)) as (_ & H). unfold face_tri, face_corner.
    repeat split; apply point3_len; apply H; lia.
  Qed.
  Lemma center2_len (a b : list R) : length (center2 a b) = 3%nat.
  Proof. reflexivity. Qed.
  Lemma quarter_len c (t : list R * list R * list R) :
    (let '(x, y, z) := t in length x = 3 /\ length y = 3 /\ length z = 3)%nat ->
    (let '(x, y, z) := quarter center2 c t in length x = 3 /\ length y = 3 /\ length z = 3)%nat.
  Proof. destruct t as [[x y] z]. intros (A & B & C). destruct c as [|[|[|c]]]; cbn [quarter]; rewrite ?center2_len; auto. Qed.
  Lemma shape_len q : forall f, (f < length faces)%nat ->
    (let '(x, y, z) := abc (shape points faces (f, q)) in length x = 3 /\ length y = 3 /\ length z = 3)%nat.
  Proof.
    induction q as [|b q IH] using rev_ind; intros f Hf.
    - pose proof (face_tri_len Hf) as G. exact G.
    - destruct (bits_onto b) as (c & Hc & <-). change (f, q ++ [bits c]) with (kid (f, q) c). rewrite kid_quarter by auto.
      apply quarter_len. exact (IH f Hf).
  Qed.

  Lemma sample_face_ok p u k : reached points faces p -> (0 < p_size p)%nat -> (forall j, 0 <= u j < 1) ->
    exists x f i t, sample_face points faces p u k = Ok (x, f) /\ length x = 3%nat
      /\ nth_error (p_parent p) i = Some f /\ (f < length faces)%nat /\ element points faces p i t /\ in_tri t (vec x) /\ in_tri (face_tri points faces f) (vec x).
  Proof.
    intros Hr Hp Hu. destruct (reached_denotes Hpts Hfaces Hr) as (els & D). pose proof D as (Ep & _ & Ec & De).
    assert (Lc : length (p_cdf p) = p_size p).
    { destruct (make_cdf_ok (map (farea points faces) els)) as (c & E & L & _). rewrite Ec in E. injection E as <-. rewrite L, map_length. symmetry. eapply denotes_size; eauto. }
    unfold sample_face. destruct (@pool_pick_total (p_cdf p) (u k)) as (i & -> & Hi).
    { intros C. rewrite C in Lc. cbn in Lc. lia. }
    cbn [bind]. rewrite Lc in Hi. rewrite (denotes_size D) in Hi.
    destruct (nth_error els i) as [e|] eqn:Ee; [|apply nth_error_None in Ee; unfold felem in *; lia].
    assert (Ef : nth_error (p_parent p) i = Some (fst e)) by (rewrite Ep; apply map_nth_error; auto).
    unfold get at 1. rewrite Ef. cbn [bind].
    destruct (De _ _ Ee) as (Hf & _ & _).
    pose proof (@denotes_element _ _ points faces Hpts Hfaces p els i e D Ee) as (mids & Em). rewrite Em. cbn [bind].
    destruct e as [f q]. cbn [fst] in *. pose proof (shape_len q Hf) as Hs.
    destruct (abc (shape points faces (f, q))) as [[a b] c] eqn:Et. destruct Hs as (La & Lb & Lc').
    destruct (@simplex_sample_inside u (k + 1) 3 [a; b; c]) as (d & w & Ed & Ld & Lw & (Wp & Ws) & Hd); [cbn; lia|auto|repeat constructor; auto|].
    cbn [length] in Ed, Lw. rewrite Ed. cbn [bind]. exists d, f, i, (a, b, c). split; auto. split; auto. split; auto. split; auto. split; [exists mids; auto|].
    assert (Hin : in_tri (a, b, c) (vec d)); [|split; [exact Hin|apply (@path_in_face points faces q); rewrite Et; exact Hin]].
    destruct w as [|w0 [|w1 [|w2 [|]]]]; try discriminate Lw.
    exists (fun m => match m with 0%nat => w0 | 1%nat => w1 | _ => w2 end). unfold barycentric. split; [split|].
    - unfold rsum in Ws. cbn in Ws |- *. lra.
    - intros j Hj. unfold vec, tri. cbn [fst snd]. rewrite Hd by auto. unfold weighted_coord, rsum. cbn. unfold vec. ring.
    - intros m Hm. inversion Wp as [|? ? W0 W']; subst. inversion W' as [|? ? W1 W'']; subst. inversion W'' as [|? ? W2 _]; subst.
      destruct m as [|[|m]]; auto.
  Qed.
End Dart.

(** ** Coverage *)
Lemma in_sphere_ext s b x y : (forall d, (d < 3)%nat -> x d = y d) -> in_sphere_of s b x -> in_sphere_of s b y.
Proof.
  intros E (j & Hj & C). exists j. split; auto. unfold covers in *. rewrite <- (@vdist_ext 3 x y (center s j) (center s j)); auto.
Qed.
Lemma fraction_nonneg a : 0 <= fraction a.
Proof. unfold fraction. destruct (Rlt_dec _ _); [apply sqrt_pos|lra]. Qed.
Lemma center_covered s x L alpha : spheres s -> (3 <= length x)%nat -> point_at_reach s (vec x) -> 0 <= L < 1 -> positive_radii s ->
  point_covered s x L alpha = Ok false -> forall j, (j < count s)%nat -> 0 < vdist 3 (vec x) (center s j).
Proof.
  intros Hs Hx Hr HL Hpos E j Hj. destruct (Rle_lt_dec (vdist 3 (vec x) (center s j)) 0) as [Hle|]; auto. exfalso.
  destruct (spheres_n Hs) as (N0 & _). unfold point_covered in E. rewrite N0 in E.
  destruct (@estimate_ok s x L Hs Hx Hr) as (c & Hc & Ec & Hmin). rewrite Ec in E. cbn [bind] in E.
  change (@n1 R RNum) with 1 in E. change ndiv with Rdiv in E. change nsub with Rminus in E.
  assert (Dc : vdist 3 (vec x) (center s c) = 0).
  { pose proof (Hmin j Hj). pose proof (vdist_nonneg 3 (vec x) (center s c)). lra. }
  rewrite Dc in E. specialize (Hpos c Hc).
  set (RR := (radius s c + L * 0) / (1 - L)) in *.
  assert (HR : 0 < RR) by (unfold RR; apply Rdiv_lt_0_compat; lra).
  destruct (@query_ok s x RR Hs Hx) as (l & El & _ & Hl & Hall & _). rewrite El in E. cbn [bind] in E.
  rewrite beta_of_R in E. destruct (@some_covers_ok s (fraction alpha) [gv x] l Hs Hl) as (b & Eb & Hb). rewrite Eb in E. injection E as ->.
  assert (false = true); [|discriminate]. apply Hb. exists c. split; [apply Hall; auto; lra|]. intros q [<-|[]].
  change (gv x) with (vec x). unfold covers, reach. rewrite Dc. pose proof (fraction_nonneg alpha).
  assert (0 < 1 / 10 ^ 8) by (apply Rdiv_lt_0_compat; [lra|apply pow_lt; lra]). nra.
Qed.
Lemma point_covered_any s x L alpha region : ActivePoolSpec.usable region s -> region (vec x) -> (3 <= length x)%nat ->
  exists b, point_covered s x L alpha = Ok b
    /\ (b = true -> in_sphere_of s (fraction alpha) (vec x))
    /\ (b = false -> 0 <= L < 1 -> locally_lipschitz L s -> forall j, (j < count s)%nat -> vdist 3 (vec x) (center s j) < radius s j -> ~ covers s (fraction alpha) j (vec x))
    /\ (b = false -> 0 <= L < 1 -> positive_radii s -> forall j, (j < count s)%nat -> 0 < vdist 3 (vec x) (center s j)).
Proof.
  intros [E|(Hs & Hr)] Hx Hl.
  - exists false. unfold point_covered, st_n. rewrite E. split; auto. split; [discriminate|].
    split; intros _ _ _ j Hj; unfold count in Hj; rewrite E in Hj; cbn in Hj; lia.
  - destruct (@point_covered_ok s x L alpha Hs Hl (Hr _ Hx)) as (b & E & H1 & H2). exists b. split; auto. split; auto. split.
    + intros -> HL HLip j Hj Hin Hc. discriminate (H2 HL HLip j Hj Hc Hin).
    + intros -> HL Hp. apply (@center_covered s x L alpha); auto. apply Hr; auto.
Qed.

(** ** Radii *)
Lemma least_or (P Q : R -> Prop) a b : least_of P a -> least_of Q b -> least_of (fun v => P v \/ Q v) (Rmin a b).
Proof.
  intros (Pa & La) (Qb & Lb). split.
  - unfold Rmin. destruct (Rle_dec a b); auto.
  - intros v [Hv|Hv]; [specialize (La v Hv); pose proof (Rmin_l a b)|specialize (Lb v Hv); pose proof (Rmin_r a b)]; lra.
Qed.
Lemma least_iff (P Q : R -> Prop) a : (forall v, P v <-> Q v) -> least_of P a -> least_of Q a.
Proof. intros E (H1 & H2). split; [apply E; auto|]. intros v Hv. apply H2. apply E. auto. Qed.
Lemma nlit4 : (nlit 4 1 : R) = 2 / 5.
Proof. unfold nlit. cbn [ndiv nofZ RNum]. change (IZR 4 / IZR 10 = 2 / 5). lra. Qed.

(** A search that keeps DBL_MAX when there is nothing to find. *)
Lemma least_nearest (P : R -> Prop) a D (e : nat -> Prop) S n b : least_of P a -> a <= 2 / 5 * dbl_max -> nearest D e S (n, dbl_max) b ->
  least_of (fun v => P v \/ exists j, In j S /\ e j /\ v = 2 / 5 * D j) (Rmin a (2 / 5 * snd b)).
Proof.
  intros HP Ha [(-> & Hb)|(i & Hi & Hei & -> & Hlt & Hb)].
  - cbn [snd] in *. rewrite Rmin_left by exact Ha. destruct HP as (Pa & La). split; auto. intros v [Hv|(j & Hj & Hej & ->)]; auto.
    apply Rle_trans with (2 / 5 * dbl_max); auto. apply Rmult_le_compat_l; [lra|auto].
  - cbn [snd] in *. apply least_or; auto. split; [eauto|]. intros v (j & Hj & Hej & ->). apply Rmult_le_compat_l; [lra|auto].
Qed.
Lemma Rmin_bound a b M : a <= M -> Rmin a b <= M.
Proof. intros. pose proof (Rmin_l a b). lra. Qed.

Lemma cloud_dist s x j : st_nd s = 3%nat -> dist_to s x j = vdist 3 (vec x) (center s j).
Proof. apply dist_to_vdist. Qed.

Lemma edge_limit_ok z t x sz (P : R -> Prop) : cloud_or_empty t -> (3 <= length x)%nat -> least_of P sz -> sz <= 2 / 5 * dbl_max ->
  exists sz', edge_limit z t x sz = Ok sz' /\ sz' <= 2 / 5 * dbl_max
    /\ least_of (fun v => P v \/ exists j, (j < count t)%nat /\ ~ smooth_edge t (normals_of t) x (z_rmin z) (z_thr z) j /\ v = 2 / 5 * vdist 3 (vec x) (center t j)) sz'.
Proof.
  intros Ht Hx HP Hsz. unfold edge_limit, st_n. destruct Ht as [E|(Rd & End & Hn & Ln & Hv)].
  - rewrite E. cbn. exists sz. split; auto. split; auto. eapply least_iff; [|exact HP]. intros v. split; auto. intros [H|(j & Hj & _)]; auto. unfold count in Hj. rewrite E in Hj. cbn in Hj. lia.
  - assert (Hc : (0 < length (st_pts t))%nat) by (destruct Rd as (_ & Hne & _); destruct (st_pts t); [congruence|cbn; lia]).
    apply Nat.ltb_lt in Hc. rewrite Hc.
    destruct (@closest_nonsmooth_edge_ok t Rd (normals_of t) Hn Ln) with (x := x) (tol := z_rmin z) (thr := z_thr z) (d0 := @dbl_max R _) as (b & -> & N);
      [intros v Hin; rewrite End; auto|rewrite End; auto|left; apply dbl_max_pos|].
    cbn [bind]. exists (Rmin sz (2 / 5 * snd b)). rewrite nmin_R, nlit4. split; auto. split; [apply Rmin_bound; auto|].
    eapply least_iff; [|eapply least_nearest; eauto]. intros v. cbv beta. split.
    + intros [H|(j & Hj & He & ->)]; auto. right. apply in_seq in Hj. exists j. split; [unfold count; lia|]. split; auto. now rewrite cloud_dist.
    + intros [H|(j & Hj & He & ->)]; auto. right. exists j. split; [apply in_seq; unfold count in Hj; lia|]. split; auto. now rewrite cloud_dist.
Qed.
Lemma input_limit_ok (o : option (stree R)) x sz (P : R -> Prop) :
  (forall t, o = Some t -> spheres t /\ point_at_reach t (vec x)) -> (3 <= length x)%nat -> least_of P sz ->
  exists sz' c, input_limit o x sz = Ok sz' /\ sz' <= sz
    /\ (forall t, o = Some t -> (c < count t)%nat /\ forall j, (j < count t)%nat -> vdist 3 (vec x) (center t c) <= vdist 3 (vec x) (center t j))
    /\ least_of (fun v => P v \/ exists t, o = Some t /\ v = radius t c) sz'.
Proof.
  intros Ho Hx HP. unfold input_limit. destruct o as [t|].
  - destruct (Ho t eq_refl) as (Hs & (j & Hj & Hd)). pose proof Hs as (Rd & End & _).
    destruct (@closest_ok t Rd any x dbl_max) as (b & -> & N); [rewrite End; auto|left; apply dbl_max_pos|]. cbn [bind].
    destruct N as [(-> & N)|(i & Hi & _ & -> & _ & N)].
    + exfalso. specialize (N j). cbn [snd] in N. rewrite dist_to_vdist in N by auto.
      assert (dbl_max <= vdist 3 (vec x) (center t j)) by (apply N; auto; apply in_seq; unfold count in Hj; lia).
      apply Rlt_not_le in Hd. auto.
    + apply in_seq in Hi. rewrite get_radius_ok by (auto; unfold count; lia). cbn [bind nltb RNum].
      assert (Em : (if Rltb (radius t i) sz then radius t i else sz) = Rmin sz (radius t i)).
      { unfold Rmin. destruct (Rltb (radius t i) sz) eqn:E; [apply Rltb_true in E|apply Rltb_false in E]; destruct (Rle_dec sz (radius t i)); auto; lra. }
      rewrite Em. exists (Rmin sz (radius t i)), i. split; auto. split; [apply Rmin_l|]. split.
      * intros t' [= <-]. split; [unfold count; lia|]. intros k Hk. rewrite <- !dist_to_vdist by auto. apply N; auto. apply in_seq. unfold count in Hk. lia.
      * apply least_or; auto. split; [eauto|]. intros v (t' & [= <-] & ->). lra.
  - exists sz, 0%nat. split; auto. split; [lra|]. split; [discriminate|]. eapply least_iff; [|exact HP]. intros v. split; auto. intros [H|(t & C & _)]; [auto|discriminate].
Qed.
Lemma limit_all_ok L m ss x l : spheres ss -> (forall j, In j l -> (j < count ss)%nat) -> forall sz (P : R -> Prop), least_of P sz ->
  exists sz', limit_all L m ss x l sz = Ok sz'
    /\ least_of (fun v => P v \/ exists j, In j l /\ (v = vdist 3 (vec x) (center ss j) / m \/ v = radius ss j + L * vdist 3 (vec x) (center ss j))) sz'.
Proof.
  intros Hs. induction l as [|i t IH]; intros Hl sz P HP; cbn [limit_all].
  - exists sz. split; auto. eapply least_iff; [|exact HP]. intros v. split; auto. intros [H|(j & [] & _)]; auto.
  - destruct (@get_sphere_ok ss Hs i) as (sp & -> & _ & Hsp); [apply Hl; left; auto|]. cbn [bind].
    assert (Ed : distance 3 (gv x) (gv sp) = vdist 3 (vec x) (center ss i)).
    { rewrite distance_R. apply vdist_ext; auto. intros d Hd. apply Hsp. lia. }
    rewrite Ed, !nmin_R. change nadd with Rplus. change nmul with Rmult. change ndiv with Rdiv. rewrite (Hsp 3%nat) by lia.
    change (coord (st_pts ss) i 3) with (radius ss i). set (d := vdist 3 (vec x) (center ss i)).
    destruct (IH (fun j Hj => Hl j (or_intror Hj)) (Rmin (Rmin sz (d / m)) (radius ss i + L * d))
      (fun v => (P v \/ v = d / m) \/ v = radius ss i + L * d)) as (sz' & -> & HL).
    { assert (Single : forall a, least_of (fun v => v = a) a) by (intros a; split; [auto|intros v ->; lra]).
      apply least_or; auto. apply least_or; auto. }
    exists sz'. split; auto. eapply least_iff; [|exact HL]. intros v. cbv beta. split.
    + intros [[[H|H]|H]|(j & Hj & H)]; auto; right; [exists i|exists i|exists j]; cbn; auto.
    + intros [H|(j & [<-|Hj] & H)]; auto; [destruct H; auto|]. right. eauto.
Qed.

Section Radius.
  Variables (points : list (list R)) (faces : list (list nat)) (z : sizing R) (ss cs : stree R).
  Hypothesis Hz : good_sizing points faces z cs.
  Hypothesis Hss : ActivePoolSpec.usable (on_mesh points faces) ss.

  Lemma new_radius_ok num x f : length x = 4%nat -> on_mesh points faces (vec x) -> (f < length faces)%nat ->
    exists near c m, new_radius z ss cs num x f = Ok (Rmax m (z_rms z))
      /\ (num = 0%nat -> near = []) /\ (num <> 0%nat -> overlapping ss (z_Lip z) (vec x) (vec x 3%nat) near)
      /\ nearest_input z x c /\ least_of (limit z ss cs near c x f) m.
  Proof.
    destruct Hz as ((Rd & End & Hn & Ln & Hv) & He & Hc & Hi & Lnf & Hnl & Hmax). intros Lx Hx Hf. unfold new_radius.
    destruct (get_lt (z_normals z) (i := f)) as (n & En); [lia|]. rewrite En. cbn [bind].
    assert (En' : nth f (z_normals z) [] = n).
    { apply get_Ok in En. now apply nth_error_nth. }
    assert (Hn3 : (3 <= length n)%nat) by (apply Hnl; rewrite <- En'; apply nth_In; lia).
    destruct (@closest_nonsmooth_normal_ok (z_cloud z) Rd (normals_of (z_cloud z)) Hn Ln) with (x := x) (xn := n) (thr := z_thr z) (d0 := @dbl_max R _) as (b & -> & N);
      [intros v Hin; rewrite End; auto|rewrite End; lia|rewrite End; lia|left; apply dbl_max_pos|]. cbn [bind].
    rewrite nmin_R, nlit4. change nmul with Rmult.
    assert (L1 : least_of (fun v => v = z_rmax z) (z_rmax z)) by (split; [auto|intros v ->; lra]).
    pose proof (@least_nearest _ _ _ _ _ _ _ L1 Hmax N) as L2. clear L1.
    set (s1 := Rmin (z_rmax z) (2 / 5 * snd b)) in *.
    assert (B1 : s1 <= 2 / 5 * dbl_max) by (apply Rmin_bound; auto).
    edestruct (@input_limit_ok (z_input z) x s1) as (s2 & c & -> & B2 & Hc' & L3); [|lia|exact L2|].
    { intros t Et. destruct (Hi t Et) as (Hs & Hr). split; auto. apply Hr. auto. }
    cbn [bind]. assert (B2' : s2 <= 2 / 5 * dbl_max) by (eapply Rle_trans; eauto).
    edestruct (@edge_limit_ok z (z_edges z) x s2) as (s3 & -> & B3 & L4); [exact He|lia|exact L3|exact B2'|]. cbn [bind].
    edestruct (@edge_limit_ok z cs x s3) as (s4 & -> & B4 & L5); [exact Hc|lia|exact L4|exact B3|]. cbn [bind].
    assert (Hlast : exists near m, (if Nat.ltb 0 num then l <- get_overlapping_spheres x ss (z_Lip z) ;; limit_all (z_Lip z) (nsqrt (nsub n1 (Rmult (z_ratio z) (z_ratio z)))) ss x l s4 else Ok s4) = Ok m
      /\ (num = 0%nat -> near = []) /\ (num <> 0%nat -> overlapping ss (z_Lip z) (vec x) (vec x 3%nat) near)
      /\ least_of (limit z ss cs near c x f) m).
    { assert (Fin : forall near m, least_of (fun v =>
         ((((v = z_rmax z \/ exists j, In j (all_points (z_cloud z)) /\ ~ smooth_both (z_cloud z) (normals_of (z_cloud z)) x n (z_thr z) j /\ v = 2 / 5 * dist_to (z_cloud z) x j)
           \/ exists t, z_input z = Some t /\ v = radius t c)
          \/ exists j, (j < count (z_edges z))%nat /\ ~ smooth_edge (z_edges z) (normals_of (z_edges z)) x (z_rmin z) (z_thr z) j /\ v = 2 / 5 * vdist 3 (vec x) (center (z_edges z) j))
         \/ exists j, (j < count cs)%nat /\ ~ smooth_edge cs (normals_of cs) x (z_rmin z) (z_thr z) j /\ v = 2 / 5 * vdist 3 (vec x) (center cs j))
         \/ exists j, In j near /\ (v = vdist 3 (vec x) (center ss j) / sqrt (1 - z_ratio z * z_ratio z) \/ v = radius ss j + z_Lip z * vdist 3 (vec x) (center ss j))) m ->
         least_of (limit z ss cs near c x f) m).
      { intros near m HL. eapply least_iff; [|exact HL]. intros v. unfold limit. rewrite En'. cbv beta.
        assert (Ecl : (exists j, In j (all_points (z_cloud z)) /\ ~ smooth_both (z_cloud z) (normals_of (z_cloud z)) x n (z_thr z) j /\ v = 2 / 5 * dist_to (z_cloud z) x j)
           <-> exists j, (j < count (z_cloud z))%nat /\ ~ smooth_both (z_cloud z) (normals_of (z_cloud z)) x n (z_thr z) j /\ v = 2 / 5 * vdist 3 (vec x) (center (z_cloud z) j)).
        { split; intros (j & Hj & H1 & H2); exists j; rewrite cloud_dist in * by auto; (split; [|auto]).
          - apply in_seq in Hj. unfold count. lia.
          - apply in_seq. unfold count in Hj. lia. }
        rewrite Ecl. tauto. }
      destruct (Nat.ltb 0 num) eqn:Enum.
      - apply Nat.ltb_lt in Enum. destruct Hss as [Es|(Hsp & Hr)].
        + unfold get_overlapping_spheres, st_n. rewrite Es. cbn [length Nat.eqb bind limit_all]. exists [], s4. split; auto. split; auto. split.
          * intros _. split; [intros j []|]. intros _ _ j Hj. unfold count in Hj. rewrite Es in Hj. cbn in Hj. lia.
          * apply Fin. eapply least_iff; [|exact L5]. intros v. cbv beta. split; auto. intros [H|(j & [] & _)]; auto.
        + destruct (@get_overlapping_ok ss x (z_Lip z) Hsp) as (near & -> & _ & H1 & H2 & _); [lia|apply Hr; auto|]. cbn [bind].
          edestruct (@limit_all_ok (z_Lip z) (nsqrt (nsub n1 (Rmult (z_ratio z) (z_ratio z)))) ss x near Hsp) as (m & Em & HL); [intros j Hj; apply H1; auto|exact L5|].
          exists near, m. split; [exact Em|]. split; [lia|]. split; [|apply Fin; exact HL].
          intros _. split; auto.
      - apply Nat.ltb_ge in Enum. exists [], s4. split; auto. split; auto. split; [lia|].
        apply Fin. eapply least_iff; [|exact L5]. intros v. cbv beta. split; auto. intros [H|(j & [] & _)]; auto. }
    destruct Hlast as (near & m & -> & A & B & C). cbn [bind]. rewrite nmax_R. exists near, c, m. auto.
  Qed.
End Radius.

(** ** The round *)
Lemma covered1_ok (p sphere : nat -> R) alpha : point_covered1 p sphere alpha = true <-> vdist 3 p sphere < reach (fraction alpha) (sphere 3%nat).
Proof. unfold point_covered1, within, reach. rewrite beta_of_R. cbn [nltb nadd nmul RNum]. rewrite Rltb_true, distance_R, nlit8. reflexivity. Qed.
Lemma covered_by_new_ok ratio s before : covered_by_new ratio (sm_row s) before = true <->
  exists b, In b before /\ sm_covered b = false /\ covers_sample ratio b s.
Proof.
  induction before as [|b t IH]; cbn [covered_by_new].
  - split; [discriminate|]. intros (b & [] & _).
  - destruct (sm_covered b) eqn:Ec.
    + rewrite IH. split; [intros (c & H & H'); exists c; cbn; auto|]. intros (c & [<-|H] & H1 & H2); [congruence|eauto].
    + destruct (point_covered1 (gv (sm_row s)) (gv (sm_row b)) ratio) eqn:E1.
      * split; auto. intros _. exists b. split; [left; auto|]. split; auto. apply covered1_ok in E1. exact E1.
      * rewrite IH. split; [intros (c & H & H'); exists c; cbn; auto|]. intros (c & [<-|H] & H1 & H2); [|eauto].
        exfalso. assert (point_covered1 (gv (sm_row s)) (gv (sm_row b)) ratio = true); [|congruence]. apply covered1_ok. exact H2.
Qed.
Lemma fraction0 : fraction 0 = 1.
Proof. unfold fraction. destruct (Rlt_dec (1 / 10 ^ 10) 0) as [C|]; auto. exfalso. assert (0 < 1 / 10 ^ 10) by (apply Rdiv_lt_0_compat; [lra|apply pow_lt; lra]). lra. Qed.

Lemma Forall2_len {A B} (P : A -> B -> Prop) l l' : Forall2 P l l' -> length l = length l'.
Proof. induction 1; cbn; auto. Qed.

Section Round.
  Variables (points : list (list R)) (faces : list (list nat)) (p : pool R) (z : sizing R) (ss es cs : stree R) (num : nat).
  Hypothesis Hpts : good_points points.
  Hypothesis Hfaces : good_faces points faces.
  Hypothesis Hreach : reached points faces p.
  Hypothesis Hsize : (0 < p_size p)%nat.
  Hypothesis Hz : good_sizing points faces z cs.
  Hypothesis Hsc : usable_scene points faces (Scene ss es cs).
  Notation mesh := (on_mesh points faces).

  Definition none_covers (x : nat -> R) : Prop :=
    (0 <= z_Lip z < 1 -> positive_radii ss -> forall j, (j < count ss)%nat -> 0 < vdist 3 x (center ss j))
    /\ forall t alpha, (t = ss /\ alpha = z_ratio z) \/ (t = es \/ t = cs) /\ alpha = 0 ->
      0 <= z_Lip z < 1 -> locally_lipschitz (z_Lip z) t ->
      forall j, (j < count t)%nat -> vdist 3 x (center t j) < radius t j -> ~ covers t (fraction alpha) j x.
  Lemma is_covered_ok x : mesh (vec x) -> (3 <= length x)%nat -> exists b, is_covered z ss es cs x = Ok b
    /\ (b = true -> covered_before (z_ratio z) ss es cs (vec x)) /\ (b = false -> none_covers (vec x)).
  Proof.
    intros Hx Hl. destruct Hsc as (U1 & U2 & U3). cbn [surface_of edges_of corners_of] in *. unfold is_covered, covered_before.
    destruct (@point_covered_any cs x (z_Lip z) n0 _ U3 Hx Hl) as (b1 & -> & T1 & F1 & _). cbn [bind].
    change (@n0 R RNum) with 0 in *. rewrite fraction0 in T1.
    destruct b1; cbn [bind]; [exists true; split; [reflexivity|split; [auto|discriminate]]|].
    destruct (@point_covered_any es x (z_Lip z) 0 _ U2 Hx Hl) as (b2 & -> & T2 & F2 & _). cbn [bind]. rewrite fraction0 in T2.
    destruct b2; cbn [bind]; [exists true; split; [reflexivity|split; [auto|discriminate]]|].
    destruct (@point_covered_any ss x (z_Lip z) (z_ratio z) _ U1 Hx Hl) as (b3 & -> & T3 & F3 & C3). cbn [bind].
    exists b3. split; auto. split; [auto|]. intros ->. split; [auto|]. intros t alpha [(-> & ->)|([-> | ->] & ->)]; auto.
  Qed.

  Definition drawn (r : R) (s : sample R) : Prop :=
    (exists x, length x = 3%nat /\ sm_row s = x ++ [r]) /\ on_active points faces p s /\ mesh (vec (sm_row s)) /\ (sm_face s < length faces)%nat
    /\ (sm_covered s = true -> covered_before (z_ratio z) ss es cs (vec (sm_row s))) /\ (sm_covered s = false -> none_covers (vec (sm_row s))).
  Lemma vec_app3 (x : list R) r d : length x = 3%nat -> (d < 3)%nat -> vec (x ++ [r]) d = vec x d.
  Proof. intros L Hd. unfold vec. rewrite app_nth1; auto. lia. Qed.
  Lemma in_tri_ext t (x y : nat -> R) : (forall d, (d < 3)%nat -> x d = y d) -> in_tri t x -> in_tri t y.
  Proof. intros E (m & (S & H) & P). exists m. split; auto. split; auto. intros d Hd. rewrite <- E; auto. Qed.
  Lemma draw_ok u k : (forall t j, 0 <= u t j < 1) -> forall old t,
    exists l, draw points faces p z ss es cs u k t old = Ok l /\ Forall2 drawn old l.
  Proof.
    intros Hu. induction old as [|r old IH]; intros t; cbn [draw]; [exists []; auto|].
    destruct (@sample_face_ok points faces Hpts Hfaces p (u t) k Hreach Hsize (Hu t)) as (x & f & i & tr & -> & Lx & Ei & Hf & Hel & Hin & Hface). cbn [bind].
    assert (Ex : forall d, (d < 3)%nat -> vec x d = vec (x ++ [r]) d) by (intros d Hd; symmetry; apply vec_app3; auto).
    assert (Hm : mesh (vec (x ++ [r]))) by (exists f; split; auto; eapply in_tri_ext; eauto).
    destruct (@is_covered_ok (x ++ [r]) Hm) as (b & -> & T & Fa); [rewrite app_length; cbn; lia|]. cbn [bind].
    destruct (IH (S t)) as (l & -> & Hl). cbn [bind]. eexists. split; [reflexivity|]. constructor; auto.
    split; [eauto|]. cbn [sm_row sm_face sm_covered]. split; [|auto].
    split; [cbn; rewrite app_length; cbn; lia|]. exists i, tr. cbn. split; auto. split; auto. eapply in_tri_ext; eauto.
  Qed.

  Notation good := (good_sample points faces p z ss es cs num).
  Definition no_sample : sample R := Sample [] 0 true.
  Lemma size_all_ok : forall olds todo before, Forall2 drawn olds todo ->
    exists out, size_all z ss cs num before todo = Ok (before ++ out) /\ length out = length todo
      /\ forall t, (t < length todo)%nat -> good (nth t olds 0) (before ++ firstn t out) (nth t out no_sample).
  Proof.
    induction olds as [|r olds IH]; intros todo before Hd; inversion Hd as [|? s ? todo' Hs Hd']; subst; cbn [size_all].
    - exists []. rewrite app_nil_r. split; auto. split; auto. intros t Ht. cbn in Ht. lia.
    - assert (X : exists s', (if sm_covered s then Ok s
             else if covered_by_new (z_ratio z) (sm_row s) before then Ok (Sample (sm_row s) (sm_face s) true)
             else r <- new_radius z ss cs num (sm_row s) (sm_face s) ;; row <- set (sm_row s) 3 r ;; Ok (Sample row (sm_face s) false)) = Ok s' /\ good r before s').
      { destruct Hs as ((x & Lx & Er) & Ha & Hm & Hf & T & Fa). destruct (sm_covered s) eqn:Ec.
        - exists s. split; auto. split; auto. split; [auto|]. rewrite Ec. discriminate.
        - destruct (covered_by_new (z_ratio z) (sm_row s) before) eqn:En.
          + apply covered_by_new_ok in En. eexists. split; [reflexivity|]. split; [exact Ha|]. cbn [sm_row sm_face sm_covered]. split; [|discriminate]. intros _. right. exact En.
          + assert (L4 : length (sm_row s) = 4%nat) by apply Ha.
            destruct (@new_radius_ok points faces z ss cs Hz (proj1 Hsc) num (sm_row s) (sm_face s) L4 Hm Hf) as (near & c & m & -> & N0 & N1 & Hc & Hl). cbn [bind].
            unfold set. rewrite L4. cbn [Nat.ltb Nat.leb bind]. eexists. split; [reflexivity|].
            set (v := Rmax m (z_rms z)).
            assert (Eu : upd (sm_row s) 3 v = x ++ [v]) by (rewrite Er, <- Lx; clear; induction x; cbn; [|f_equal]; auto).
            rewrite Eu.
            assert (Ex : forall d, (d < 3)%nat -> vec (sm_row s) d = vec (x ++ [v]) d) by (intros d Hd''; rewrite Er, !vec_app3 by auto; auto).
            assert (Ed : forall y, vdist 3 (vec (x ++ [v])) y = vdist 3 (vec (sm_row s)) y) by (intros y; apply vdist_ext; auto; intros; symmetry; auto).
            split; [|split; [discriminate|intros _; split; [|split; [|split]]]]; cbn [sm_row sm_face sm_covered].
            * split; [cbn; rewrite app_length; cbn; lia|]. destruct Ha as (_ & i & tr & A1 & A2 & A3). exists i, tr. cbn. split; auto. split; auto. eapply in_tri_ext; eauto.
            * intros b Hb Hbc Hcov. assert (covered_by_new (z_ratio z) (sm_row s) before = true); [|congruence]. apply covered_by_new_ok.
              exists b. split; auto. split; auto. unfold covers_sample in *. cbn [sm_row] in Hcov. rewrite Ed in Hcov. exact Hcov.
            * intros HL Hp j Hj. rewrite Ed. apply (Fa eq_refl); auto.
            * intros t alpha Ht HL HLip j Hj. unfold covers. rewrite Ed. apply (proj2 (Fa eq_refl) t alpha Ht HL HLip j Hj).
            * assert (Ef : firstn 3 (x ++ [v]) = x) by (rewrite firstn_app, Lx, firstn_all2 by lia; cbn; apply app_nil_r).
              rewrite Ef, <- Er. exists near, c, m. split; auto. split.
              { intros Hn. specialize (N1 Hn). replace (vec (sm_row s) 3%nat) with r in N1; auto. rewrite Er. unfold vec. rewrite app_nth2 by lia. rewrite Lx. reflexivity. }
              split; auto. split; auto. unfold vec. rewrite app_nth2 by lia. rewrite Lx. reflexivity. }
      destruct X as (s' & -> & G). cbn [bind]. destruct (IH todo' (before ++ [s']) Hd') as (out & -> & Lo & H).
      exists (s' :: out). rewrite <- app_assoc. split; auto. split; [cbn; lia|]. intros [|t] Ht; cbn [nth firstn].
      + rewrite app_nil_r. exact G.
      + cbn [length] in Ht. specialize (H t). rewrite <- app_assoc in H. apply H. lia.
  Qed.
  Lemma sample_active_pool_ok u k old : (forall t j, 0 <= u t j < 1) ->
    exists l, sample_active_pool points faces p z ss es cs num u k old = Ok l /\ length l = length old
      /\ forall t, (t < length old)%nat -> good (nth t old 0) (firstn t l) (nth t l no_sample).
  Proof.
    intros Hu. unfold sample_active_pool. destruct (@draw_ok u k Hu old 0%nat) as (l & -> & Hl). cbn [bind].
    pose proof (Forall2_len Hl) as Ll. destruct (@size_all_ok old l [] Hl) as (out & -> & Lo & H). cbn [app] in *. exists out. split; auto. split; [congruence|].
    intros t Ht. apply H. lia.
  Qed.
End Round.
