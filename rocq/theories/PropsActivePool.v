(** C31-C34: the active pool of faces and edges. *)
From Verif Require Import Base Num MemoryHandler DenseQR KdTree Vec KdSpec SmartTree SmartTreeSpec Geometry GeometrySpec GeometryProofs
  Spheres SpheresSpec SpheresProofs Sampling ActivePool ActivePoolSpec ActivePoolThreadProofs ActivePoolProofs
  ActivePoolStartProofs ActivePoolEdgeProofs ActivePoolRunSpec ActivePoolRunProofs ActivePoolCoverProofs PropsSpheres.
From Coq Require Import Reals Lra Sorted.

(** ** C31 *)
Theorem C31_partition {F} `{Num F} (points : list (list F)) (faces : list (list nat)) (np : nat) :
  good_points points -> good_faces points faces -> 1 <= np ->
  exists ps, patches (S np) points faces 0 np = Ok ps
    /\ concat (map (fun p => p_parent p) ps) = seq 0 (length faces)
    /\ (faces <> [] -> Forall (fun p => p_parent p <> []) ps)
    /\ Forall (fun p => p_level p = 0 /\ reached points faces p
                /\ forall i f, nth_error (p_parent p) i = Some f -> element points faces p i (face_tri points faces f)) ps.
Proof.
  intros Hp Hf Hn. destruct (@patches_ok _ _ points faces np Hp Hf Hn) as (ps & E & Hc & Hne & _). exists ps. split; [exact E|split; [exact Hc|split; [exact Hne|]]].
  assert (G : forall fuel ip n ps, 1 <= n -> (ip < n -> exists lo hi, patch_range (length faces) ip n = Ok (n, lo, hi) \/ ip = 0) ->
     patches fuel points faces ip n = Ok ps -> Forall (fun p => exists ip n n', ip < n' /\ start_faces points faces ip n = Ok (p, n')) ps).
  { induction fuel as [|fuel IH]; intros ip n qs Hn1 Hlt Eq; [discriminate|].
    rewrite patches_S in Eq. destruct (ip <? n) eqn:Hl; [|injection Eq as <-; constructor].
    apply Nat.ltb_lt in Hl. destruct (start_faces points faces ip n) as [[p n']| |] eqn:Es; try discriminate. cbn [bind] in Eq.
    apply bind_Ok_inv in Eq. destruct Eq as (r & Er & Eq). injection Eq as <-.
    destruct (start_faces_inv _ _ _ _ Es) as (lo & hi & Ep & _).
    destruct (patch_range_ok (length faces) ip Hn1) as (n3 & bin & lo3 & hi3 & Er3 & Hn3 & _ & _ & _ & _ & Hcase).
    rewrite Ep in Er3. injection Er3 as -> -> ->. 
    assert (Hip : ip < n3).
    { destruct (Hlt Hl) as (lo4 & hi4 & [E4| ->]); [|lia]. rewrite Ep in E4. injection E4 as -> _ _. exact Hl. }
    constructor; [eauto 6|]. apply (IH (S ip) n3); auto; [lia|]. intros Hlt3.
    destruct (patch_range_ok (length faces) (S ip) (proj1 Hn3)) as (n5 & bin5 & lo5 & hi5 & Er5 & Hn5 & _ & _ & _ & _ & Hcase5).
    exists lo5, hi5. left. rewrite Er5. f_equal. f_equal. f_equal.
    destruct Hcase5 as [(-> & _)|(-> & _ & Hlt5)]; auto.
    destruct Hcase as [(-> & -> & Hb)|(-> & _)]; [|lia]. exfalso.
    rewrite Nat.div_small in Hb by lia. lia. }
  specialize (G (S np) 0 np ps Hn (fun _ => ex_intro _ 0 (ex_intro _ 0 (or_intror eq_refl))) E).
  rewrite Forall_forall in *. intros p Hin. destruct (G p Hin) as (ip & n & n' & Hip & Es).
  assert (Hr : reached points faces p) by (econstructor; eauto).
  destruct (start_faces_inv _ _ _ _ Es) as (_ & _ & _ & L). split; [exact L|split; [exact Hr|]].
  intros i f Ei. destruct (reached_denotes Hp Hf Hr) as (els & D).
  pose proof D as (P & _ & _ & De). rewrite P in Ei. rewrite nth_error_map in Ei. unfold felem in *. destruct (nth_error els i) as [e|] eqn:Ee; cbn [option_map] in Ei; [|discriminate]. injection Ei as <-.
  pose proof (@denotes_element _ _ points faces Hp Hf p els i e D Ee) as He.
  destruct (De _ _ Ee) as (_ & Hl & _).
  rewrite L in Hl. destruct e as [f q]. cbn [snd fst] in *. apply length_zero_iff_nil in Hl. subst q. exact He.
Qed.

(** Without faces there is one patch, and its pool is empty. *)
Theorem C31_no_faces {F} `{Num F} (points : list (list F)) (np : nat) : 1 <= np ->
  patches (S np) points [] 0 np = Ok [Pool [] [] [] 0].
Proof.
  intros Hn. rewrite patches_S. destruct np as [|np]; [lia|]. cbn [Nat.ltb Nat.leb].
  assert (E : start_faces points [] 0 (S np) = Ok (Pool [] [] [] 0, 1)).
  { unfold start_faces, patch_range. cbn [length]. rewrite Nat.div_0_l by lia. reflexivity. }
  rewrite E. cbn [bind]. rewrite patches_S. reflexivity.
Qed.

(** ** C32 *)
(** One refinement replaces every element the spheres do not cover by its four quarters (in order)
    and drops the others, for any number of threads and any interleaving. *)
Theorem C32_refine {F} `{Num F} (points : list (list F)) (faces : list (list nat)) ss es cs Lip ratio T sched p p' :
  good_points points -> good_faces points faces -> reached points faces p -> finished (p_size p / T + 1) T sched ->
  refine_pool_faces points faces ss es cs Lip ratio T sched p = Ok p' ->
  exists kept, StronglySorted lt kept
    /\ (forall i, In i kept -> i < p_size p)
    /\ (forall i t, i < p_size p -> element points faces p i t ->
          exists b, tested ss es cs Lip ratio t b /\ (In i kept <-> b = false))
    /\ p_size p' = 4 * length kept
    /\ (forall j i c, nth_error kept j = Some i -> c < 4 ->
         nth_error (p_parent p') (4 * j + c) = nth_error (p_parent p) i
         /\ forall t, element points faces p i t -> element points faces p' (4 * j + c) (quarter center2 c t)).
Proof.
  intros Hp Hf Hr Hs E. destruct (reached_denotes Hp Hf Hr) as (els & D).
  destruct (@refine_elements _ _ points faces Hp Hf ss es cs Lip ratio p els T sched p' D Hs E) as (kept & A1 & A2 & A3 & A4 & A5).
  exists kept. auto.
Qed.
(** Every index of a pool is a triangle, and the sampling weights are the areas of these triangles. *)
Theorem C32_elements {F} `{Num F} (points : list (list F)) (faces : list (list nat)) p :
  good_points points -> good_faces points faces -> reached points faces p ->
  exists ts, length ts = p_size p
    /\ (forall i t, nth_error ts i = Some t -> element points faces p i t)
    /\ make_cdf (map size_of ts) = Ok (p_cdf p).
Proof. intros Hp Hf Hr. destruct (reached_denotes Hp Hf Hr) as (els & D). eapply denotes_cdf; eauto. Qed.

Theorem C32_erefine {F} `{Num F} (points : list (list F)) (edges : list (list nat)) es cs Lip ratio p p' :
  good_points points -> good_edges points edges -> ereached points edges p ->
  refine_pool_edges points edges es cs Lip ratio p = Ok p' ->
  exists kept, StronglySorted lt kept
    /\ (forall i, In i kept -> i < p_size p)
    /\ (forall i s, i < p_size p -> segment points edges p i s ->
          exists b, etested es cs Lip ratio s b /\ (In i kept <-> b = false))
    /\ p_size p' = 2 * length kept
    /\ (forall j i c, nth_error kept j = Some i -> c < 2 ->
         nth_error (p_parent p') (2 * j + c) = nth_error (p_parent p) i
         /\ forall s, segment points edges p i s -> segment points edges p' (2 * j + c) (half center2 c s)).
Proof.
  intros Hp Hf Hr E. destruct (ereached_denotes Hp Hf Hr) as (els & D).
  destruct (@erefine_segments _ _ points edges Hp Hf es cs Lip ratio p els p' D E) as (kept & A1 & A2 & A3 & A4 & A5).
  exists kept. auto.
Qed.
Theorem C32_segments {F} `{Num F} (points : list (list F)) (edges : list (list nat)) p :
  good_points points -> good_edges points edges -> ereached points edges p ->
  exists ss, length ss = p_size p
    /\ (forall i s, nth_error ss i = Some s -> segment points edges p i s)
    /\ make_cdf (map length_of ss) = Ok (p_cdf p).
Proof. intros Hp Hf Hr. destruct (ereached_denotes Hp Hf Hr) as (els & D). eapply edenotes_cdf; eauto. Qed.

Local Open Scope R_scope.
(** The quarters tile the triangle, do not overlap and have equal areas. *)
Theorem C32_tile (t : list R * list R * list R) (p : nat -> R) :
  in_tri t p <-> exists c, (c < 4)%nat /\ in_tri (quarter center2 c t) p.
Proof. apply quarter_tiles. Qed.
Theorem C32_disjoint (t : list R * list R * list R) (p : nat -> R) c c' : ~ flat_tri t -> (c < 4)%nat -> (c' < 4)%nat ->
  inside_tri (quarter center2 c t) p -> inside_tri (quarter center2 c' t) p -> c = c'.
Proof. apply quarters_disjoint. Qed.
Theorem C32_area (t : list R * list R * list R) c : (c < 4)%nat -> size_of (quarter center2 c t) = size_of t / 4.
Proof.
  intros Hc. pose proof (@quarter_area t c Hc) as E. unfold tri_area in E. destruct t as [[x y] z].
  unfold size_of at 2. rewrite area3_tri, <- E. unfold size_of. destruct (quarter center2 c (x, y, z)) as [[a b] d]. apply area3_tri.
Qed.
Theorem C32_halves (s : list R * list R) (p : nat -> R) :
  (in_seg s p <-> exists c, (c < 2)%nat /\ in_seg (half center2 c s) p)
  /\ ((exists d, (d < 3)%nat /\ vec (fst s) d <> vec (snd s) d) -> inside_seg (half center2 0 s) p -> inside_seg (half center2 1 s) p -> False)
  /\ forall c, (c < 2)%nat -> length_of (half center2 c s) = length_of s / 2.
Proof.
  split; [apply half_tiles|split; [apply halves_disjoint|]].
  intros c Hc. pose proof (@half_length s c Hc) as E.
  assert (G : forall s : list R * list R, length_of s = vdist 3 (vec (fst s)) (vec (snd s))) by (intros [a b]; unfold length_of; apply distance_R).
  rewrite !G. exact E.
Qed.
(** At any depth: an element lies in the face it came from and has the area of the face over 4^level. *)
Theorem C32_depth (points : list (list R)) (faces : list (list nat)) p i t :
  good_points points -> good_faces points faces -> reached points faces p -> element points faces p i t -> (i < p_size p)%nat ->
  exists f, nth_error (p_parent p) i = Some f /\ (f < length faces)%nat
    /\ (forall q, in_tri t q -> in_tri (face_tri points faces f) q)
    /\ size_of t = size_of (face_tri points faces f) / 4 ^ p_level p.
Proof.
  intros Hp Hf Hr He Hi. destruct (reached_denotes Hp Hf Hr) as (els & D).
  rewrite (@denotes_size _ _ _ _ _ _ D) in Hi. destruct (nth_error els i) as [e|] eqn:Ee; [|apply nth_error_None in Ee; lia].
  pose proof (element_unique He (@denotes_element _ _ points faces Hp Hf p els i e D Ee)) as ->.
  destruct D as (P & _ & _ & De). destruct (De _ _ Ee) as (Hl & Hn & _). destruct e as [f q].
  exists f. rewrite P. rewrite (map_nth_error _ _ _ Ee). split; auto. split; auto. split.
  - intros x. apply path_in_face.
  - assert (G : forall t : list R * list R * list R, size_of t = tri_area t) by (intros [[a b] c]; apply area3_tri).
    rewrite !G, path_area. cbn [snd] in Hn. now rewrite Hn.
Qed.
Theorem C32_edepth (points : list (list R)) (edges : list (list nat)) p i s :
  good_points points -> good_edges points edges -> ereached points edges p -> segment points edges p i s -> (i < p_size p)%nat ->
  exists e, nth_error (p_parent p) i = Some e /\ (e < length edges)%nat
    /\ (forall q, in_seg s q -> in_seg (edge_seg points edges e) q)
    /\ length_of s = length_of (edge_seg points edges e) / 2 ^ p_level p.
Proof.
  intros Hp Hf Hr He Hi. destruct (ereached_denotes Hp Hf Hr) as (els & D).
  rewrite (@edenotes_size _ _ _ _ _ _ D) in Hi. destruct (nth_error els i) as [e|] eqn:Ee; [|apply nth_error_None in Ee; lia].
  pose proof (segment_unique He (@edenotes_segment _ _ points edges Hp Hf p els i e D Ee)) as ->.
  destruct D as (P & _ & _ & De). destruct (De _ _ Ee) as (Hl & Hn & _). destruct e as [f q].
  exists f. rewrite P. rewrite (map_nth_error _ _ _ Ee). split; auto. split; auto. split.
  - intros x. apply epath_in_edge.
  - assert (G : forall s : list R * list R, length_of s = vdist 3 (vec (fst s)) (vec (snd s))) by (intros [a b]; unfold length_of; apply distance_R).
    rewrite !G, epath_length. cbn [snd] in Hn. now rewrite Hn.
Qed.

(** ** C33 *)
(** A refinement with usable spheres does not fail. *)
Theorem C33_total points faces Lip ratio sc T sched p : good_points points -> good_faces points faces -> reached points faces p ->
  usable_scene points faces sc -> (1 <= T)%nat -> finished (p_size p / T + 1) T sched ->
  exists p', refine_pool_faces points faces (surface_of sc) (edges_of sc) (corners_of sc) Lip ratio T sched p = Ok p'.
Proof. intros Hp Hf Hr U HT Hs. destruct (reached_denotes Hp Hf Hr) as (els & D). eapply refine_total; eauto. Qed.
(** Every point of every face of the patch is covered by the spheres present at one of the refinements or still
    lies in an element of the pool. *)
Theorem C33_invariant points faces Lip ratio p0 scs p : good_points points -> good_faces points faces -> reached points faces p0 ->
  history points faces Lip ratio p0 scs p -> Forall (usable_scene points faces) scs ->
  forall i t q, (i < p_size p0)%nat -> element points faces p0 i t -> in_tri t q ->
    (exists sc, In sc scs /\ covered_surface ratio sc q)
    \/ exists i' t', (i' < p_size p)%nat /\ element points faces p i' t' /\ in_tri t' q.
Proof.
  intros Hp Hf Hr Hh U. eapply history_point; eauto. eapply reached_denotes; eauto.
Qed.
(** If spheres were only added, an empty pool means that the spheres cover every face of the patch. *)
Theorem C33_patch points faces Lip ratio p0 scs p final : good_points points -> good_faces points faces -> reached points faces p0 -> p_level p0 = 0%nat ->
  history points faces Lip ratio p0 scs p -> Forall (usable_scene points faces) scs -> Forall (fun sc => scene_grows sc final) scs ->
  p_size p = 0%nat ->
  forall f q, In f (p_parent p0) -> in_tri (face_tri points faces f) q -> covered_surface ratio final q.
Proof.
  intros Hp Hf Hr Hl Hh U Hg Hz f q Hin Hq. destruct (In_nth_error _ _ Hin) as (i & Ei).
  assert (Hi : (i < p_size p0)%nat) by (apply nth_error_Some_lt in Ei; exact Ei).
  assert (He : element points faces p0 i (face_tri points faces f)).
  { destruct (reached_denotes Hp Hf Hr) as (els & D). pose proof D as (P & _ & _ & De). rewrite P in Ei. rewrite nth_error_map in Ei. unfold felem in *.
    destruct (nth_error els i) as [e|] eqn:Ee; cbn [option_map] in Ei; [|discriminate]. injection Ei as <-.
    pose proof (@denotes_element _ _ points faces Hp Hf p0 els i e D Ee) as He.
    destruct (De _ _ Ee) as (_ & Hn & _). rewrite Hl in Hn. destruct e as [f q']. cbn [snd fst] in *. apply length_zero_iff_nil in Hn. subst q'. exact He. }
  destruct (@C33_invariant points faces Lip ratio p0 scs p Hp Hf Hr Hh U i _ q Hi He Hq) as [(sc & Hs & Hc)|(i' & t' & Hlt & _)]; [|lia].
  rewrite Forall_forall in Hg. eapply covered_grows; eauto.
Qed.
(** All patches worked off: the whole surface is covered. *)
Theorem C33_surface points faces Lip ratio np ps final : good_points points -> good_faces points faces -> (1 <= np)%nat ->
  patches (S np) points faces 0 np = Ok ps ->
  (forall p0, In p0 ps -> exists scs p, history points faces Lip ratio p0 scs p /\ p_size p = 0%nat
      /\ Forall (usable_scene points faces) scs /\ Forall (fun sc => scene_grows sc final) scs) ->
  forall q, on_mesh points faces q -> covered_surface ratio final q.
Proof.
  intros Hp Hf Hn E Hh q (f & Hlt & Hq).
  destruct (@C31_partition _ _ points faces np Hp Hf Hn) as (ps' & E' & Hc & _ & Ha). rewrite E in E'. injection E' as <-.
  assert (Hin : In f (concat (map (fun p => p_parent p) ps))) by (rewrite Hc; apply in_seq; lia).
  apply in_concat in Hin. destruct Hin as (l & Hl & Hin). apply in_map_iff in Hl. destruct Hl as (p0 & <- & Hp0).
  rewrite Forall_forall in Ha. destruct (Ha p0 Hp0) as (L & Hr & _).
  destruct (Hh p0 Hp0) as (scs & p & H1 & H2 & H3 & H4). eapply C33_patch; eauto.
Qed.
(** The same for the edges. *)
Theorem C33_etotal points edges Lip ratio sc p : good_points points -> good_edges points edges -> ereached points edges p ->
  usable_escene points edges sc ->
  exists p', refine_pool_edges points edges (edges_of sc) (corners_of sc) Lip ratio p = Ok p'.
Proof. intros Hp Hf Hr U. destruct (ereached_denotes Hp Hf Hr) as (els & D). eapply erefine_total; eauto. Qed.
Theorem C33_edges points edges Lip ratio p0 scs p final : good_points points -> good_edges points edges ->
  start_edges points edges = Ok p0 ->
  ehistory points edges Lip ratio p0 scs p -> Forall (usable_escene points edges) scs -> Forall (fun sc => scene_grows sc final) scs ->
  p_size p = 0%nat ->
  forall q, on_edges points edges q -> covered_edge ratio final q.
Proof.
  intros Hp Hf Es Hh U Hg Hz q (f & Hlt & Hq).
  destruct (@start_edges_ok _ _ points edges Hp Hf) as (p2 & E2 & D & _). rewrite Es in E2. injection E2 as <-.
  assert (Ee : nth_error (map (fun e : nat => (e, @nil bool)) (seq 0 (length edges))) f = Some (f, [])).
  { erewrite map_nth_error; [reflexivity|]. rewrite (nth_error_nth' _ 0%nat) by (rewrite seq_length; auto). now rewrite seq_nth by auto. }
  pose proof (@edenotes_segment _ _ points edges Hp Hf p0 _ f _ D Ee) as He.
  assert (Hi : (f < p_size p0)%nat) by (rewrite (@edenotes_size _ _ _ _ _ _ D), map_length, seq_length; auto).
  destruct (@ehistory_point points edges Hp Hf Lip ratio p0 scs p (ex_intro _ _ D) Hh U f _ q Hi He Hq) as [(sc & Hs & Hc)|(i' & t' & Hl & _)]; [|lia].
  rewrite Forall_forall in Hg. eapply ecovered_grows; eauto.
Qed.

(** ** C34 *)
(** The result does not depend on the number of threads nor on the interleaving. *)
Theorem C34_threads {F} `{Num F} (points : list (list F)) (faces : list (list nat)) ss es cs Lip ratio T sched T' sched' p p' :
  good_points points -> good_faces points faces -> reached points faces p -> (1 <= T')%nat ->
  finished (p_size p / T + 1) T sched -> finished (p_size p / T' + 1) T' sched' ->
  refine_pool_faces points faces ss es cs Lip ratio T sched p = Ok p' ->
  refine_pool_faces points faces ss es cs Lip ratio T' sched' p = Ok p'.
Proof.
  intros Hp Hf Hr HT Hs Hs' E. destruct (reached_denotes Hp Hf Hr) as (els & D).
  assert (HT0 : (1 <= T)%nat) by (destruct T; [discriminate|lia]).
  destruct (@refine_ok _ _ points faces Hp Hf ss es cs Lip ratio p els T sched D Hs) as (G & G').
  destruct (@refine_ok _ _ points faces Hp Hf ss es cs Lip ratio p els T' sched' D Hs') as (_ & G2).
  destruct (G _ E) as (bs & Ha & _). rewrite (G2 HT bs Ha). rewrite <- (G' HT0 bs Ha). exact E.
Qed.
(** The serial build runs the threads one after the other. *)
Theorem C34_serial {F} `{Num F} (points : list (list F)) (faces : list (list nat)) ss es cs Lip ratio T sched p p' :
  good_points points -> good_faces points faces -> reached points faces p ->
  finished (p_size p / T + 1) T sched ->
  refine_pool_faces points faces ss es cs Lip ratio T sched p = Ok p' ->
  refine_pool_faces points faces ss es cs Lip ratio T (in_order (p_size p / T + 1) T) p = Ok p'
  /\ refine_pool_faces points faces ss es cs Lip ratio 1 (in_order (p_size p / 1 + 1) 1) p = Ok p'.
Proof.
  intros Hp Hf Hr Hs E. assert (HT0 : (1 <= T)%nat) by (destruct T; [discriminate|lia]).
  split; eapply C34_threads; eauto; apply in_order_finished.
Qed.

(** ** Hypotheses are met *)
(** One face; first no spheres, then two big ones: the first refinement makes four elements, the second
    leaves none. *)
Definition one_points : list (list R) := [[0; 0; 0]; [1; 0; 0]; [0; 1; 0]].
Definition one_face : list (list nat) := [[3; 0; 1; 2]%nat].
Definition no_spheres : stree R := ST 3 100 [] None None ([], []) 0 0 [] [].
Definition bare : scene := Scene no_spheres no_spheres no_spheres.
Definition dressed : scene := Scene (two_spheres 1 10 10) no_spheres no_spheres.
Lemma one_good : good_points one_points /\ good_faces one_points one_face.
Proof.
  split.
  - intros p [<-|[<-|[<-|[]]]]; cbn; lia.
  - intros f [<-|[]]. split; [cbn; lia|]. intros k Hk. destruct k as [|[|[|[|]]]]; cbn; lia.
Qed.
Lemma one_near q : on_mesh one_points one_face q -> vdist 3 q (center (two_spheres 1 10 10) 0) < 9.
Proof.
  intros (f & Hf & m & (Hs & Hq) & Hm). cbn in Hf. assert (f = 0%nat) by lia. subst f.
  pose proof (Hm 0%nat ltac:(lia)). pose proof (Hm 1%nat ltac:(lia)). pose proof (Hm 2%nat ltac:(lia)).
  pose proof (Hq 0%nat ltac:(lia)) as Q0. pose proof (Hq 1%nat ltac:(lia)) as Q1. pose proof (Hq 2%nat ltac:(lia)) as Q2.
  cbn in Q0, Q1, Q2. unfold vdist, norm. rewrite <- (sqrt_Rsqr 9) by lra. apply sqrt_lt_1_alt.
  unfold dot, sumn, center, coord. cbn. unfold Rsqr.
  replace (q 0%nat) with (m 1%nat) by lra. replace (q 1%nat) with (m 2%nat) by lra. replace (q 2%nat) with 0 by lra.
  assert (m 1%nat * m 1%nat <= 1) by nra. assert (m 2%nat * m 2%nat <= 1) by nra.
  pose proof (Rle_0_sqr (m 1%nat)). pose proof (Rle_0_sqr (m 2%nat)). unfold Rsqr in *. unfold SamplingSpec.rsum; cbn; split; lra.
Qed.
Lemma bare_usable : usable_scene one_points one_face bare.
Proof. repeat split; left; reflexivity. Qed.
Lemma dressed_usable : usable_scene one_points one_face dressed.
Proof.
  split; [right|split; left; reflexivity]. split; [apply two_spheres_ok; lra|].
  intros p Hp. exists 0%nat. split; [cbn; lia|]. eapply Rlt_trans; [exact (one_near Hp)|]. pose proof dbl_max_big. lra.
Qed.
Lemma dressed_covers a b c r : (forall q, in_tri (a, b, c) q -> on_mesh one_points one_face q) ->
  tested (two_spheres 1 10 10) no_spheres no_spheres (1/4) 0 (a, b, c) r -> r = true.
Proof.
  intros Hin Ht. set (s := two_spheres 1 10 10) in *.
  assert (E : face_covered s a b c (1/4) 0 = Ok true).
  { assert (Hr : point_at_reach s (vec (center3 a b c))).
    { exists 0%nat. split; [cbn; lia|]. pose proof (one_near (Hin _ (center_in_tri a b c))). pose proof dbl_max_big. unfold s. lra. }
    destruct (@C27_face_sound s a b c (1/4) 0 ltac:(apply two_spheres_ok; lra) Hr) as (r' & E & _).
    destruct r'; auto. exfalso.
    assert (V : forall k, (k < 3)%nat -> vdist 3 (corner3 a b c k) (center s 0) < 9).
    { intros k Hk. apply one_near, Hin. exists (fun j => if Nat.eqb j k then 1 else 0). split; [split|].
      - destruct k as [|[|[|]]]; try lia; cbn; lra.
      - intros d Hd. destruct k as [|[|[|]]]; try lia; cbn; lra.
      - intros j Hj. destruct (Nat.eqb j k); lra. }
    apply (@C27_face_complete s a b c (1/4) 0 ltac:(apply two_spheres_ok; lra) Hr ltac:(lra)
      ltac:(apply lipschitz_local, two_spheres_lipschitz; [lra|unfold Rabs; destruct (Rcase_abs _); lra]) E 0%nat ltac:(cbn; lia)).
    - intros k Hk. change (radius s 0) with 10. pose proof (V k Hk). lra.
    - intros k Hk. unfold covers. rewrite sqrt_one. unfold reach. change (radius s 0) with 10. pose proof (V k Hk). pose proof eight_pos. lra. }
  destruct Ht as [(_ & ->)|[(E1 & _)|(E1 & _)]]; auto; congruence.
Qed.
(** The hypotheses of C33_surface (hence of the theorems above) are met. *)
Example C33_hypotheses : exists ps, patches 101 one_points one_face 0 100 = Ok ps /\ length ps = 1%nat
  /\ forall p0, In p0 ps -> exists p1 p,
       history one_points one_face (1/4) 0 p0 [bare] p1 /\ p_size p1 = 4%nat
       /\ history one_points one_face (1/4) 0 p0 [bare; dressed] p /\ p_size p = 0%nat
       /\ Forall (usable_scene one_points one_face) [bare; dressed]
       /\ Forall (fun sc => scene_grows sc dressed) [bare; dressed].
Proof.
  destruct one_good as (Hp & Hf).
  destruct (@C31_partition _ _ one_points one_face 100 Hp Hf ltac:(lia)) as (ps & E & Hc & Hne & Ha).
  exists ps. split; auto.
  assert (Hps : exists p0, ps = [p0] /\ p_parent p0 = [0%nat]).
  { assert (Hne' := Hne ltac:(discriminate)). clear Ha E Hne. cbn in Hc.
    destruct ps as [|p0 ps]; [discriminate|]. exists p0. cbn [map concat] in Hc.
    inversion Hne'; subst. destruct (p_parent p0) as [|x [|y l]] eqn:Ep; try congruence; cbn in Hc.
    - injection Hc as -> Hc. destruct ps as [|p1 ps]; auto. exfalso. inversion H2; subst. cbn in Hc. destruct (p_parent p1); [congruence|discriminate].
    - discriminate. }
  destruct Hps as (p0 & -> & P0). split; auto. intros p0' [<-|[]].
  apply Forall_inv in Ha. destruct Ha as (L0 & R0 & E0).
  assert (Hfin : forall (p : pool R), finished (p_size p / 1 + 1) 1 (in_order (p_size p / 1 + 1) 1)) by (intros; apply in_order_finished).
  destruct (@C33_total one_points one_face (1/4) 0 bare 1 _ p0 Hp Hf R0 bare_usable ltac:(lia) (Hfin p0)) as (p1 & E1).
  assert (R1 : reached one_points one_face p1) by (eapply reached_refine; eauto).
  destruct (@C33_total one_points one_face (1/4) 0 dressed 1 _ p1 Hp Hf R1 dressed_usable ltac:(lia) (Hfin p1)) as (p2 & E2).
  assert (H1 : history one_points one_face (1/4) 0 p0 [bare] p1).
  { change [bare] with ([] ++ [bare]). eapply history_refine; eauto. constructor. }
  exists p1, p2. split; auto. split; [|split; [|split; [|split]]].
  - destruct (@C32_refine _ _ one_points one_face _ _ _ _ _ 1 _ p0 p1 Hp Hf R0 (Hfin p0) E1) as (kept & S1 & K1 & K2 & K3 & _).
    assert (Hs0 : p_size p0 = 1%nat) by (unfold p_size; rewrite P0; reflexivity).
    destruct (K2 0%nat (face_tri one_points one_face 0) ltac:(lia) (E0 0%nat 0%nat ltac:(rewrite P0; reflexivity))) as (b & Hb & Hin).
    assert (b = false).
    { destruct (@C27_no_spheres no_spheres (face_corner one_points one_face 0 0) (face_corner one_points one_face 0 1) (face_corner one_points one_face 0 2) (1/4) 0 eq_refl) as (_ & _ & N).
      cbn [tested face_tri bare surface_of edges_of corners_of] in Hb.
      destruct Hb as [(X & _)|[(_ & X & _)|(_ & _ & X)]]; [exfalso| exfalso|]; try change (@n0 R RNum) with 0 in X; rewrite N in X; congruence. }
    subst b. pose proof (proj2 Hin eq_refl) as Hin0. rewrite K3.
    destruct kept as [|x [|y l]]; [destruct Hin0|reflexivity|]. exfalso.
    pose proof (K1 x ltac:(now left)). pose proof (K1 y ltac:(right; now left)). inversion S1 as [|? ? _ S2]; subst. inversion S2; subst. lia.
  - change [bare; dressed] with ([bare] ++ [dressed]). eapply history_refine; eauto.
  - destruct (@C32_refine _ _ one_points one_face _ _ _ _ _ 1 _ p1 p2 Hp Hf R1 (Hfin p1) E2) as (kept & S1 & K1 & K2 & K3 & _).
    rewrite K3. destruct kept as [|x l]; [reflexivity|]. exfalso. pose proof (K1 x ltac:(now left)) as Hx.
    destruct (@C32_elements _ _ one_points one_face p1 Hp Hf R1) as (ts & Hl & Ht & _).
    destruct (nth_error ts x) as [t|] eqn:Et; [|apply nth_error_None in Et; lia]. pose proof (Ht _ _ Et) as He.
    destruct (K2 x t Hx He) as (b & Hb & Hin). pose proof (proj1 Hin ltac:(now left)) as ->.
    destruct (@C32_depth one_points one_face p1 x t Hp Hf R1 He Hx) as (f & _ & Hfl & Hinf & _).
    destruct t as [[a b] c]. assert (false = true); [|discriminate]. eapply dressed_covers; [|exact Hb].
    intros q Hq. exists f. auto.
  - constructor; [apply bare_usable|constructor; [apply dressed_usable|constructor]].
  - constructor; [|constructor; [|constructor]]; split; try split;
      first [exists []; reflexivity|exists (st_pts (two_spheres 1 10 10)); reflexivity].
Qed.
Print Assumptions C31_partition.
Print Assumptions C31_no_faces.
Print Assumptions C32_refine.
Print Assumptions C32_elements.
Print Assumptions C32_erefine.
Print Assumptions C32_segments.
Print Assumptions C32_tile.
Print Assumptions C32_disjoint.
Print Assumptions C32_area.
Print Assumptions C32_halves.
Print Assumptions C32_depth.
Print Assumptions C32_edepth.
Print Assumptions C33_total.
Print Assumptions C33_invariant.
Print Assumptions C33_patch.
Print Assumptions C33_surface.
Print Assumptions C33_etotal.
Print Assumptions C33_edges.
Print Assumptions C34_threads.
Print Assumptions C34_serial.
