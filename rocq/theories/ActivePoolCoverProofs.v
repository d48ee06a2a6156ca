(** Proofs about the active pool over the reals: tiling and coverage. *)
From Verif Require Import Base Num MemoryHandler DenseQR KdTree Vec KdSpec SmartTree SmartTreeSpec Geometry GeometrySpec GeometryProofs
  Spheres SpheresSpec SpheresProofs Sampling ActivePool ActivePoolSpec ActivePoolThreadProofs ActivePoolProofs
  ActivePoolStartProofs ActivePoolEdgeProofs ActivePoolRunSpec ActivePoolRunProofs PropsSpheres.
From Coq Require Import Reals Lra.
Local Open Scope R_scope.

(** ** Midpoints *)
Lemma mid_vec (a b : list R) d : (d < 3)%nat -> vec (center2 a b) d = (vec a d + vec b d) / 2.
Proof. intros Hd. rewrite center2_vec by auto. lra. Qed.

(** ** Quartering a triangle *)
Lemma tri0 x y z : tri (x, y, z) 0%nat = vec x. Proof. reflexivity. Qed.
Lemma tri1 x y z : tri (x, y, z) 1%nat = vec y. Proof. reflexivity. Qed.
Lemma tri2 x y z : tri (x, y, z) 2%nat = vec z. Proof. reflexivity. Qed.

Definition weights (a b c : R) : nat -> R := fun k => match k with 0%nat => a | 1%nat => b | _ => c end.
(** Barycentric coordinates in the triangle from those in quarter c. *)
Definition lift (c : nat) (m : nat -> R) : nat -> R :=
  match c with
  | 0%nat => weights (m 0%nat + m 1%nat / 2 + m 2%nat / 2) (m 1%nat / 2) (m 2%nat / 2)
  | 1%nat => weights (m 0%nat / 2) (m 0%nat / 2 + m 1%nat + m 2%nat / 2) (m 2%nat / 2)
  | 2%nat => weights (m 0%nat / 2) (m 1%nat / 2) (m 0%nat / 2 + m 1%nat / 2 + m 2%nat)
  | _ => weights (m 0%nat / 2 + m 2%nat / 2) (m 0%nat / 2 + m 1%nat / 2) (m 1%nat / 2 + m 2%nat / 2)
  end.
Lemma lift_bary c t m p : (c < 4)%nat -> barycentric (tri (quarter center2 c t)) m p -> barycentric (tri t) (lift c m) p.
Proof.
  intros Hc (Hs & Hp). destruct t as [[x y] z].
  destruct c as [|[|[|[|]]]]; try lia; cbn [quarter lift] in *; (split; [unfold weights; lra|]); intros d Hd; rewrite (Hp d Hd);
    rewrite ?tri0, ?tri1, ?tri2, !mid_vec by auto; unfold weights; lra.
Qed.
Lemma lower_bary c t m p : (c < 4)%nat -> barycentric (tri t) (lift c m) p -> m 0%nat + m 1%nat + m 2%nat = 1 ->
  barycentric (tri (quarter center2 c t)) m p.
Proof.
  intros Hc (_ & Hp) Hs. destruct t as [[x y] z]. split; auto. intros d Hd. rewrite (Hp d Hd).
  destruct c as [|[|[|[|]]]]; try lia; cbn [quarter lift] in *;
    rewrite ?tri0, ?tri1, ?tri2, !mid_vec by auto; unfold weights; lra.
Qed.
Lemma bary_ext t m m' p : barycentric t m p -> (forall k, (k < 3)%nat -> m k = m' k) -> barycentric t m' p.
Proof.
  intros (Hs & Hp) E. split; [|intros d Hd; rewrite (Hp d Hd)]; rewrite <- !E by lia; auto.
Qed.

Lemma quarter_tiles t p : in_tri t p <-> exists c, (c < 4)%nat /\ in_tri (quarter center2 c t) p.
Proof.
  split.
  - intros (m & B & Hm). pose proof (Hm 0%nat ltac:(lia)). pose proof (Hm 1%nat ltac:(lia)). pose proof (Hm 2%nat ltac:(lia)).
    pose proof (proj1 B) as Hs.
    assert (G : forall c w, (c < 4)%nat -> (forall k, (k < 3)%nat -> 0 <= w k) -> (w 0%nat + w 1%nat + w 2%nat = 1) ->
       (forall k, (k < 3)%nat -> m k = lift c w k) -> exists c, (c < 4)%nat /\ in_tri (quarter center2 c t) p).
    { intros c w Hc Hw Hws E. exists c. split; auto. exists w. split; auto. apply lower_bary; auto. eapply bary_ext; eauto. }
    destruct (Rle_lt_dec (1 / 2) (m 0%nat)).
    { apply (G 0%nat (weights (2 * m 0%nat - 1) (2 * m 1%nat) (2 * m 2%nat))); unfold weights; try lia; try lra;
        intros k Hk; destruct k as [|[|[|]]]; try lia; cbn; lra. }
    destruct (Rle_lt_dec (1 / 2) (m 1%nat)).
    { apply (G 1%nat (weights (2 * m 0%nat) (2 * m 1%nat - 1) (2 * m 2%nat))); unfold weights; try lia; try lra;
        intros k Hk; destruct k as [|[|[|]]]; try lia; cbn; lra. }
    destruct (Rle_lt_dec (1 / 2) (m 2%nat)).
    { apply (G 2%nat (weights (2 * m 0%nat) (2 * m 1%nat) (2 * m 2%nat - 1))); unfold weights; try lia; try lra;
        intros k Hk; destruct k as [|[|[|]]]; try lia; cbn; lra. }
    apply (G 3%nat (weights (1 - 2 * m 2%nat) (1 - 2 * m 0%nat) (1 - 2 * m 1%nat))); unfold weights; try lia; try lra;
      intros k Hk; destruct k as [|[|[|]]]; try lia; cbn; lra.
  - intros (c & Hc & m & B & Hm). exists (lift c m). split; [apply lift_bary; auto|].
    pose proof (Hm 0%nat ltac:(lia)). pose proof (Hm 1%nat ltac:(lia)). pose proof (Hm 2%nat ltac:(lia)).
    intros k Hk. destruct c as [|[|[|[|]]]]; try lia; destruct k as [|[|[|]]]; try lia; cbn; lra.
Qed.

(** Coordinates in a proper triangle are unique. *)
Lemma bary_unique t m m' p : ~ flat_tri t -> barycentric (tri t) m p -> barycentric (tri t) m' p -> forall k, (k < 3)%nat -> m k = m' k.
Proof.
  intros Hf (S1 & P1) (S2 & P2).
  set (u := sub (tri t 1%nat) (tri t 0%nat)). set (v := sub (tri t 2%nat) (tri t 0%nat)).
  set (a := m 1%nat - m' 1%nat). set (b := m 2%nat - m' 2%nat).
  assert (L : forall d, (d < 3)%nat -> a * u d + b * v d = 0).
  { intros d Hd. pose proof (P1 d Hd). pose proof (P2 d Hd). unfold a, b, u, v, sub.
    replace (m 0%nat) with (1 - m 1%nat - m 2%nat) in * by lra. replace (m' 0%nat) with (1 - m' 1%nat - m' 2%nat) in * by lra. nra. }
  pose proof (L 0%nat ltac:(lia)) as L0. pose proof (L 1%nat ltac:(lia)) as L1. pose proof (L 2%nat ltac:(lia)) as L2.
  assert (Ha : a = 0).
  { destruct (Req_dec a 0) as [|Na]; auto. exfalso. apply Hf. intros d Hd. fold u v.
    assert (C : a * vprod u v d = 0).
    { assert (G : forall i j, a * u i + b * v i = 0 -> a * u j + b * v j = 0 -> a * (u i * v j - u j * v i) = 0).
      { intros i j Gi Gj. replace (a * (u i * v j - u j * v i)) with (v j * (a * u i + b * v i) - v i * (a * u j + b * v j)) by ring.
        rewrite Gi, Gj. ring. }
      destruct d as [|[|[|]]]; try lia; unfold vprod; apply G; auto. }
    apply Rmult_integral in C. tauto. }
  assert (Hb : b = 0).
  { destruct (Req_dec b 0) as [|Na]; auto. exfalso. apply Hf. intros d Hd. fold u v.
    assert (C : b * vprod u v d = 0).
    { assert (G : forall i j, a * u i + b * v i = 0 -> a * u j + b * v j = 0 -> b * (u i * v j - u j * v i) = 0).
      { intros i j Gi Gj. replace (b * (u i * v j - u j * v i)) with (u i * (a * u j + b * v j) - u j * (a * u i + b * v i)) by ring.
        rewrite Gi, Gj. ring. }
      destruct d as [|[|[|]]]; try lia; unfold vprod; apply G; auto. }
    apply Rmult_integral in C. tauto. }
  intros k Hk. unfold a, b in *. destruct k as [|[|[|]]]; try lia; lra.
Qed.
Lemma quarters_disjoint t p c c' : ~ flat_tri t -> (c < 4)%nat -> (c' < 4)%nat ->
  inside_tri (quarter center2 c t) p -> inside_tri (quarter center2 c' t) p -> c = c'.
Proof.
  intros Hf Hc Hc' (m & B & Hm) (m' & B' & Hm').
  pose proof (@lift_bary c t m p Hc B) as L. pose proof (@lift_bary c' t m' p Hc' B') as L'.
  pose proof (@bary_unique t _ _ p Hf L L') as U.
  pose proof (U 0%nat ltac:(lia)) as U0. pose proof (U 1%nat ltac:(lia)) as U1. pose proof (U 2%nat ltac:(lia)) as U2.
  pose proof (Hm 0%nat ltac:(lia)). pose proof (Hm 1%nat ltac:(lia)). pose proof (Hm 2%nat ltac:(lia)).
  pose proof (Hm' 0%nat ltac:(lia)). pose proof (Hm' 1%nat ltac:(lia)). pose proof (Hm' 2%nat ltac:(lia)).
  destruct B as (S1 & _), B' as (S2 & _).
  destruct c as [|[|[|[|]]]]; try lia; destruct c' as [|[|[|[|]]]]; try lia; auto; exfalso; cbn in U0, U1, U2; lra.
Qed.

(** Areas. *)
Lemma area3_tri x y z : @area3 R _ x y z = triangle_area (tri (x, y, z)).
Proof. reflexivity. Qed.
Definition tri_area (t : list R * list R * list R) : R := triangle_area (tri t).
Lemma quarter_area t c : (c < 4)%nat -> tri_area (quarter center2 c t) = tri_area t / 4.
Proof.
  intros Hc. unfold tri_area. rewrite !triangle_area_R. destruct t as [[x y] z].
  set (N := vprod (sub (tri (x, y, z) 1%nat) (tri (x, y, z) 0%nat)) (sub (tri (x, y, z) 2%nat) (tri (x, y, z) 0%nat))).
  assert (G : forall d, (d < 3)%nat -> vprod (sub (tri (quarter center2 c (x, y, z)) 1%nat) (tri (quarter center2 c (x, y, z)) 0%nat))
    (sub (tri (quarter center2 c (x, y, z)) 2%nat) (tri (quarter center2 c (x, y, z)) 0%nat)) d = / 4 * N d).
  { intros d Hd. unfold N.
    destruct c as [|[|[|[|]]]]; try lia; destruct d as [|[|[|]]]; try lia; unfold vprod, sub; cbn [quarter];
      rewrite ?tri0, ?tri1, ?tri2, !mid_vec by lia; field. }
  erewrite norm_ext by (intros; apply G; auto). rewrite norm_scal. rewrite Rabs_right by lra. fold N. lra.
Qed.

(** ** Halving a segment *)
Lemma half_tiles s p : in_seg s p <-> exists c, (c < 2)%nat /\ in_seg (half center2 c s) p.
Proof.
  destruct s as [a b]. split.
  - intros (u & Hu & Hp). destruct (Rle_lt_dec u (1 / 2)).
    + exists 0%nat. split; [lia|]. exists (2 * u). split; [lra|]. intros d Hd. rewrite (Hp d Hd). cbn [half fst snd]. rewrite mid_vec by auto. lra.
    + exists 1%nat. split; [lia|]. exists (2 * u - 1). split; [lra|]. intros d Hd. rewrite (Hp d Hd). cbn [half fst snd]. rewrite mid_vec by auto. lra.
  - intros (c & Hc & u & Hu & Hp). destruct c as [|[|]]; try lia.
    + exists (u / 2). split; [lra|]. intros d Hd. rewrite (Hp d Hd). cbn [half fst snd]. rewrite mid_vec by auto. lra.
    + exists (1 / 2 + u / 2). split; [lra|]. intros d Hd. rewrite (Hp d Hd). cbn [half fst snd]. rewrite mid_vec by auto. lra.
Qed.
Lemma halves_disjoint s p : (exists d, (d < 3)%nat /\ vec (fst s) d <> vec (snd s) d) ->
  inside_seg (half center2 0 s) p -> inside_seg (half center2 1 s) p -> False.
Proof.
  destruct s as [a b]. intros (d & Hd & Hne) (u & Hu & Hp) (v & Hv & Hq). cbn [half fst snd] in *.
  specialize (Hp d Hd). specialize (Hq d Hd). rewrite Hp in Hq. rewrite mid_vec in Hq by auto.
  set (x := vec a d) in *. set (y := vec b d) in *.
  assert (E : (y - x) * (u / 2 - 1 / 2 - v / 2) = 0) by lra. apply Rmult_integral in E. destruct E; lra.
Qed.
Lemma half_length s c : (c < 2)%nat -> vdist 3 (vec (fst (half center2 c s))) (vec (snd (half center2 c s))) = vdist 3 (vec (fst s)) (vec (snd s)) / 2.
Proof.
  destruct s as [a b]. intros Hc. unfold vdist.
  rewrite (@norm_ext 3%nat _ (fun d => / 2 * (vec (fst (a, b)) d - vec (snd (a, b)) d))).
  - rewrite norm_scal. rewrite Rabs_right by lra. lra.
  - intros d Hd. destruct c as [|[|]]; try lia; cbn [half fst snd]; rewrite mid_vec by auto; lra.
Qed.

(** ** Coverage of one element *)
Lemma usable_face region s a b c Lip alpha : usable region s -> region (vec (center3 a b c)) ->
  exists r, face_covered s a b c Lip alpha = Ok r /\ (r = true -> forall p, in_tri (a, b, c) p -> in_sphere_of s (sqrt (1 - alpha * alpha)) p).
Proof.
  intros [E|(Hs & Hr)] Hc.
  - exists false. split; [|discriminate]. apply (@C27_no_spheres s a b c Lip alpha E).
  - destruct (@C27_face_sound s a b c Lip alpha Hs (Hr _ Hc)) as (r & Er & Hcov). exists r. split; auto.
    intros Ht p Hp. destruct (Hcov Ht) as (j & Hj & G). exists j. split; auto.
Qed.
Lemma usable_edge region s a b Lip alpha : usable region s -> region (vec (center2 a b)) ->
  exists r, edge_covered s a b Lip alpha = Ok r /\ (r = true -> forall p, in_seg (a, b) p -> in_sphere_of s (sqrt (1 - alpha * alpha)) p).
Proof.
  intros [E|(Hs & Hr)] Hc.
  - exists false. split; [|discriminate]. apply (@C27_no_spheres s a b a Lip alpha E).
  - destruct (@C27_edge_sound s a b Lip alpha Hs (Hr _ Hc)) as (r & Er & Hcov). exists r. split; auto.
    intros Ht p Hp. destruct (Hcov Ht) as (j & Hj & G). exists j. split; auto.
Qed.
Lemma center_in_tri a b c : in_tri (a, b, c) (vec (center3 a b c)).
Proof.
  exists (weights (1/3) (1/3) (1/3)). split.
  - split; [unfold weights; lra|]. intros d Hd. rewrite center3_vec by auto. reflexivity.
  - intros k Hk. destruct k as [|[|[|]]]; try lia; cbn; lra.
Qed.
Lemma center_in_seg a b : in_seg (a, b) (vec (center2 a b)).
Proof. exists (1/2). split; [lra|]. intros d Hd. rewrite mid_vec by auto. cbn [fst snd]. lra. Qed.
Lemma sqrt_one : sqrt (1 - 0 * 0) = 1.
Proof. rewrite Rmult_0_l, Rminus_0_r. apply sqrt_1. Qed.

Lemma cov_ok region sc Lip ratio t : usable region (surface_of sc) -> usable region (edges_of sc) -> usable region (corners_of sc) ->
  (forall p, in_tri t p -> region p) ->
  exists r, cov (surface_of sc) (edges_of sc) (corners_of sc) Lip ratio t = Ok r /\ (r = true -> forall p, in_tri t p -> covered_surface ratio sc p).
Proof.
  intros U1 U2 U3 Hreg. destruct t as [[a b] c]. pose proof (Hreg _ (center_in_tri a b c)) as Hc. unfold cov, covered_surface.
  destruct (@usable_face region _ a b c Lip ratio U1 Hc) as (r1 & -> & H1). cbn [bind]. destruct r1; cbn [bind].
  { exists true. split; auto. }
  destruct (@usable_face region _ a b c Lip 0 U2 Hc) as (r2 & E2 & H2). change (@n0 R RNum) with 0. rewrite E2. cbn [bind]. rewrite sqrt_one in H2. destruct r2; cbn [bind].
  { exists true. split; auto. }
  destruct (@usable_face region _ a b c Lip 0 U3 Hc) as (r3 & E3 & H3). rewrite E3. rewrite sqrt_one in H3.
  exists r3. split; auto.
Qed.
Lemma ecov_ok region sc Lip ratio t : usable region (edges_of sc) -> usable region (corners_of sc) ->
  (forall p, in_seg t p -> region p) ->
  exists r, ecov (edges_of sc) (corners_of sc) Lip ratio t = Ok r /\ (r = true -> forall p, in_seg t p -> covered_edge ratio sc p).
Proof.
  intros U2 U3 Hreg. destruct t as [a b]. pose proof (Hreg _ (center_in_seg a b)) as Hc. unfold ecov, covered_edge.
  destruct (@usable_edge region _ a b Lip 0 U3 Hc) as (r2 & E2 & H2). change (@n0 R RNum) with 0. rewrite E2. cbn [bind]. rewrite sqrt_one in H2. destruct r2; cbn [bind].
  { exists true. split; auto. }
  destruct (@usable_edge region _ a b Lip ratio U2 Hc) as (r3 & E3 & H3). rewrite E3.
  exists r3. split; auto.
Qed.

(** ** Depth *)
Section Depth.
  Variable points : list (list R).
  Variable faces : list (list nat).
  Lemma bits_onto b : exists c, (c < 4)%nat /\ bits c = b.
  Proof. destruct b as [[|] [|]]; [exists 3%nat|exists 2%nat|exists 1%nat|exists 0%nat]; split; auto; lia. Qed.
  Lemma path_in_face q : forall f p, in_tri (abc (shape points faces (f, q))) p -> in_tri (face_tri points faces f) p.
  Proof.
    induction q as [|b q IH] using rev_ind; intros f p Hp; [exact Hp|].
    destruct (bits_onto b) as (c & Hc & <-). change (f, q ++ [bits c]) with (kid (f, q) c) in Hp. rewrite kid_quarter in Hp by auto.
    apply IH. apply quarter_tiles. eauto.
  Qed.
  Lemma path_area q : forall f, tri_area (abc (shape points faces (f, q))) = tri_area (face_tri points faces f) / 4 ^ length q.
  Proof.
    induction q as [|b q IH] using rev_ind; intros f; [cbn [length pow]; change (abc (shape points faces (f, []))) with (face_tri points faces f); lra|].
    destruct (bits_onto b) as (c & Hc & <-). change (f, q ++ [bits c]) with (kid (f, q) c). rewrite kid_quarter by auto.
    rewrite quarter_area by auto. rewrite IH, app_length, pow_add. cbn [length pow]. field. apply pow_nonzero. lra.
  Qed.
  Variable edges : list (list nat).
  Lemma epath_in_edge q : forall e p, in_seg (ends (eshape points edges (e, q))) p -> in_seg (edge_seg points edges e) p.
  Proof.
    induction q as [|b q IH] using rev_ind; intros e p Hp; [exact Hp|].
    assert (Hb : exists c, (c < 2)%nat /\ ebit c = b) by (destruct b; [exists 1%nat|exists 0%nat]; split; auto).
    destruct Hb as (c & Hc & <-). change (e, q ++ [ebit c]) with (ekid (e, q) c) in Hp. rewrite ekid_half in Hp by auto.
    apply IH. apply half_tiles. eauto.
  Qed.
  Lemma epath_length q : forall e, vdist 3 (vec (fst (ends (eshape points edges (e, q))))) (vec (snd (ends (eshape points edges (e, q)))))
    = vdist 3 (vec (fst (edge_seg points edges e))) (vec (snd (edge_seg points edges e))) / 2 ^ length q.
  Proof.
    induction q as [|b q IH] using rev_ind; intros e.
    { cbn [length pow]. change (ends (eshape points edges (e, []))) with (edge_seg points edges e). lra. }
    assert (Hb : exists c, (c < 2)%nat /\ ebit c = b) by (destruct b; [exists 1%nat|exists 0%nat]; split; auto).
    destruct Hb as (c & Hc & <-). change (e, q ++ [ebit c]) with (ekid (e, q) c). rewrite ekid_half by auto.
    rewrite half_length by auto. rewrite IH, app_length, pow_add. cbn [length pow]. field. apply pow_nonzero. lra.
  Qed.
End Depth.

(** ** Runs *)
Section CoverRun.
  Variable points : list (list R).
  Variable faces : list (list nat).
  Hypothesis Hpts : good_points points.
  Hypothesis Hfaces : good_faces points faces.
  Variables (Lip ratio : R).
  Local Notation on_mesh := (on_mesh points faces).
  Local Notation usable_scene := (usable_scene points faces).

  Lemma element_on_mesh p els i e : denotes points faces p els -> nth_error els i = Some e ->
    forall q, in_tri (abc (shape points faces e)) q -> on_mesh q.
  Proof.
    intros (_ & _ & _ & D) Ee q Hq. destruct (D _ _ Ee) as (Hf & _). destruct e as [f l]. exists f. split; auto. eapply path_in_face; eauto.
  Qed.
  Lemma answers_exist sc p els : denotes points faces p els -> usable_scene sc ->
    exists bs, answers points faces (surface_of sc) (edges_of sc) (corners_of sc) Lip ratio els bs.
  Proof.
    intros D (U1 & U2 & U3). unfold answers.
    assert (G : forall l, (forall e, In e l -> exists i, nth_error els i = Some e) -> exists bs, Forall2 (fun e b =>
      cov (surface_of sc) (edges_of sc) (corners_of sc) Lip ratio (abc (shape points faces e)) = Ok b) l bs).
    { induction l as [|e l IH]; intros Hl; [exists []; constructor|].
      destruct IH as (bs & Hbs); [intros; apply Hl; now right|]. destruct (Hl e (or_introl eq_refl)) as (i & Ei).
      destruct (@cov_ok on_mesh sc Lip ratio (abc (shape points faces e)) U1 U2 U3 (@element_on_mesh p els i e D Ei)) as (b & Eb & _).
      exists (b :: bs). constructor; auto. }
    apply G. intros e He. now apply In_nth_error.
  Qed.
  Lemma refine_total sc p els T sched : denotes points faces p els -> usable_scene sc -> (1 <= T)%nat -> finished (p_size p / T + 1) T sched ->
    exists p', refine_pool_faces points faces (surface_of sc) (edges_of sc) (corners_of sc) Lip ratio T sched p = Ok p'.
  Proof.
    intros D U HT Hf. destruct (@answers_exist sc p els D U) as (bs & Hbs).
    destruct (@refine_ok _ _ points faces Hpts Hfaces (surface_of sc) (edges_of sc) (corners_of sc) Lip ratio p els T sched D Hf) as (_ & G).
    rewrite (G HT bs Hbs). unfold new_pool. match goal with |- context [make_cdf ?l] => destruct (make_cdf_total l) as (c & -> & _) end. cbn [bind].
    destruct (map _ _); eauto.
  Qed.
  (** A point of an element survives or is covered. *)
  Lemma refine_point sc p els T sched p' i t q : denotes points faces p els -> usable_scene sc -> finished (p_size p / T + 1) T sched ->
    refine_pool_faces points faces (surface_of sc) (edges_of sc) (corners_of sc) Lip ratio T sched p = Ok p' ->
    (i < p_size p)%nat -> element points faces p i t -> in_tri t q ->
    covered_surface ratio sc q \/ exists i' t', (i' < p_size p')%nat /\ element points faces p' i' t' /\ in_tri t' q.
  Proof.
    intros D (U1 & U2 & U3) Hf E Hi Ht Hq.
    destruct (@refine_elements _ _ points faces Hpts Hfaces _ _ _ _ _ p els T sched p' D Hf E) as (kept & _ & Hk & _ & Hn & Hc).
    destruct (Hk i t Hi Ht) as (b & Hb & Hin).
    rewrite (@denotes_size _ _ _ _ _ _ D) in Hi. destruct (nth_error els i) as [e|] eqn:Ee; [|apply nth_error_None in Ee; lia].
    pose proof (@denotes_element _ _ points faces Hpts Hfaces p els i e D Ee) as He.
    pose proof (element_unique Ht He) as ->.
    destruct (@cov_ok on_mesh sc Lip ratio _ U1 U2 U3 (@element_on_mesh p els i e D Ee)) as (b' & Eb & Hcov).
    apply cov_tested in Hb. rewrite Hb in Eb. injection Eb as <-. destruct b; [left; auto|right].
    destruct (In_nth_error _ _ (proj2 Hin eq_refl)) as (j & Ej).
    apply quarter_tiles in Hq. destruct Hq as (c & Hc4 & Hq). destruct (Hc j i c Ej Hc4) as (_ & G).
    exists (4 * j + c)%nat, (quarter center2 c (abc (shape points faces e))). split; [|split; auto].
    apply nth_error_Some_lt in Ej. lia.
  Qed.
  Lemma history_denotes p0 scs p : (exists els, denotes points faces p0 els) -> history points faces Lip ratio p0 scs p -> exists els, denotes points faces p els.
  Proof.
    intros D0 Hh. induction Hh as [|scs sc T sched p p' Hh (els & D) Hf E]; auto.
    destruct (@refine_ok _ _ points faces Hpts Hfaces (surface_of sc) (edges_of sc) (corners_of sc) Lip ratio p els T sched D Hf) as (G & _).
    destruct (G _ E) as (bs & _ & D'). eauto.
  Qed.
  Lemma history_point p0 scs p : (exists els, denotes points faces p0 els) -> history points faces Lip ratio p0 scs p -> Forall usable_scene scs ->
    forall i t q, (i < p_size p0)%nat -> element points faces p0 i t -> in_tri t q ->
    (exists sc, In sc scs /\ covered_surface ratio sc q)
    \/ exists i' t', (i' < p_size p)%nat /\ element points faces p i' t' /\ in_tri t' q.
  Proof.
    intros D0 Hh. induction Hh as [|scs sc T sched p p' Hh IH Hf E]; intros U i t q Hi Ht Hq.
    - right. eauto.
    - apply Forall_app in U. destruct U as (U & U'). apply Forall_inv in U'.
      destruct (IH U i t q Hi Ht Hq) as [(s & Hs & Hc)|(i1 & t1 & H1 & H2 & H3)].
      + left. exists s. split; auto. apply in_or_app; auto.
      + destruct (@history_denotes p0 scs p D0 Hh) as (els & D).
        destruct (@refine_point sc p els T sched p' i1 t1 q D U' Hf E H1 H2 H3) as [Hc|G]; [left|right; auto].
        exists sc. split; auto. apply in_or_app. right. now left.
  Qed.
End CoverRun.

Lemma covers_grows s s' b p : grows s s' -> in_sphere_of s b p -> in_sphere_of s' b p.
Proof.
  intros (more & E) (j & Hj & Hc). unfold count in *. exists j. unfold count, covers, center, radius, coord in *. rewrite E.
  rewrite app_length. split; [lia|]. rewrite app_nth1 by auto. exact Hc.
Qed.
Lemma covered_grows ratio a b p : scene_grows a b -> covered_surface ratio a p -> covered_surface ratio b p.
Proof.
  intros (G1 & G2 & G3) [Hc|[Hc|Hc]]; [left|right; left|right; right]; eapply covers_grows; eauto.
Qed.
Lemma ecovered_grows ratio a b p : scene_grows a b -> covered_edge ratio a p -> covered_edge ratio b p.
Proof.
  intros (G1 & G2 & G3) [Hc|Hc]; [left|right]; eapply covers_grows; eauto.
Qed.

Section ECoverRun.
  Variable points : list (list R).
  Variable edges : list (list nat).
  Hypothesis Hpts : good_points points.
  Hypothesis Hedges : good_edges points edges.
  Variables (Lip ratio : R).
  Local Notation on_edges := (on_edges points edges).
  Local Notation usable_escene := (usable_escene points edges).
  Lemma segment_on_mesh p els i e : edenotes points edges p els -> nth_error els i = Some e ->
    forall q, in_seg (ends (eshape points edges e)) q -> on_edges q.
  Proof.
    intros (_ & _ & _ & D) Ee q Hq. destruct (D _ _ Ee) as (Hf & _). destruct e as [f l]. exists f. split; auto. eapply epath_in_edge; eauto.
  Qed.
  Lemma eanswers_exist sc p els : edenotes points edges p els -> usable_escene sc ->
    exists bs, eanswers points edges (edges_of sc) (corners_of sc) Lip ratio els bs.
  Proof.
    intros D (U2 & U3). unfold eanswers.
    assert (G : forall l, (forall e, In e l -> exists i, nth_error els i = Some e) -> exists bs, Forall2 (fun e b =>
      ecov (edges_of sc) (corners_of sc) Lip ratio (ends (eshape points edges e)) = Ok b) l bs).
    { induction l as [|e l IH]; intros Hl; [exists []; constructor|].
      destruct IH as (bs & Hbs); [intros; apply Hl; now right|]. destruct (Hl e (or_introl eq_refl)) as (i & Ei).
      destruct (@ecov_ok on_edges sc Lip ratio (ends (eshape points edges e)) U2 U3 (@segment_on_mesh p els i e D Ei)) as (b & Eb & _).
      exists (b :: bs). constructor; auto. }
    apply G. intros e He. now apply In_nth_error.
  Qed.
  Lemma erefine_total sc p els : edenotes points edges p els -> usable_escene sc ->
    exists p', refine_pool_edges points edges (edges_of sc) (corners_of sc) Lip ratio p = Ok p'.
  Proof.
    intros D U. destruct (@eanswers_exist sc p els D U) as (bs & Hbs).
    destruct (@erefine_ok _ _ points edges Hpts Hedges (edges_of sc) (corners_of sc) Lip ratio p els D) as (_ & G).
    rewrite (G bs Hbs). unfold new_pool. match goal with |- context [make_cdf ?l] => destruct (make_cdf_total l) as (c & -> & _) end. cbn [bind].
    destruct (map _ _); eauto.
  Qed.
  Lemma erefine_point sc p els p' i t q : edenotes points edges p els -> usable_escene sc ->
    refine_pool_edges points edges (edges_of sc) (corners_of sc) Lip ratio p = Ok p' ->
    (i < p_size p)%nat -> segment points edges p i t -> in_seg t q ->
    covered_edge ratio sc q \/ exists i' t', (i' < p_size p')%nat /\ segment points edges p' i' t' /\ in_seg t' q.
  Proof.
    intros D (U2 & U3) E Hi Ht Hq.
    destruct (@erefine_segments _ _ points edges Hpts Hedges _ _ _ _ p els p' D E) as (kept & _ & Hk & _ & Hn & Hc).
    destruct (Hk i t Hi Ht) as (b & Hb & Hin).
    rewrite (@edenotes_size _ _ _ _ _ _ D) in Hi. destruct (nth_error els i) as [e|] eqn:Ee; [|apply nth_error_None in Ee; lia].
    pose proof (@edenotes_segment _ _ points edges Hpts Hedges p els i e D Ee) as He.
    pose proof (segment_unique Ht He) as ->.
    destruct (@ecov_ok on_edges sc Lip ratio _ U2 U3 (@segment_on_mesh p els i e D Ee)) as (b' & Eb & Hcov).
    apply ecov_tested in Hb. rewrite Hb in Eb. injection Eb as <-. destruct b; [left; auto|right].
    destruct (In_nth_error _ _ (proj2 Hin eq_refl)) as (j & Ej).
    apply half_tiles in Hq. destruct Hq as (c & Hc4 & Hq). destruct (Hc j i c Ej Hc4) as (_ & G).
    exists (2 * j + c)%nat, (half center2 c (ends (eshape points edges e))). split; [|split; auto].
    apply nth_error_Some_lt in Ej. lia.
  Qed.
  Lemma ehistory_denotes p0 scs p : (exists els, edenotes points edges p0 els) -> ehistory points edges Lip ratio p0 scs p -> exists els, edenotes points edges p els.
  Proof.
    intros D0 Hh. induction Hh as [|scs sc p p' Hh (els & D) E]; auto.
    destruct (@erefine_ok _ _ points edges Hpts Hedges (edges_of sc) (corners_of sc) Lip ratio p els D) as (G & _).
    destruct (G _ E) as (bs & _ & D'). eauto.
  Qed.
  Lemma ehistory_point p0 scs p : (exists els, edenotes points edges p0 els) -> ehistory points edges Lip ratio p0 scs p -> Forall usable_escene scs ->
    forall i t q, (i < p_size p0)%nat -> segment points edges p0 i t -> in_seg t q ->
    (exists sc, In sc scs /\ covered_edge ratio sc q)
    \/ exists i' t', (i' < p_size p)%nat /\ segment points edges p i' t' /\ in_seg t' q.
  Proof.
    intros D0 Hh. induction Hh as [|scs sc p p' Hh IH E]; intros U i t q Hi Ht Hq.
    - right. eauto.
    - apply Forall_app in U. destruct U as (U & U'). apply Forall_inv in U'.
      destruct (IH U i t q Hi Ht Hq) as [(s & Hs & Hc)|(i1 & t1 & H1 & H2 & H3)].
      + left. exists s. split; auto. apply in_or_app; auto.
      + destruct (@ehistory_denotes p0 scs p D0 Hh) as (els & D).
        destruct (@erefine_point sc p els p' i1 t1 q D U' E H1 H2 H3) as [Hc|G]; [left|right; auto].
        exists sc. split; auto. apply in_or_app. right. now left.
  Qed.
End ECoverRun.
