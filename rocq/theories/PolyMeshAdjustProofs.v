(** Proofs about the reversal of all faces. *)
From Coq Require Import Reals Lra.
From Verif Require Import Base Num Vec DenseQR Geometry GeometrySpec GeometryProofs SpheresProofs PolyMesh PolyMeshSpec
  PolyMeshProofs PolyMeshOrientProofs FeatureSpec.

Lemma swap_all_ok n faces : triangles n faces -> exists faces', swap_all faces = Ok faces' /\ length faces' = length faces /\
  forall i f f', nth_error faces i = Some f -> nth_error faces' i = Some f' -> Permutation f f' /\ opp_orient f f'.
Proof.
  induction faces as [|f t IH]; intros Ht; cbn [swap_all].
  - exists []. split; auto. split; auto. intros i f f' E. destruct i; discriminate.
  - destruct (Ht f (or_introl eq_refl)) as (H3 & _). destruct (triple _ H3) as (a & b & c & ->).
    change (swap23 [a; b; c]) with (Ok [a; c; b]). cbn [bind].
    destruct IH as (t' & E & L & H). { intros x Hx. apply Ht. right; auto. }
    rewrite E. cbn [bind]. exists ([a; c; b] :: t'). split; auto. split; [simpl; congruence|].
    intros [|i] u v E1 E2; [|eapply H; eauto]. injection E1 as <-. injection E2 as <-. split.
    + do 2 constructor.
    + intros x y. rewrite !runs3. tauto.
Qed.

Lemma opp_consistent faces faces' : same_corners faces faces' ->
  (forall i f f', nth_error faces i = Some f -> nth_error faces' i = Some f' -> opp_orient f f') ->
  consistent faces -> consistent faces'.
Proof.
  intros Hs Ho Hc i j a b f g Hij Ef Eg L2 Hr Hr'. pose proof Hs as (L & _).
  destruct (nth_error_lt faces (i := i)) as (f0 & Ef0). { rewrite L. apply nth_error_Some_lt in Ef; auto. }
  destruct (nth_error_lt faces (i := j)) as (g0 & Eg0). { rewrite L. apply nth_error_Some_lt in Eg; auto. }
  apply (Hc i j b a f0 g0 Hij Ef0 Eg0).
  - rewrite faces_with_sym. now rewrite (same_corners_with a b Hs).
  - apply (Ho i f0 f); auto.
  - apply (Ho j g0 g); auto.
Qed.

(** All faces as they are, or all faces reversed. *)
Definition all_or_none {F} `{Num F} (faces faces' : list (list nat)) (normals normals' : list (list F)) : Prop :=
  (faces' = faces /\ normals' = normals) \/
  ((forall i f f', nth_error faces i = Some f -> nth_error faces' i = Some f' -> opp_orient f f')
   /\ normals' = map (map nopp) normals).

Lemma adjust_shape {F} `{Num F} n xmin xmax (points : list (list F)) pf faces normals faces' normals' :
  triangles n faces ->
  adjust_cad_orientation xmin xmax points pf faces normals = Ok (faces', normals') ->
  same_corners faces faces' /\ all_or_none faces faces' normals normals' /\ (consistent faces -> consistent faces').
Proof.
  intros Ht. unfold adjust_cad_orientation. cbv zeta. destruct (fst (min_point _ _ _)) as [ip|]; [|discriminate].
  intros E. apply bind_Ok_inv in E as (row & _ & E). apply bind_Ok_inv in E as (fi & _ & E).
  apply bind_Ok_inv in E as (nn & _ & E). apply bind_Ok_inv in E as (p & _ & E).
  destruct (range_sum _ _ _ <? n0)%num.
  - destruct (swap_all_ok Ht) as (fs & Es & L & Hsw). rewrite Es in E. cbn [bind] in E.
    assert (E1 : fs = faces') by congruence. assert (E2 : map (map nopp) normals = normals') by congruence. subst fs. clear E Es.
    assert (Hs : same_corners faces faces').
    { split; auto. intros i f f' A B. destruct (Hsw i f f' A B). auto. }
    split; auto. split.
    + right. split; auto. intros i f f' A B. destruct (Hsw i f f' A B). auto.
    + apply opp_consistent; auto. intros i f f' A B. destruct (Hsw i f f' A B). auto.
  - assert (E1 : faces = faces') by congruence. assert (E2 : normals = normals') by congruence. subst faces' normals'.
    split; [apply same_corners_refl|]. split; [left; auto|auto].
Qed.

Section Nearest.
  Local Open Scope R_scope.
  Variable xc : nat -> R.
  Definition far (p : list R) : R := vdist 3 (fun d => nth d p 0) xc.

  Lemma min_point_ok : forall l best, (forall i p, In (i, p) l -> far p < dbl_max) ->
    let r := min_point xc l best in
    (r = best /\ forall i p, In (i, p) l -> snd best <= far p) \/
    (exists i p, r = (Some i, far p) /\ In (i, p) l /\ (forall j q, In (j, q) l -> far p <= far q) /\ far p <= snd best).
  Proof.
    induction l as [|(i & p) t IH]; intros best Hl; cbn [min_point].
    - left. split; auto. intros i p [].
    - change (distance 3 (row_vec p) xc) with (distance 3 (fun d => nth d p 0) xc). rewrite distance_R. fold (far p).
      change nltb with Rltb. destruct (Rltb (far p) (snd best)) eqn:E.
      + apply Rltb_true in E.
        destruct (IH (Some i, far p)) as [(-> & H)|(j & q & Er & Hin & H & Hle)].
        { intros j q Hq. apply (Hl j). right; auto. }
        * right. exists i, p. split; auto. split; [left; auto|]. split; [|lra].
          intros j q [Hj|Hj]; [injection Hj as <- <-; lra|]. apply (H j q Hj).
        * right. exists j, q. split; auto. split; [right; auto|]. cbn [snd] in Hle. split; [|lra].
          intros k u [Hk|Hk]; [injection Hk as <- <-; lra|]. eapply H; eauto.
      + apply Rltb_false in E.
        destruct (IH best) as [(-> & H)|(j & q & Er & Hin & H & Hle)].
        { intros j q Hq. apply (Hl j). right; auto. }
        * left. split; auto. intros j q [Hj|Hj]; [injection Hj as <- <-; lra|]. eapply H; eauto.
        * right. exists j, q. split; auto. split; [right; auto|]. split; [|lra].
          intros k u [Hk|Hk]; [injection Hk as <- <-; lra|]. eapply H; eauto.
  Qed.
End Nearest.

Section Adjust.
  Local Open Scope R_scope.
  Variables (xmin xmax : nat -> R) (points : list (list R)) (pf faces : list (list nat)) (normals : list (list R)).
  Let xc : nat -> R := fun d => xmin d - (xmax d - xmin d).
  Hypothesis Ht : triangles (length points) faces.
  Hypothesis Lpf : length pf = length points.
  Hypothesis Hpf : forall p, (p < length points)%nat -> nth p pf [] = faces_at faces p.
  Hypothesis Ln : length normals = length faces.
  Hypothesis H3 : forall n, In n normals -> length n = 3%nat.
  Hypothesis Hne : points <> [].
  Hypothesis Hused : forall p, (p < length points)%nat -> used faces p.
  Hypothesis Hfar : forall p, In p points -> far xc p < dbl_max.

  Lemma adjust_ok : exists faces' normals' ip fi, adjust_cad_orientation xmin xmax points pf faces normals = Ok (faces', normals')
    /\ (ip < length points)%nat
    /\ (forall q, (q < length points)%nat -> vdist 3 (at_point points ip) xc <= vdist 3 (at_point points q) xc)
    /\ (fi < length faces)%nat /\ In ip (nth fi faces [])
    /\ 0 <= dot 3 (at_point normals' fi) (sub xc (at_point points ip)).
  Proof.
    unfold adjust_cad_orientation. cbv zeta.
    change (fun d => (xmin d - (xmax d - xmin d))%num) with xc.
    assert (Hnum : forall i p, In (i, p) (numbered points) -> far xc p < dbl_max).
    { intros i p Hi. apply in_numbered, nth_error_In in Hi. auto. }
    destruct (@min_point_ok xc (numbered points) (None, dbl_max) Hnum) as [(_ & H)|(ip & p & Er & Hin & Hmin & _)].
    { exfalso. destruct points as [|p t]; [tauto|]. specialize (H 0%nat p (or_introl eq_refl)).
      specialize (Hfar p (or_introl eq_refl)). cbn [snd] in H. lra. }
    rewrite Er. cbn [fst]. apply in_numbered in Hin. pose proof (nth_error_Some_lt _ _ Hin) as Hip.
    rewrite (get_nth pf [] (i := ip)) by lia. cbn [bind]. rewrite Hpf by auto.
    destruct (@Hused ip Hip) as (f & Hf & Hpin).
    destruct (faces_at faces ip) as [|fi t] eqn:Ef.
    { exfalso. apply In_nth with (d := []) in Hf as (k & Hk & Ek).
      assert (Hin' : In k (faces_at faces ip)) by (apply faces_at_in; rewrite Ek; auto). rewrite Ef in Hin'. destruct Hin'. }
    assert (Hfi : In fi (faces_at faces ip)) by (rewrite Ef; left; auto). apply faces_at_in in Hfi as (Hfi & Hc).
    change (get (fi :: t) 0) with (Ok fi). cbn [bind]. rewrite (get_nth normals []) by lia. cbn [bind]. rewrite (get_some Hin). cbn [bind].
    assert (Edot : @range_sum R _ 0 3 (fun d => (row_vec (nth fi normals []) d * (xc d - row_vec p d))%num)
       = dot 3 (at_point normals fi) (sub xc (at_point points ip))).
    { rewrite range0_R. unfold at_point at 2. rewrite (nth_error_nth _ _ _ Hin). reflexivity. }
    match goal with |- context[(?e <? n0)%num] =>
      change e with (@range_sum R _ 0 3 (fun d => (row_vec (nth fi normals []) d * (xc d - row_vec p d))%num)) end.
    rewrite Edot. change nltb with Rltb. change (@n0 R _) with 0.
    assert (Hq : forall q, (q < length points)%nat -> vdist 3 (at_point points ip) xc <= vdist 3 (at_point points q) xc).
    { intros q Hq. destruct (nth_error_lt points Hq) as (u & Eu). specialize (Hmin q u).
      unfold at_point. rewrite (nth_error_nth _ _ _ Hin), (nth_error_nth _ _ _ Eu). apply Hmin.
      apply nth_error_In with q. rewrite numbered_nth, Eu. reflexivity. }
    destruct (Rltb _ 0) eqn:Eneg.
    - destruct (swap_all_ok Ht) as (fs & Es & L & _). rewrite Es. cbn [bind].
      exists fs, (map (map (@nopp R _)) normals), ip, fi. split; [reflexivity|]. repeat (split; [solve [auto]|]).
      apply Rltb_true in Eneg.
      assert (Eo : dot 3 (at_point (map (map (@nopp R _)) normals) fi) (sub xc (at_point points ip))
        = - dot 3 (at_point normals fi) (sub xc (at_point points ip))); [|lra].
      assert (En : forall d, (d < 3)%nat -> at_point (map (map (@nopp R _)) normals) fi d = - at_point normals fi d).
      { intros d Hd. unfold at_point. rewrite (nth_indep (map (map (@nopp R _)) normals) [] (map nopp []%list)) by (rewrite map_length; lia).
        rewrite map_nth. rewrite (nth_indep _ 0 (@nopp R _ 0)). 2:{ rewrite map_length. rewrite H3; auto. apply nth_In. lia. }
        now rewrite map_nth. }
      rewrite !dot3, !En by lia. ring.
    - apply Rltb_false in Eneg. exists faces, normals, ip, fi. split; [reflexivity|]. repeat (split; [solve [auto]|]). exact Eneg.
  Qed.
End Adjust.
