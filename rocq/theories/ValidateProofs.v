From Coq Require Import Reals Lra.
From Verif Require Import Base Num Vec KdTree SmartTree KdSpec SmartTreeSpec SmartTreeProofs DenseQR Geometry GeometryProofs
  Spheres SpheresSpec SpheresProofs SpheresOverlapProofs PolyMesh PolyMeshSpec PolyMeshProofs SeedEndProofs Validate ValidateSpec.
Local Open Scope R_scope.

Definition bad_edge (faces : list (list nat)) (e : nat * nat) : bool := negb (length (faces_with faces (fst e) (snd e)) =? 2)%nat.
Definition touches (m : nat) (e : nat * nat) : bool := ((fst e =? m) || (snd e =? m))%nat.
Definition hits_of faces (l : list (nat * nat)) (m : nat) : nat := length (filter (fun e => touches m e && bad_edge faces e) l).

Section V.
  Variables (ss0 : stree R) (faces pf : list (list nat)) (n : nat).
  Hypothesis Hss : st_pts ss0 = [] \/ spheres ss0.
  Hypothesis Hpf : forall a b, (a < n)%nat -> a <> b -> get_num_edge_faces faces pf a b = Ok (length (faces_with faces a b)).

  Definition after (l : list (nat * nat)) (st : stree R * bool) : Prop :=
    only_radii ss0 (fst st)
    /\ (forall m, (m < count ss0)%nat -> radius (fst st) m = radius ss0 m * (95/100) ^ hits_of faces l m)
    /\ ((forall e, In e l -> bad_edge faces e = true -> ~ (fst e < count ss0 \/ snd e < count ss0)%nat) -> fst st = ss0)
    /\ (snd st = true <-> forall e, In e l -> bad_edge faces e = true -> ~ (fst e < count ss0 \/ snd e < count ss0)%nat).

  Lemma spheres_some s i : only_radii ss0 s -> (i < count ss0)%nat -> spheres s.
  Proof. intros O Hi. destruct Hss as [E|H]; [unfold count in Hi; rewrite E in Hi; simpl in Hi; lia|]. eapply only_radii_spheres; eauto. Qed.
  Lemma shrink_corner_ok s i : only_radii ss0 s ->
    exists s', shrink_corner i s = Ok s' /\ only_radii ss0 s' /\ ((i < count ss0)%nat \/ s' = s)
      /\ forall m, (m < count ss0)%nat -> radius s' m = if (i =? m)%nat then radius s m * (95/100) else radius s m.
  Proof.
    intros O. assert (C : count s = count ss0) by apply O. unfold shrink_corner. change (st_n s) with (count s). rewrite C.
    destruct (i <? count ss0)%nat eqn:Hi; [apply Nat.ltb_lt in Hi|apply Nat.ltb_ge in Hi].
    - pose proof (spheres_some O Hi) as Hs. assert (Hi' : (i < count s)%nat) by lia. destruct (@get_sphere_ok s Hs i Hi') as (sp & -> & _ & Esp). cbn [bind].
      destruct (@set_radius_ok s Hs i (nmul (gv sp 3%nat) (nlit 95 2)) Hi') as (s' & -> & O' & R1 & R2). exists s'. split; auto. split; [eapply only_radii_trans; eauto|].
      split; auto. intros m Hm. destruct (i =? m)%nat eqn:E; [apply Nat.eqb_eq in E; subst m|apply Nat.eqb_neq in E; apply R2; auto].
      rewrite R1. change nmul with Rmult. rewrite nlit95. f_equal. apply (Esp 3%nat). lia.
    - exists s. split; auto. split; auto. split; auto. intros m Hm. destruct (i =? m)%nat eqn:E; auto. apply Nat.eqb_eq in E. lia.
  Qed.
  Lemma check_edge_ok l e st : (fst e < n)%nat -> fst e <> snd e -> (1 <= length (faces_with faces (fst e) (snd e)))%nat -> after l st ->
    exists st', check_edge faces pf (fst e) (snd e) st = Ok st' /\ after (l ++ [e]) st'.
  Proof.
    intros Hn Hd H1 A. destruct e as (i1 & i2), st as (s & wt). cbn [fst snd] in Hn, Hd, H1. destruct A as (O & Rd & Same & Wt). cbn [fst snd] in O, Rd, Same, Wt.
    assert (C : count s = count ss0) by apply O. unfold check_edge. cbn [fst snd]. change (st_n s) with (count s). rewrite C, (Hpf Hn Hd). cbn [bind].
    set (surf := ((i1 <? count ss0) || (i2 <? count ss0))%nat).
    assert (Hsurf : surf = true <-> (i1 < count ss0 \/ i2 < count ss0)%nat) by (unfold surf; rewrite orb_true_iff, !Nat.ltb_lt; tauto).
    destruct (shrink_corner_ok i1 O) as (s1 & E1 & O1 & Eq1 & R1). destruct (shrink_corner_ok i2 O1) as (s2 & E2 & O2 & Eq2 & R2).
    assert (Hhit : forall m, hits_of faces (l ++ [(i1, i2)]) m = (hits_of faces l m + if touches m (i1, i2) && bad_edge faces (i1, i2) then 1 else 0)%nat).
    { intros m. unfold hits_of. rewrite filter_app, app_length. f_equal. cbn [filter]. destruct (touches m (i1, i2) && bad_edge faces (i1, i2)); reflexivity. }
    assert (Keep : bad_edge faces (i1, i2) = false \/ surf = false -> after (l ++ [(i1, i2)]) (s, wt)).
    { intros Hk. split; auto. cbn [fst snd]. split; [|split].
      - intros m Hm. rewrite Rd, Hhit by auto. f_equal. f_equal. destruct Hk as [->|Hk]; [rewrite andb_false_r; lia|].
        unfold touches. cbn [fst snd]. destruct (i1 =? m)%nat eqn:X1; [apply Nat.eqb_eq in X1; subst m; rewrite (proj2 Hsurf) in Hk by auto; discriminate|].
        destruct (i2 =? m)%nat eqn:X2; [apply Nat.eqb_eq in X2; subst m; rewrite (proj2 Hsurf) in Hk by auto; discriminate|]. cbn. lia.
      - intros H. apply Same. intros e He. apply H. apply in_or_app. auto.
      - rewrite Wt. split; intros H e He; [|apply H, in_or_app; auto]. apply in_app_or in He. destruct He as [He|[<-|[]]]; auto.
        intros Hb. destruct Hk as [Hk|Hk]; [congruence|]. intros Hx. apply Hsurf in Hx. congruence. }
    assert (Move : bad_edge faces (i1, i2) = true -> surf = true -> after (l ++ [(i1, i2)]) (s2, false)).
    { intros Hb Hk. split; auto. cbn [fst snd]. split; [|split].
      - intros m Hm. rewrite R2, R1, Rd, Hhit, Hb, andb_true_r by auto. unfold touches. cbn [fst snd]. rewrite pow_add.
        destruct (i1 =? m)%nat eqn:X1, (i2 =? m)%nat eqn:X2; cbn [orb pow]; try ring. apply Nat.eqb_eq in X1, X2. congruence.
      - intros H. exfalso. apply (H (i1, i2)); auto. { apply in_or_app. right. left. auto. } apply Hsurf; auto.
      - split; [discriminate|]. intros H. exfalso. apply (H (i1, i2)); auto. { apply in_or_app. right. left. auto. } apply Hsurf; auto. }
    assert (Hbad : bad_edge faces (i1, i2) = negb (length (faces_with faces i1 i2) =? 2)%nat) by reflexivity.
    set (num := length (faces_with faces i1 i2)) in *.
    destruct (num =? 1)%nat eqn:N1.
    - apply Nat.eqb_eq in N1. rewrite E1. cbn [bind]. rewrite E2. cbn [bind]. rewrite N1 in *. cbn [Nat.ltb Nat.leb andb]. cbn [Nat.eqb negb] in Hbad.
      destruct surf eqn:Es; [eexists; split; [reflexivity|apply Move; auto]|]. eexists. split; [reflexivity|].
      assert (s2 = s) as ->; [|apply Keep; auto].
      unfold surf in Es. apply orb_false_iff in Es. destruct Es as (X1 & X2). apply Nat.ltb_ge in X1, X2. destruct Eq2 as [Q2|Q2]; [lia|]. destruct Eq1 as [Q1|Q1]; [lia|]. congruence.
    - cbn [bind]. destruct (2 <? num)%nat eqn:N2; cbn [andb].
      + apply Nat.ltb_lt in N2. destruct surf eqn:Es; [|eexists; split; [reflexivity|apply Keep; auto]].
        rewrite E1. cbn [bind]. rewrite E2. cbn [bind]. eexists. split; [reflexivity|]. apply Move; auto. rewrite Hbad. apply negb_true_iff, Nat.eqb_neq. lia.
      + apply Nat.ltb_ge in N2. apply Nat.eqb_neq in N1. eexists. split; [reflexivity|]. apply Keep.
        destruct (num =? 2)%nat eqn:N3; [left; rewrite Hbad; reflexivity|]. apply Nat.eqb_neq in N3.
        lia.
  Qed.
  Hypothesis Htri : proper_triangles n faces.
  Lemma edge_of_face f a b : In f faces -> In a f -> In b f -> (1 <= length (faces_with faces a b))%nat.
  Proof.
    intros Hf Ha Hb. apply In_nth with (d := []) in Hf. destruct Hf as (k & Hk & Ek).
    assert (Hin : In k (faces_with faces a b)) by (apply faces_with_in; rewrite Ek; auto). destruct (faces_with faces a b); [destruct Hin|simpl; lia].
  Qed.
  Lemma check_face_ok l f st : In f faces -> after l st ->
    exists st', check_face faces pf f st = Ok st' /\ after (l ++ face_edges f) st'.
  Proof.
    intros Hf A. destruct Htri as (Ht & Hnd). destruct (Ht f Hf) as (Hlen & Hc). specialize (Hnd f Hf).
    pose proof (@edge_of_face f) as Hedge. destruct f as [|a [|b [|c [|? ?]]]]; try discriminate. clear Hlen.
    assert (a <> b /\ b <> c /\ c <> a) as (Nab & Nbc & Nca).
    { inversion Hnd as [|? ? X1 Y1]. inversion Y1 as [|? ? X2 Y2]. simpl in X1, X2. intuition congruence. }
    assert (Ha : (a < n)%nat) by (apply Hc; simpl; auto). assert (Hb : (b < n)%nat) by (apply Hc; simpl; auto). assert (Hcc : (c < n)%nat) by (apply Hc; simpl; auto).
    unfold check_face. cbn [fold_res]. change (get [a; b; c] 0) with (Ok a). change (get [a; b; c] (wrap3 0)) with (Ok b). cbn [bind].
    destruct (@check_edge_ok l (a, b) st) as (s1 & E1 & A1); auto. { apply Hedge; simpl; auto. }
    cbn [fst snd] in E1. rewrite E1. cbn [bind]. change (get [a; b; c] 1) with (Ok b). change (get [a; b; c] (wrap3 1)) with (Ok c). cbn [bind].
    destruct (@check_edge_ok (l ++ [(a, b)]) (b, c) s1) as (s2 & E2 & A2); auto. { apply Hedge; simpl; auto. }
    cbn [fst snd] in E2. rewrite E2. cbn [bind]. change (get [a; b; c] 2) with (Ok c). change (get [a; b; c] (wrap3 2)) with (Ok a). cbn [bind].
    destruct (@check_edge_ok ((l ++ [(a, b)]) ++ [(b, c)]) (c, a) s2) as (s3 & E3 & A3); auto. { apply Hedge; simpl; auto. }
    cbn [fst snd] in E3. rewrite E3. cbn [bind]. exists s3. split; auto. rewrite <- !app_assoc in A3. exact A3.
  Qed.
  Lemma check_faces_ok fs l st : incl fs faces -> after l st ->
    exists st', fold_res (check_face faces pf) fs st = Ok st' /\ after (l ++ flat_map face_edges fs) st'.
  Proof.
    revert l st. induction fs as [|f t IH]; intros l st Hi A; cbn [fold_res flat_map]; [exists st; rewrite app_nil_r; auto|].
    destruct (@check_face_ok l f st) as (s1 & -> & A1); auto. { apply Hi. left. auto. } cbn [bind].
    destruct (IH _ s1 (fun x H => Hi x (or_intror H)) A1) as (s2 & E & A2). exists s2. split; auto. rewrite app_assoc. auto.
  Qed.
End V.

Lemma after_start ss0 faces : after ss0 faces [] (ss0, true).
Proof. split; [apply only_radii_refl|]. cbn [fst snd]. split; [intros; cbn; lra|]. split; auto. split; auto. Qed.
Lemma closed_edges n ns faces : proper_triangles n faces ->
  (closed_surface ns faces <-> forall e, In e (flat_map face_edges faces) -> bad_edge faces e = true -> ~ (fst e < ns \/ snd e < ns)%nat).
Proof.
  intros (Ht & Hnd). split.
  - intros Hcl e He Hb Hs. apply in_flat_map in He. destruct He as (f & Hf & He). destruct (Ht f Hf) as (Hlen & _). specialize (Hnd f Hf).
    assert (X : In (fst e) f /\ In (snd e) f /\ fst e <> snd e).
    { destruct f as [|a [|b [|c [|? ?]]]]; try discriminate. inversion Hnd as [|? ? X1 Y1]. inversion Y1 as [|? ? X2 Y2]. simpl in X1, X2.
      unfold face_edges in He. cbn [nth] in He. destruct He as [<-|[<-|[<-|[]]]]; cbn [fst snd In]; intuition congruence. }
    destruct X as (X1 & X2 & X3). pose proof (Hcl f _ _ Hf X1 X2 X3 Hs) as Hr. unfold bad_edge in Hb. unfold regular in Hr. rewrite Hr in Hb. discriminate.
  - intros H f a b Hf Ha Hb Hab Hs. unfold regular. destruct (Ht f Hf) as (Hlen & _).
    assert (X : In (a, b) (face_edges f) \/ In (b, a) (face_edges f)).
    { destruct f as [|x [|y [|z [|? ?]]]]; try discriminate. unfold face_edges. cbn [nth]. destruct Ha as [<-|[<-|[<-|[]]]], Hb as [<-|[<-|[<-|[]]]]; try congruence; simpl; auto. }
    assert (Sym : faces_with faces a b = faces_with faces b a) by (unfold faces_with; apply filter_ext; intros; apply andb_comm).
    destruct X as [X|X].
    + specialize (H (a, b) ltac:(apply in_flat_map; eauto)). unfold bad_edge in H. cbn [fst snd] in H.
      destruct (length (faces_with faces a b) =? 2)%nat eqn:E; [apply Nat.eqb_eq in E; auto|]. exfalso. apply H; auto.
    + specialize (H (b, a) ltac:(apply in_flat_map; eauto)). unfold bad_edge in H. cbn [fst snd] in H. rewrite Sym.
      destruct (length (faces_with faces b a) =? 2)%nat eqn:E; [apply Nat.eqb_eq in E; auto|]. exfalso. apply H; auto. tauto.
Qed.
Lemma validate_ok ss es cs faces : st_pts ss = [] \/ spheres ss -> proper_triangles (count ss + count es + count cs) faces ->
  exists ss' wt, validate_surface_mesh ss es cs faces = Ok (ss', wt) /\ only_radii ss ss'
    /\ (wt = true <-> closed_surface (count ss) faces) /\ (wt = true -> ss' = ss)
    /\ forall m, (m < count ss)%nat -> radius ss' m = radius ss m * (95/100) ^ strikes faces m.
Proof.
  intros Hss Hp. destruct (build_ok (proj1 Hp)) as (pf & E & L & N). unfold validate_surface_mesh.
  change (st_n ss + st_n es + st_n cs)%nat with (count ss + count es + count cs)%nat. rewrite E. cbn [bind].
  destruct (@check_faces_ok ss faces pf (count ss + count es + count cs)%nat Hss) with (fs := faces) (l := @nil (nat * nat)) (st := (ss, true)) as (st' & E' & A); auto.
  { intros a b Ha Hab. apply (@edge_exact (count ss + count es + count cs)%nat); auto. }
  { apply incl_refl. } { apply after_start. }
  destruct st' as (ss' & wt). destruct A as (O & Rd & Same & Wt). cbn [fst snd app] in *. exists ss', wt. split; auto. split; auto. rewrite (closed_edges (count ss) Hp). split; auto. split; [|auto].
  intros ->. apply Same. apply Wt. auto.
Qed.
