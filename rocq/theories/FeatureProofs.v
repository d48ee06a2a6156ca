(** Proofs about the detection of sharp features. *)
From Coq Require Import Reals Lra.
From Verif Require Import Base Num Vec DenseQR Geometry GeometrySpec GeometryProofs PolyMesh PolyMeshSpec
  PolyMeshProofs PolyMeshOrientProofs FeatureSpec.

Section Edges.
  Local Open Scope R_scope.
  Variables (thr : R) (pts : list (list R)) (faces pf : list (list nat)).
  Hypothesis Hp : proper_triangles (length pts) faces.
  Hypothesis Hc : clean pts faces.

  Lemma face_normal_ok f : In f faces -> exists l, face_normal pts f = Ok l /\
    forall d, (d < 3)%nat -> row_vec l d = unit_normal pts f d.
  Proof.
    intros Hf. destruct Hp as (Ht & _). destruct (Ht f Hf) as (H3 & Hin). destruct Hc as (Hpt & Hs & _).
    specialize (Hs f Hf). destruct (triple _ H3) as (a & b & c & ->).
    assert (Ha : (a < length pts)%nat) by (apply Hin; simpl; auto).
    assert (Hb : (b < length pts)%nat) by (apply Hin; simpl; auto).
    assert (Hcc : (c < length pts)%nat) by (apply Hin; simpl; auto).
    unfold face_normal. rewrite corners3_ok by auto. cbn [bind].
    change (nth 0 [a; b; c] 0%nat) with a. change (nth 1 [a; b; c] 0%nat) with b. change (nth 2 [a; b; c] 0%nat) with c.
    rewrite (get_nth pts [] Ha), (get_nth pts [] Hb), (get_nth pts [] Hcc). cbn [bind].
    set (cc := fun k => row_vec (nth k [nth a pts []; nth b pts []; nth c pts []] [])).
    destruct (triangle_normal_R cc) as [(_ & m & E & P & Em)|(S & _)].
    - eexists. split; [reflexivity|]. intros d Hd. rewrite E. cbn [snd].
      transitivity (m d). { destruct d as [|[|[|]]]; try reflexivity. lia. }
      rewrite Em. unfold unit_normal.
      assert (E0 : forall k, (k < 3)%nat -> corner_points pts [a; b; c] k = cc k).
      { intros k Hk. unfold corner_points, at_point, cc. destruct k as [|[|[|]]]; try reflexivity. lia. }
      rewrite !E0 by lia. reflexivity.
    - exfalso. apply Hs. exact S.
  Qed.

  Lemma normals_ok : forall l, incl l faces -> exists ns, build_face_normals pts l = Ok ns /\ length ns = length l
    /\ forall i, (i < length l)%nat -> forall d, (d < 3)%nat -> row_vec (nth i ns []) d = unit_normal pts (nth i l []) d.
  Proof.
    induction l as [|f l IH]; intros Hl; cbn [build_face_normals].
    - exists []. split; auto. split; auto. simpl. intros; lia.
    - destruct (@face_normal_ok f) as (n & E & N); [apply Hl; left; auto|]. rewrite E. cbn [bind].
      destruct IH as (ns & Es & Ls & Ns); [intros x Hx; apply Hl; right; auto|]. rewrite Es. cbn [bind].
      exists (n :: ns). split; auto. split; [simpl; congruence|]. intros [|i] Hi d Hd; cbn [nth]; auto.
      apply Ns; auto. simpl in Hi. lia.
  Qed.

  Hypothesis Lpf : length pf = length pts.
  Hypothesis Hpf : forall p, (p < length pts)%nat -> nth p pf [] = faces_at faces p.
  Variable ns : list (list R).
  Hypothesis Lns : length ns = length faces.
  Hypothesis Hns : forall i, (i < length faces)%nat -> forall d, (d < 3)%nat ->
    row_vec (nth i ns []) d = unit_normal pts (nth i faces []) d.

  Definition flat_pair (a b : nat) : bool :=
    match faces_with faces a b with
    | [i; j] => negb (Rltb (dot 3 (unit_normal pts (nth i faces [])) (unit_normal pts (nth j faces []))) thr)
    | _ => false
    end.
  Definition piece (a b : nat) : list (nat * nat) :=
    if (length (faces_with faces a b) =? 2)%nat then
      if (a <? b)%nat && negb (flat_pair a b) then [ordered_pair a b] else []
    else [ordered_pair a b].

  Lemma edge_piece f i a b out : In f faces -> (i < 3)%nat -> nth_error f i = Some a -> nth_error f (wrap3 i) = Some b ->
    sharp_edge_of thr faces pf ns f i out = Ok (out ++ piece a b).
  Proof.
    intros Hf Hi Ea Eb. unfold sharp_edge_of. rewrite (get_some Ea), (get_some Eb). cbn [bind].
    pose proof Hp as (Ht & Hn). destruct (Ht f Hf) as (H3 & Hin). specialize (Hn f Hf).
    assert (Hr : runs f a b).
    { exists i. split; [lia|]. split; auto. rewrite (wrap3_next _ H3 Hi) in Eb. exact Eb. }
    destruct (runs_in Hr) as (Hia & Hib). destruct (runs_ne H3 Hn Hr) as (Hne & _).
    destruct (@edge_exact (length pts) faces pf a b Hp Lpf Hpf (Hin _ Hia) Hne) as (G1 & G2).
    rewrite G1, G2. cbn [bind]. unfold piece.
    destruct (Nat.eqb_spec (length (faces_with faces a b)) 2) as [E|E]; cbn [negb]; [|reflexivity].
    destruct (a <? b)%nat eqn:Eab; cbn [andb]; [|now rewrite app_nil_r].
    unfold flat_pair. assert (Hlt : forall k, In k (faces_with faces a b) -> (k < length faces)%nat).
    { intros k Hk. apply faces_with_in in Hk. tauto. }
    destruct (faces_with faces a b) as [|k1 [|k2 [|]]]; try discriminate. cbn [get nth_error bind].
    assert (H1 : (k1 < length faces)%nat) by (apply Hlt; simpl; auto).
    assert (H2 : (k2 < length faces)%nat) by (apply Hlt; simpl; auto).
    rewrite (get_nth ns []) by lia. cbn [bind]. rewrite (get_nth ns []) by lia. cbn [bind].
    rewrite dot_product_R. change nltb with Rltb.
    rewrite (@dot_ext 3%nat (row_vec (nth k1 ns [])) (unit_normal pts (nth k1 faces [])) (row_vec (nth k2 ns [])) (unit_normal pts (nth k2 faces []))).
    2:{ intros; now apply Hns. } 2:{ intros; now apply Hns. }
    rewrite negb_involutive. destruct (Rltb _ thr); auto. now rewrite app_nil_r.
  Qed.

  Definition face_pieces (f : list nat) : list (nat * nat) :=
    match f with [a; b; c] => piece a b ++ piece b c ++ piece c a | _ => [] end.
  Lemma sharp_edges_ok : sharp_edges thr faces pf ns = Ok (flat_map face_pieces faces).
  Proof.
    unfold sharp_edges.
    assert (G : forall l out, incl l faces ->
      fold_res (fun f out => fold_res (sharp_edge_of thr faces pf ns f) [0; 1; 2]%nat out) l out = Ok (out ++ flat_map face_pieces l)).
    2:{ apply (G faces []). apply incl_refl. }
    induction l as [|f l IH]; intros out Hl.
    - cbn. now rewrite app_nil_r.
    - rewrite fold_res_cons. assert (Hf : In f faces) by (apply Hl; left; auto).
      destruct Hp as (Ht & _). destruct (Ht f Hf) as (H3 & _). destruct (triple _ H3) as (a & b & c & Ef).
      rewrite !fold_res_cons. rewrite (@edge_piece f 0 a b) by (subst; auto). cbn [bind].
      rewrite fold_res_cons. rewrite (@edge_piece f 1 b c) by (subst; auto). cbn [bind].
      rewrite fold_res_cons. rewrite (@edge_piece f 2 c a) by (subst; auto). cbn [bind].
      change (fold_res (sharp_edge_of thr faces pf ns f) [] ?x) with (Ok x). cbn [bind].
      rewrite IH by (intros x Hx; apply Hl; right; auto). cbn [flat_map]. subst f. cbn [face_pieces].
      now rewrite <- !app_assoc.
  Qed.

  Lemma in_face_pieces f e : In f faces -> In e (face_pieces f) <-> exists a b, runs f a b /\ In e (piece a b).
  Proof.
    intros Hf. destruct Hp as (Ht & _). destruct (Ht f Hf) as (H3 & _). destruct (triple _ H3) as (a & b & c & ->).
    cbn [face_pieces]. rewrite !in_app_iff. split.
    - intros [H|[H|H]]; do 2 eexists; (split; [|exact H]); rewrite runs3; tauto.
    - intros (x & y & Hr & He). apply runs3 in Hr. destruct Hr as [(-> & ->)|[(-> & ->)|(-> & ->)]]; auto.
  Qed.

  Lemma flat_pair_sym a b : flat_pair a b = flat_pair b a.
  Proof. unfold flat_pair. now rewrite (faces_with_sym faces a b). Qed.
  Lemma ordered_lt a b : a <> b -> ordered_pair a b = (Nat.min a b, Nat.max a b).
  Proof. intros H. unfold ordered_pair. destruct (Nat.ltb_spec a b); f_equal; lia. Qed.

  (** What is listed, whatever the orientation of the faces. *)
  Lemma listed a b : In (a, b) (flat_map face_pieces faces) <->
    (a < b)%nat /\ is_sharp_edge thr pts faces a b /\
    (length (faces_with faces a b) = 2%nat -> exists f, In f faces /\ runs f a b).
  Proof.
    rewrite in_flat_map. pose proof Hp as (Ht & Hn). split.
    - intros (f & Hf & He). rewrite in_face_pieces in He by auto. destruct He as (x & y & Hr & He).
      destruct (Ht f Hf) as (H3 & _). specialize (Hn f Hf). destruct (runs_ne H3 Hn Hr) as (Hne & _).
      destruct (runs_in Hr) as (Hx & Hy).
      assert (Hw : faces_with faces x y <> []).
      { apply In_nth with (d := []) in Hf as (k & Hk & Ek). intros E0.
        assert (Hin : In k (faces_with faces x y)) by (apply faces_with_in; rewrite Ek; auto). rewrite E0 in Hin. destruct Hin. }
      unfold piece in He. destruct (Nat.eqb_spec (length (faces_with faces x y)) 2) as [E|E].
      + destruct (Nat.ltb_spec x y) as [Hxy|]; [|destruct He]. cbn [andb] in He.
        destruct (negb (flat_pair x y)) eqn:Efl; [|destruct He].
        destruct He as [He|[]]. unfold ordered_pair in He. apply Nat.ltb_lt in Hxy as Hxy'. rewrite Hxy' in He. injection He as <- <-.
        split; auto. split; [|intros _; exists f; auto]. split; auto. intros i j Eij.
        unfold flat_pair in Efl. rewrite Eij in Efl. rewrite negb_involutive in Efl. now apply Rltb_true in Efl.
      + destruct He as [He|[]]. rewrite ordered_lt in He by auto. injection He as <- <-.
        assert (Es : faces_with faces (Nat.min x y) (Nat.max x y) = faces_with faces x y).
        { destruct (le_lt_dec x y); [rewrite Nat.min_l, Nat.max_r by lia; auto|rewrite Nat.min_r, Nat.max_l by lia; apply faces_with_sym]. }
        rewrite Es. unfold is_sharp_edge. rewrite Es. split; [lia|]. split; [|intros E'; congruence]. split; auto.
        intros i j Eij. exfalso. apply E. now rewrite Eij.
    - intros (Hab & (Hw & Hsh) & Hrun).
      destruct (Nat.eq_dec (length (faces_with faces a b)) 2) as [E|E].
      + destruct (Hrun E) as (f & Hf & Hr). exists f. split; auto. rewrite in_face_pieces by auto. exists a, b. split; auto.
        unfold piece. rewrite E. cbn [Nat.eqb]. apply Nat.ltb_lt in Hab as Hab'. rewrite Hab'. cbn [andb].
        unfold flat_pair. destruct (faces_with faces a b) as [|i [|j [|]]]; try discriminate.
        rewrite negb_involutive. specialize (Hsh i j eq_refl). apply Rltb_true in Hsh. rewrite Hsh. left. unfold ordered_pair. now rewrite Hab'.
      + destruct (faces_with faces a b) as [|k t] eqn:Ew; [congruence|].
        assert (Hk : In k (faces_with faces a b)) by (rewrite Ew; left; auto).
        apply faces_with_in in Hk as (Hk & Hka & Hkb). set (f := nth k faces []) in *.
        assert (Hf : In f faces) by (apply nth_In; auto). destruct (Ht f Hf) as (H3 & _).
        exists f. split; auto. rewrite in_face_pieces by auto.
        assert (Hpc : forall x y, faces_with faces x y = k :: t -> x <> y -> In (Nat.min x y, Nat.max x y) (piece x y)).
        { intros x y Exy Hxy. unfold piece. rewrite Exy. apply Nat.eqb_neq in E. rewrite E. left. now apply ordered_lt. }
        destruct (@runs_total f a b H3 (Hn f Hf) Hka Hkb) as [Hr|Hr]; [lia| |].
        * exists a, b. split; auto. specialize (Hpc a b Ew). rewrite Nat.min_l, Nat.max_r in Hpc by lia. apply Hpc; lia.
        * exists b, a. split; auto. specialize (Hpc b a). rewrite Nat.min_r, Nat.max_l in Hpc by lia. apply Hpc; [now rewrite faces_with_sym|lia].
  Qed.

  Lemma listed_consistent a b : consistent faces -> In (a, b) (flat_map face_pieces faces) <->
    (a < b)%nat /\ is_sharp_edge thr pts faces a b.
  Proof.
    intros Hco. rewrite listed. split; [tauto|]. intros (Hab & Hsh). split; auto. split; auto. intros E.
    pose proof Hp as (Ht & Hn).
    destruct (faces_with faces a b) as [|i [|j [|]]] eqn:Ew; try discriminate.
    assert (Hi : In i (faces_with faces a b)) by (rewrite Ew; simpl; auto).
    assert (Hj : In j (faces_with faces a b)) by (rewrite Ew; simpl; auto).
    assert (Hij : i <> j).
    { assert (Hnd : NoDup (faces_with faces a b)) by apply NoDup_filter, seq_NoDup. rewrite Ew in Hnd.
      apply NoDup_cons_iff in Hnd as (Hx & _). simpl in Hx. intuition. }
    apply faces_with_in in Hi as (Hi & Hia & Hib). apply faces_with_in in Hj as (Hj & Hja & Hjb).
    set (f := nth i faces []) in *. set (g := nth j faces []) in *.
    assert (Hf : In f faces) by (apply nth_In; auto). assert (Hg : In g faces) by (apply nth_In; auto).
    assert (Hne : a <> b) by lia.
    destruct (Ht f Hf) as (F3 & _). destruct (Ht g Hg) as (G3 & _).
    destruct (@runs_total f a b F3 (Hn f Hf) Hia Hib Hne) as [Hr|Hr]; [exists f; auto|].
    destruct (@runs_total g a b G3 (Hn g Hg) Hja Hjb Hne) as [Hr'|Hr']; [exists g; auto|].
    exfalso. revert Hr'. apply (Hco i j b a f g); auto; try (apply nth_error_nth'; auto).
    rewrite faces_with_sym, Ew. reflexivity.
  Qed.
End Edges.

(** ** Edges of a point *)
Section PointEdges.
  Variable n : nat.
  Variable edges : list (nat * nat).
  Hypothesis He : forall a b, In (a, b) edges -> a < b /\ b < n.

  Definition ends (x : nat * (nat * nat)) : list (nat * nat) := [(fst x, fst (snd x)); (fst x, snd (snd x))].

  Lemma point_edges_ok : exists pe, point_edges n edges = Ok pe /\ length pe = n /\
    forall p, p < n -> nth p pe [] = row_of (flat_map ends (numbered edges)) p.
  Proof.
    unfold point_edges.
    assert (E1 : fold_res (fun '(a, b) cnt => c1 <- count_corner a cnt ;; count_corner b c1) edges (repeat 0 n)
      = fold_res count_corner (flat_map (fun e => [fst e; snd e]) edges) (repeat 0 n)).
    { rewrite <- (fold_res_flat count_corner (fun e => [fst e; snd e])). apply fold_res_ext.
      intros [a b] st _. cbn [fold_res fst snd]. destruct (count_corner a st) as [s| |]; auto. cbn [bind].
      destruct (count_corner b s); auto. }
    rewrite E1.
    destruct (@count_ok (flat_map (fun e => [fst e; snd e]) edges) (repeat 0 n)) as (cnt & E & L & N).
    { intros p Hp. rewrite repeat_length. apply in_flat_map in Hp as ([a b] & Hab & Hp). destruct (He a b Hab).
      simpl in Hp. intuition lia. }
    rewrite E. cbn [bind]. rewrite repeat_length in *.
    rewrite (@fold_res_ext _ _ _ (fun x pe => fold_res (fun y => record_face cnt (fst y) (snd y)) (ends x) pe)).
    2:{ intros [i [a b]] st _. cbn [fold_res ends fst snd]. destruct (record_face cnt i a st) as [s| |]; auto. cbn [bind].
        destruct (record_face cnt i b s); auto. }
    rewrite fold_res_flat.
    destruct (@fill_ok cnt (flat_map ends (numbered edges)) (repeat [] n)) as (pe & E2 & L2 & N2).
    - now rewrite repeat_length.
    - rewrite repeat_length. intros x Hx. apply in_flat_map in Hx as ([i [a b]] & Hi & Hx). apply in_numbered, nth_error_In in Hi.
      destruct (He a b Hi). cbn in Hx. destruct Hx as [<-|[<-|[]]]; cbn; lia.
    - rewrite repeat_length. intros p Hp. rewrite nth_repeat_eq, row_of_count, N by auto. rewrite nth_repeat_eq. simpl.
      assert (Em : map snd (flat_map ends (numbered edges)) = flat_map (fun e => [fst e; snd e]) edges); [|rewrite Em; lia].
      unfold numbered. generalize 0 as k. clear. induction edges as [|e t IH]; intros k; simpl; auto. now rewrite IH.
    - rewrite repeat_length in *. exists pe. split; auto. split; auto. intros p Hp. rewrite N2, nth_repeat_eq by auto. reflexivity.
  Qed.

  Definition at_p (p : nat) (e : nat * nat) : bool := (fst e =? p) || (snd e =? p).
  Lemma gather_app es l l' : gather_edges es (l ++ l') = (a <- gather_edges es l ;; b <- gather_edges es l' ;; Ok (a ++ b)).
  Proof.
    induction l as [|i t IH]; simpl.
    - destruct (gather_edges es l'); auto.
    - destruct (get es i); simpl; auto. rewrite IH. destruct (gather_edges es t); simpl; auto.
      destruct (gather_edges es l'); auto.
  Qed.
  Lemma gather_ok p : gather_edges edges (row_of (flat_map ends (numbered edges)) p) = Ok (filter (at_p p) edges).
  Proof.
    assert (G : forall m, m <= length edges ->
      gather_edges edges (row_of (flat_map ends (firstn m (numbered edges))) p) = Ok (filter (at_p p) (firstn m edges))).
    2:{ specialize (G (length edges) (le_n _)). rewrite firstn_all in G. rewrite firstn_all2 in G; auto.
        unfold numbered. rewrite combine_length, seq_length. lia. }
    induction m as [|m IH]; intros Hm; [reflexivity|].
    destruct (nth_error_lt edges (i := m)) as (e & Ee); [lia|].
    assert (Fs : forall (A : Type) (l : list A) k a, nth_error l k = Some a -> firstn (S k) l = firstn k l ++ [a]).
    { clear. intros A l. induction l as [|h t IH]; intros k a E; destruct k; simpl in *; try discriminate.
      - congruence.
      - f_equal. auto. }
    rewrite (Fs _ edges m e Ee), (Fs _ (numbered edges) m (m, e)) by (rewrite numbered_nth, Ee; auto).
    rewrite flat_map_app, row_of_app, gather_app, IH by lia. cbn [bind]. rewrite filter_app.
    destruct e as [a b]. destruct (He a b (nth_error_In _ _ Ee)) as (Hab & _).
    assert (Ea : filter (at_p p) [(a, b)] = if (a =? p) || (b =? p) then [(a, b)] else []) by reflexivity.
    rewrite Ea. cbn [flat_map ends app fst snd].
    unfold row_of. cbn [filter snd].
    destruct (Nat.eqb_spec a p), (Nat.eqb_spec b p); cbn [orb filter map fst]; subst; try lia;
      cbn [gather_edges]; try rewrite (get_some Ee); cbn [bind]; reflexivity.
  Qed.

  Lemma same_edge_true e e' : same_edge e e' = true <-> e = e'.
  Proof.
    unfold same_edge. rewrite andb_true_iff, !Nat.eqb_eq. destruct e, e'; cbn. split; [intros (-> & ->); auto|intros H; injection H; auto].
  Qed.
  Lemma distinct_ok : forall l seen, NoDup (distinct_edges l seen) /\ forall e, In e (distinct_edges l seen) <-> In e l /\ ~ In e seen.
  Proof.
    assert (Hs : forall e seen, existsb (same_edge e) seen = true <-> In e seen).
    { intros e seen. rewrite existsb_exists. split; [intros (x & Hx & E); apply same_edge_true in E; subst; auto|].
      intros H. exists e. split; auto. now apply same_edge_true. }
    assert (Dec : forall e e' : nat * nat, {e = e'} + {e <> e'}) by (repeat decide equality).
    induction l as [|e t IH]; intros seen; simpl; [split; [constructor|tauto]|].
    destruct (IH (seen ++ [e])) as (IH1 & IH2). destruct (existsb (same_edge e) seen) eqn:E.
    - apply Hs in E. split; auto. intros x. rewrite IH2, in_app_iff. simpl. split; [tauto|].
      intros ([<-|Hx] & Hn); [tauto|]. split; auto. intros [?|[<-|[]]]; tauto.
    - assert (E' : ~ In e seen) by (rewrite <- Hs, E; discriminate). split.
      + constructor; auto. rewrite IH2, in_app_iff. simpl. tauto.
      + intros x. simpl. rewrite IH2, in_app_iff. simpl. split.
        * intros [<-|(H1 & H2)]; tauto.
        * intros ([<-|Hx] & Hn); [tauto|]. destruct (Dec e x); [tauto|]. right. tauto.
  Qed.
End PointEdges.

Section Corners.
  Local Open Scope R_scope.
  Variables (thr : R) (pts : list (list R)) (faces : list (list nat)) (edges : list (nat * nat)).
  Hypothesis Hp : proper_triangles (length pts) faces.
  Hypothesis Hc : clean pts faces.
  Hypothesis Hedges : forall a b, In (a, b) edges <-> (a < b)%nat /\ is_sharp_edge thr pts faces a b.

  Lemma sharp_sym a b : is_sharp_edge thr pts faces a b <-> is_sharp_edge thr pts faces b a.
  Proof. unfold is_sharp_edge. now rewrite (faces_with_sym faces a b). Qed.
  Lemma sharp_range a b : is_sharp_edge thr pts faces a b -> (a < length pts)%nat /\ (b < length pts)%nat.
  Proof.
    intros (Hw & _). destruct (faces_with faces a b) as [|k t] eqn:E; [congruence|].
    assert (Hk : In k (faces_with faces a b)) by (rewrite E; left; auto).
    apply faces_with_in in Hk as (Hk & Ha & Hb). destruct Hp as (Ht & _).
    destruct (Ht (nth k faces [])) as (_ & Hin); [apply nth_In; auto|]. auto.
  Qed.
  Lemma edges_range a b : In (a, b) edges -> (a < b)%nat /\ (b < length pts)%nat.
  Proof. intros H. apply Hedges in H as (H1 & H2). apply sharp_range in H2. tauto. Qed.

  Lemma cos_angle_spec p q1 q2 : (p < length pts)%nat -> (q1 < length pts)%nat -> (q2 < length pts)%nat -> p <> q1 -> p <> q2 ->
    cos_angle 3 (row_vec (nth q1 pts [])) (row_vec (nth p pts [])) (row_vec (nth q2 pts []))
    = cosine (at_point pts q1) (at_point pts p) (at_point pts q2).
  Proof.
    intros H0 H1 H2 N1 N2. destruct Hc as (_ & _ & Hap).
    pose proof (Hap q1 p H1 H0 (not_eq_sym N1)) as D1. pose proof (Hap p q2 H0 H2 N2) as D2.
    unfold cos_angle, cosine. rewrite !distance_R, tol_eq, range0_R. change nltb with Rltb.
    change (row_vec (nth q1 pts [])) with (at_point pts q1). change (row_vec (nth q2 pts [])) with (at_point pts q2).
    change (row_vec (nth p pts [])) with (at_point pts p).
    replace (Rltb _ _ || Rltb _ _) with false by (symmetry; apply orb_false_iff; rewrite !Rltb_false; auto).
    reflexivity.
  Qed.
  Lemma cosine_sym x y z : cosine x y z = cosine z y x.
  Proof. unfold cosine. rewrite (vdist_sym 3%nat x y), (vdist_sym 3%nat y z), dot_comm. f_equal. ring. Qed.

  Lemma corner_ok p row : (p < length pts)%nat -> row = row_of (flat_map ends (numbered edges)) p ->
    exists b, sharp_corner thr pts edges row p = Ok b /\ (b = true <-> is_sharp_corner thr pts faces p).
  Proof.
    intros Hlt ->. unfold sharp_corner. rewrite (@gather_ok (length pts) edges edges_range). cbn [bind].
    destruct (distinct_ok (filter (at_p p) edges) []) as (D1 & D2). set (D := distinct_edges (filter (at_p p) edges) []) in *.
    assert (HD : forall e, In e D <-> In e edges /\ (fst e = p \/ snd e = p)).
    { intros e. rewrite D2, filter_In. unfold at_p. rewrite orb_true_iff, !Nat.eqb_eq. simpl. tauto. }
    set (Q := map (other_end p) D).
    assert (Hoe : forall e, In e D -> e = ordered_pair p (other_end p e) /\ other_end p e <> p).
    { intros [a b] H. apply HD in H as (H & Hor). apply edges_range in H as (H & _). unfold other_end, ordered_pair. cbn [fst snd] in *.
      destruct (Nat.eqb_spec a p) as [->|Hn].
      - apply Nat.ltb_lt in H as H'. rewrite H'. split; auto. lia.
      - destruct Hor as [?|<-]; [tauto|]. destruct (Nat.ltb_spec b a); [lia|]. split; auto. }
    assert (HQ : forall q, In q Q <-> q <> p /\ is_sharp_edge thr pts faces p q).
    { intros q. unfold Q. rewrite in_map_iff. split.
      - intros (e & <- & He). destruct (Hoe e He) as (Ee & Hn). split; auto. apply HD in He as (He & _).
        rewrite Ee in He. unfold ordered_pair in He. destruct (p <? other_end p e)%nat; apply Hedges in He as (_ & He); auto. now apply sharp_sym.
      - intros (Hn & Hs). exists (ordered_pair p q). split.
        + unfold ordered_pair, other_end. destruct (Nat.ltb_spec p q); cbn [fst snd].
          * now rewrite Nat.eqb_refl.
          * destruct (Nat.eqb_spec q p); [tauto|auto].
        + apply HD. unfold ordered_pair. destruct (Nat.ltb_spec p q); cbn [fst snd]; (split; [|tauto]); apply Hedges; split; auto; try lia.
          now apply sharp_sym. }
    assert (NQ : NoDup Q).
    { unfold Q. clear HQ D2 HD. induction D as [|e t IH]; simpl; [constructor|]. apply NoDup_cons_iff in D1 as (Hne & Hnd).
      constructor; [|apply IH; auto; intros; apply Hoe; right; auto]. rewrite in_map_iff. intros (e' & Ee & He').
      apply Hne. destruct (Hoe e (or_introl eq_refl)) as (E1 & _). destruct (Hoe e' (or_intror He')) as (E2 & _).
      rewrite E1, <- Ee, <- E2. auto. }
    assert (Huniq : forall Q', NoDup Q' -> (forall q, In q Q' <-> q <> p /\ is_sharp_edge thr pts faces p q) -> Permutation Q Q').
    { intros Q' N' H'. apply NoDup_Permutation; auto. intros x. now rewrite HQ, H'. }
    assert (Hlq : length Q = length D) by (unfold Q; apply map_length).
    destruct D as [|e1 [|e2 [|e3 t]]] eqn:ED.
    - exists false. split; auto. split; [discriminate|]. intros (Q' & N' & H' & Hne & _). exfalso. apply Hne.
      apply Permutation_nil. apply (Huniq Q'); auto.
    - exists true. split; auto. split; auto. intros _. exists Q. split; auto. split; auto. split; [discriminate|].
      intros q1 q2 E. unfold Q in E. discriminate.
    - pose proof (Hoe e1 (or_introl eq_refl)) as (_ & N1). pose proof (Hoe e2 (or_intror (or_introl eq_refl))) as (_ & N2).
      assert (R1 : (other_end p e1 < length pts)%nat). { assert (In (other_end p e1) Q) by (left; auto). apply HQ in H as (_ & H). apply sharp_range in H. tauto. }
      assert (R2 : (other_end p e2 < length pts)%nat). { assert (In (other_end p e2) Q) by (right; left; auto). apply HQ in H as (_ & H). apply sharp_range in H. tauto. }
      rewrite (get_nth pts [] Hlt), (get_nth pts [] R1), (get_nth pts [] R2). cbn [bind].
      eexists. split; [reflexivity|]. rewrite cos_angle_spec by auto. change nltb with Rltb. rewrite Rltb_true. change nopp with Ropp. split.
      + intros H. exists Q. split; auto. split; auto. split; [discriminate|]. intros q1 q2 E. unfold Q in E. injection E as <- <-. exact H.
      + intros (Q' & N' & H' & _ & Hcos). pose proof (Huniq Q' N' H') as Hpm. unfold Q in Hpm. cbn [map] in Hpm.
        apply Permutation_length_2_inv in Hpm as [->| ->]; specialize (Hcos _ _ eq_refl); auto. now rewrite cosine_sym.
    - exists true. split; auto. split; auto. intros _. exists Q. split; auto. split; auto. split; [discriminate|].
      intros q1 q2 E. exfalso. rewrite E in Hlq. discriminate.
  Qed.

  Lemma corners_ok pe : length pe = length pts -> (forall p, (p < length pts)%nat -> nth p pe [] = row_of (flat_map ends (numbered edges)) p) ->
    forall k lo, (lo + k = length pts)%nat -> exists cs, sharp_corners_from thr pts edges pe (seq lo k) = Ok cs /\
      Sorted lt cs /\ (forall p, In p cs <-> (lo <= p < length pts)%nat /\ is_sharp_corner thr pts faces p).
  Proof.
    intros Lpe Hpe. induction k as [|k IH]; intros lo Hlo; cbn [seq sharp_corners_from].
    - exists []. split; auto. split; [constructor|]. intros p. simpl. split; [tauto|]. lia.
    - rewrite (get_nth pe []) by lia. cbn [bind].
      destruct (@corner_ok lo (nth lo pe [])) as (b & E & Hb); [lia|apply Hpe; lia|]. rewrite E. cbn [bind].
      destruct (IH (S lo)) as (cs & Ec & Hso & Hcs); [lia|]. rewrite Ec. cbn [bind]. eexists. split; [reflexivity|]. destruct b.
      + split.
        * constructor; auto. destruct cs as [|c cs]; constructor. destruct (Hcs c) as (Hc1 & _). destruct Hc1; [left; auto|]. lia.
        * intros p. simpl. rewrite Hcs. split.
          -- intros [<-|(H1 & H2)]; [split; [lia|tauto]|split; [lia|auto]].
          -- intros (H1 & H2). destruct (Nat.eq_dec lo p); [auto|]. right. split; [lia|auto].
      + split; auto. intros p. rewrite Hcs. split; [intros (H1 & H2); split; [lia|auto]|].
        intros (H1 & H2). split; auto. destruct (Nat.eq_dec lo p) as [<-|]; [|lia]. apply Hb in H2. discriminate.
  Qed.
End Corners.

Lemma detect_ok (thr : R) pts faces : proper_triangles (length pts) faces -> clean pts faces -> consistent faces ->
  exists edges corners, detect_features thr pts faces = Ok (edges, corners)
    /\ (forall a b, In (a, b) edges <-> a < b /\ is_sharp_edge thr pts faces a b)
    /\ Sorted lt corners /\ (forall p, In p corners <-> p < length pts /\ is_sharp_corner thr pts faces p).
Proof.
  intros Hp Hc Hco. unfold detect_features.
  destruct (build_ok (proj1 Hp)) as (pf & E1 & L1 & N1). rewrite E1. cbn [bind].
  destruct (@normals_ok pts faces Hp Hc faces (incl_refl _)) as (ns & E2 & L2 & N2). rewrite E2. cbn [bind].
  rewrite (@sharp_edges_ok thr pts faces pf Hp L1 N1 ns L2 N2). cbn [bind].
  set (edges := flat_map (face_pieces thr pts faces) faces).
  assert (He : forall a b, In (a, b) edges <-> a < b /\ is_sharp_edge thr pts faces a b).
  { intros a b. eapply listed_consistent; eauto. }
  destruct (@point_edges_ok (length pts) edges) as (pe & E3 & L3 & N3).
  { intros a b H. eapply edges_range; eauto. }
  rewrite E3. cbn [bind].
  destruct (@corners_ok thr pts faces edges Hp Hc He pe L3 N3 (length pts) 0 eq_refl) as (cs & E4 & H4 & H5).
  rewrite E4. cbn [bind]. exists edges, cs. split; auto. split; auto. split; auto. intros p. rewrite H5. intuition lia.
Qed.

Lemma detect_edges (thr : R) pts faces : proper_triangles (length pts) faces -> clean pts faces ->
  forall edges corners, detect_features thr pts faces = Ok (edges, corners) ->
  forall a b, In (a, b) edges <-> a < b /\ is_sharp_edge thr pts faces a b
    /\ (length (faces_with faces a b) = 2 -> exists f, In f faces /\ runs f a b).
Proof.
  intros Hp Hc edges corners. unfold detect_features.
  destruct (build_ok (proj1 Hp)) as (pf & E1 & L1 & N1). rewrite E1. cbn [bind].
  destruct (@normals_ok pts faces Hp Hc faces (incl_refl _)) as (ns & E2 & L2 & N2). rewrite E2. cbn [bind].
  rewrite (@sharp_edges_ok thr pts faces pf Hp L1 N1 ns L2 N2). cbn [bind]. intros E.
  apply bind_Ok_inv in E as (pe & _ & E). apply bind_Ok_inv in E as (cs & _ & E). injection E as <- <-.
  intros a b. eapply listed; eauto.
Qed.
