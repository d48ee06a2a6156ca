(** Proofs about the construction of a surface mesh. *)
From Coq Require Import Reals Lra.
From Verif Require Import Base Num Vec MemoryHandler SortSpec MemoryHandlerProofs DenseQR Geometry GeometrySpec GeometryProofs
  PolyMesh PolyMeshSpec PolyMeshProofs PolyMeshOrientProofs PolyMeshAdjustProofs FeatureSpec FeatureProofs MeshFeatures MeshFeaturesSpec.

(** ** Lists *)
Lemma nodup_app {A} (l l' : list A) : NoDup l -> NoDup l' -> (forall x, In x l -> ~ In x l') -> NoDup (l ++ l').
Proof.
  induction l as [|a t IH]; intros H1 H2 H3; simpl; auto. apply NoDup_cons_iff in H1 as (Ha & Ht). constructor.
  - rewrite in_app_iff. intros [H|H]; [auto|]. apply (H3 a); simpl; auto.
  - apply IH; auto. intros x Hx. apply H3. right; auto.
Qed.
Lemma nodup_flat_map {A B} (f : A -> list B) (l : list A) : NoDup l -> (forall x, In x l -> NoDup (f x)) ->
  (forall x y z, In x l -> In y l -> In z (f x) -> In z (f y) -> x = y) -> NoDup (flat_map f l).
Proof.
  induction l as [|a t IH]; intros H1 H2 H3; simpl; [constructor|]. apply NoDup_cons_iff in H1 as (Ha & Ht). apply nodup_app.
  - apply H2. left; auto.
  - apply IH; auto. intros x Hx. apply H2; right; auto. intros x y z Hx Hy. apply H3; right; auto.
  - intros z Hz Hz'. apply in_flat_map in Hz' as (y & Hy & Hz'). assert (a = y) by (apply (H3 a y z); simpl; auto). congruence.
Qed.
Lemma filter_seq_hd P : forall n s k t, filter P (seq s n) = k :: t -> s <= k /\ forall x, In x t -> k < x.
Proof.
  induction n as [|n IH]; intros s k t E; simpl in E; [discriminate|]. destruct (P s).
  - injection E as <- <-. split; auto. intros x Hx. apply filter_In in Hx as (Hx & _). apply in_seq in Hx. lia.
  - apply IH in E as (H1 & H2). split; auto. lia.
Qed.
Lemma min_face_ok l m : min_face (length l) l m = Ok (fold_left (fun m x => if x <? m then x else m) l m).
Proof.
  unfold min_face.
  enough (G : forall t pre m, l = pre ++ t -> fold_res (fun k m => x <- get l k ;; Ok (if x <? m then x else m)) (seq (length pre) (length t)) m
    = Ok (fold_left (fun m x => if x <? m then x else m) t m)) by (apply (G l []); auto).
  clear m. induction t as [|a t IH]; intros pre m E; auto. cbn [length seq]. rewrite fold_res_cons.
  assert (Ea : get l (length pre) = Ok a). { apply get_some. rewrite E, nth_error_app2, Nat.sub_diag; auto. }
  rewrite Ea. cbn [bind]. specialize (IH (pre ++ [a])). rewrite app_length in IH. simpl length in IH. rewrite Nat.add_1_r in IH.
  rewrite IH; auto. now rewrite <- app_assoc.
Qed.
Lemma fold_min_hd k t m : k < m -> (forall x, In x t -> k < x) -> fold_left (fun m x => if x <? m then x else m) (k :: t) m = k.
Proof.
  intros Hk Ht. cbn [fold_left]. destruct (Nat.ltb_spec k m); [|lia]. clear m Hk H. induction t as [|x t IH]; auto. cbn [fold_left].
  pose proof (Ht x (or_introl eq_refl)). destruct (Nat.ltb_spec x k); [lia|]. apply IH. intros; apply Ht; right; auto.
Qed.

(** ** Edges *)
Section Edges.
  Local Open Scope R_scope.
  Variables (thr : R) (pts : list (list R)) (faces pf : list (list nat)).
  Hypothesis Hp : proper_triangles (length pts) faces.
  Hypothesis Hco : consistent faces.
  Hypothesis Lpf : length pf = length pts.
  Hypothesis Hpf : forall p, (p < length pts)%nat -> nth p pf [] = faces_at faces p.
  Variable ns : list (list R).
  Hypothesis Lns : length ns = length faces.
  Hypothesis Hns : forall i, (i < length faces)%nat -> forall d, (d < 3)%nat ->
    row_vec (nth i ns []) d = unit_normal pts (nth i faces []) d.

  Lemma normals_dot i j : (i < length faces)%nat -> (j < length faces)%nat ->
    dot_product 3 (row_vec (nth i ns [])) (row_vec (nth j ns [])) = facing pts faces i j.
  Proof. intros Hi Hj. rewrite dot_product_R. unfold facing. apply dot_ext; intros; now apply Hns. Qed.
  Lemma facing_sym i j : facing pts faces i j = facing pts faces j i.
  Proof. apply dot_comm. Qed.

  Lemma runs_facts f a b : In f faces -> runs f a b -> a <> b /\ ~ runs f b a /\ (a < length pts)%nat /\ (b < length pts)%nat.
  Proof.
    intros Hf Hr. pose proof Hp as (Ht & Hn). destruct (Ht f Hf) as (H3 & Hin). destruct (runs_ne H3 (Hn f Hf) Hr) as (H1 & H2).
    destruct (runs_in Hr) as (Ha & Hb). auto 10.
  Qed.
  Lemma with_ne k f a b : nth_error faces k = Some f -> runs f a b -> In k (faces_with faces a b).
  Proof.
    intros E Hr. destruct (runs_in Hr) as (Ha & Hb). apply faces_with_in. rewrite (nth_error_nth _ _ [] E).
    split; auto. apply nth_error_Some. congruence.
  Qed.
  Lemma with_lt a b k : In k (faces_with faces a b) -> (k < length faces)%nat.
  Proof. intros H. apply faces_with_in in H. tauto. Qed.

  Definition first_face (a b : nat) : nat := hd (length faces) (faces_with faces a b).
  Definition mpiece (k a b : nat) : list (nat * nat) :=
    if (first_face a b =? k)%nat && negb (flat_pair thr pts faces a b) then [(a, b)] else [].

  Lemma mesh_edge_ok k f i a b out : nth_error faces k = Some f -> (i < 3)%nat -> nth_error f i = Some a -> nth_error f (wrap3 i) = Some b ->
    mesh_edge_of thr faces pf ns k f i out = Ok (out ++ mpiece k a b).
  Proof.
    intros Ek Hi Ea Eb. pose proof (nth_error_In _ _ Ek) as Hf.
    unfold mesh_edge_of. rewrite (get_some Ea), (get_some Eb). cbn [bind].
    pose proof Hp as (Ht & Hn). destruct (Ht f Hf) as (H3 & Hin).
    assert (Hr : runs f a b).
    { exists i. split; [lia|]. split; auto. rewrite (wrap3_next _ H3 Hi) in Eb. exact Eb. }
    destruct (runs_facts Hf Hr) as (Hne & Hnr & Hla & Hlb).
    destruct (@edge_exact (length pts) faces pf a b Hp Lpf Hpf Hla Hne) as (G1 & G2).
    rewrite G1, G2. cbn [bind]. rewrite min_face_ok. cbn [bind]. unfold mpiece, first_face, flat_pair.
    pose proof (@with_ne k f a b Ek Hr) as Hk. pose proof (@with_lt a b) as Hlt.
    destruct (faces_with faces a b) as [|h t] eqn:Ew; [destruct Hk|].
    rewrite fold_min_hd by (try apply Hlt; simpl; auto; apply (@filter_seq_hd _ _ _ _ _ Ew)).
    cbn [hd]. destruct (Nat.eqb_spec h k) as [->|Hhk]; cbn [negb andb]; [|now rewrite app_nil_r].
    destruct t as [|j [|x t]]; cbn [length Nat.eqb negb]; auto. cbn [get nth_error bind].
    assert (H1 : (k < length faces)%nat) by (apply Hlt; simpl; auto).
    assert (H2 : (j < length faces)%nat) by (apply Hlt; simpl; auto).
    rewrite (get_nth ns []) by lia. cbn [bind]. rewrite (get_nth ns []) by lia. cbn [bind].
    destruct (nth_error_lt faces (i := j)) as (g & Eg); auto. rewrite (get_some Eg). cbn [bind].
    destruct (Ht g (nth_error_In _ _ Eg)) as (G3 & _).
    destruct (nth_error_lt g (i := i)) as (u & Eu); [lia|]. destruct (nth_error_lt g (i := wrap3 i)) as (v & Ev).
    { rewrite G3. unfold wrap3. destruct i as [|[|[|]]]; cbn; lia. }
    rewrite (get_some Eu), (get_some Ev). cbn [bind]. rewrite normals_dot by auto.
    replace ((u =? a) && (v =? b))%nat with false.
    - cbv iota. rewrite negb_involutive. change nltb with Rltb. unfold facing. destruct (Rltb _ thr); auto. now rewrite app_nil_r.
    - symmetry. apply andb_false_iff. destruct (Nat.eqb_spec u a) as [->|]; auto. destruct (Nat.eqb_spec v b) as [->|]; auto. exfalso.
      assert (Hrg : runs g a b).
      { exists i. split; [lia|]. split; auto. rewrite (wrap3_next _ G3 Hi) in Ev. exact Ev. }
      revert Hrg. refine (@Hco k j a b f g _ Ek Eg _ Hr).
      + destruct (@filter_seq_hd _ _ _ _ _ Ew) as (_ & Hl). specialize (Hl j (or_introl eq_refl)). lia.
      + now rewrite Ew.
  Qed.

  Definition mface (x : nat * list nat) : list (nat * nat) :=
    match snd x with [a; b; c] => mpiece (fst x) a b ++ mpiece (fst x) b c ++ mpiece (fst x) c a | _ => [] end.
  Definition all_edges : list (nat * nat) := flat_map mface (numbered faces).
  Lemma mesh_sharp_ok : mesh_sharp_edges thr faces pf ns = Ok all_edges.
  Proof.
    unfold mesh_sharp_edges, all_edges.
    assert (G : forall l out, incl l (numbered faces) ->
      fold_res (fun '(iface, f) out => fold_res (mesh_edge_of thr faces pf ns iface f) [0; 1; 2]%nat out) l out = Ok (out ++ flat_map mface l)).
    2:{ apply (G (numbered faces) []). apply incl_refl. }
    induction l as [|[k f] l IH]; intros out Hl.
    - cbn. now rewrite app_nil_r.
    - rewrite fold_res_cons. assert (Hk : nth_error faces k = Some f) by (apply in_numbered, Hl; left; auto).
      destruct Hp as (Ht & _). destruct (Ht f (nth_error_In _ _ Hk)) as (H3 & _). destruct (triple _ H3) as (a & b & c & Ef).
      rewrite !fold_res_cons. rewrite (@mesh_edge_ok k f 0 a b) by (subst; auto). cbn [bind].
      rewrite fold_res_cons. rewrite (@mesh_edge_ok k f 1 b c) by (subst; auto). cbn [bind].
      rewrite fold_res_cons. rewrite (@mesh_edge_ok k f 2 c a) by (subst; auto). cbn [bind].
      change (fold_res (mesh_edge_of thr faces pf ns k f) [] ?x) with (Ok x). cbn [bind].
      rewrite IH by (intros x Hx; apply Hl; right; auto). cbn [flat_map]. subst f. unfold mface at 2. cbn [fst snd].
      now rewrite <- !app_assoc.
  Qed.

  Lemma in_mface k f e : nth_error faces k = Some f ->
    In e (mface (k, f)) <-> runs f (fst e) (snd e) /\ first_face (fst e) (snd e) = k /\ flat_pair thr pts faces (fst e) (snd e) = false.
  Proof.
    intros Hk. destruct Hp as (Ht & _). destruct (Ht f (nth_error_In _ _ Hk)) as (H3 & _). destruct (triple _ H3) as (a & b & c & ->).
    assert (Hm : forall x y, In e (mpiece k x y) <-> (fst e = x /\ snd e = y) /\ first_face (fst e) (snd e) = k /\ flat_pair thr pts faces (fst e) (snd e) = false).
    { intros x y. unfold mpiece. split.
      - destruct (Nat.eqb_spec (first_face x y) k) as [E|]; cbn [andb]; [|intros []].
        destruct (flat_pair thr pts faces x y) eqn:Ef; cbn [negb]; [intros []|]. intros [<-|[]]. cbn. auto.
      - destruct e as [u v]. cbn [fst snd]. intros ((-> & ->) & -> & ->). rewrite Nat.eqb_refl. left; auto. }
    unfold mface. cbn [fst snd]. rewrite !in_app_iff, !Hm, runs3. tauto.
  Qed.
  Lemma in_all_edges a b : In (a, b) all_edges <-> exists k f, nth_error faces k = Some f /\ runs f a b /\ first_face a b = k /\ flat_pair thr pts faces a b = false.
  Proof.
    unfold all_edges. rewrite in_flat_map. split.
    - intros ((k & f) & Hk & He). apply in_numbered in Hk. rewrite in_mface in He by auto. exists k, f. cbn [fst snd] in He. tauto.
    - intros (k & f & Hk & Hr). exists (k, f). split.
      + apply nth_error_In with k. now rewrite numbered_nth, Hk.
      + apply in_mface; auto.
  Qed.
  Lemma first_face_sym a b : first_face a b = first_face b a.
  Proof. unfold first_face. now rewrite faces_with_sym. Qed.
  Lemma edges_once a b : In (a, b) all_edges -> ~ In (b, a) all_edges.
  Proof.
    rewrite !in_all_edges. intros (k & f & Hk & Hr & Hh & _) (k' & f' & Hk' & Hr' & Hh' & _).
    rewrite first_face_sym in Hh'. assert (f = f') by congruence. subst f'.
    destruct (runs_facts (nth_error_In _ _ Hk) Hr). tauto.
  Qed.
  Lemma edges_nodup : NoDup all_edges.
  Proof.
    unfold all_edges. apply nodup_flat_map.
    - assert (H : NoDup (map fst (numbered faces))).
      { rewrite (numbered_seq faces []), map_map. cbn [fst]. rewrite map_id. apply seq_NoDup. }
      apply NoDup_map_inv in H. auto.
    - intros (k & f) Hk. apply in_numbered in Hk. destruct Hp as (Ht & Hn). destruct (Ht f (nth_error_In _ _ Hk)) as (H3 & _).
      specialize (Hn f (nth_error_In _ _ Hk)). destruct (triple _ H3) as (a & b & c & ->). apply nodup3 in Hn.
      unfold mface. cbn [fst snd].
      assert (Hm : forall x y, NoDup (mpiece k x y) /\ forall e, In e (mpiece k x y) -> e = (x, y)).
      { intros x y. unfold mpiece. destruct (_ && _); split; try constructor; simpl; try tauto. constructor. intros e [<-|[]]; auto. }
      apply nodup_app; [apply Hm|apply nodup_app; try apply Hm|].
      + intros e H1 H2. apply Hm in H1, H2. subst e. injection H2. intros. subst. tauto.
      + intros e H1 H2. apply Hm in H1. subst e. apply in_app_iff in H2 as [H2|H2]; apply Hm in H2; injection H2; intros; subst; tauto.
    - intros (k & f) (k' & f') e Hk Hk' H1 H2. apply in_numbered in Hk, Hk'. rewrite in_mface in H1, H2 by auto.
      assert (k = k') by (destruct H1 as (_ & H1 & _), H2 as (_ & H2 & _); congruence). subst k'. congruence.
  Qed.
  Lemma flat_sharp a b : faces_with faces a b <> [] -> flat_pair thr pts faces a b = false <-> is_sharp_edge thr pts faces a b.
  Proof.
    intros Hw. unfold flat_pair, is_sharp_edge. destruct (faces_with faces a b) as [|i [|j [|x t]]]; try (split; auto; intros _; split; auto; intros; discriminate).
    rewrite negb_false_iff, Rltb_true. split.
    - intros H. split; auto. intros u v E. injection E as <- <-. auto.
    - intros (_ & H). auto.
  Qed.
  Lemma edges_exact a b : In (a, b) all_edges \/ In (b, a) all_edges <-> a <> b /\ is_sharp_edge thr pts faces a b.
  Proof.
    pose proof Hp as (Ht & Hn). split.
    - assert (G : forall a b, In (a, b) all_edges -> a <> b /\ is_sharp_edge thr pts faces a b).
      { clear a b. intros a b H. apply in_all_edges in H as (k & f & Hk & Hr & _ & Hfl).
        destruct (runs_facts (nth_error_In _ _ Hk) Hr) as (Hne & _). split; auto. apply flat_sharp; auto.
        pose proof (@with_ne k f a b Hk Hr) as Hi. intros E. rewrite E in Hi. destruct Hi. }
      intros [H|H]; apply G in H as (H1 & H2); auto. split; auto. now apply sharp_sym.
    - intros (Hne & Hs). pose proof Hs as (Hw & _). pose proof (proj2 (@flat_sharp a b Hw) Hs) as Hfl.
      destruct (faces_with faces a b) as [|k t] eqn:Ew; [congruence|].
      assert (Hk : In k (faces_with faces a b)) by (rewrite Ew; left; auto). apply faces_with_in in Hk as (Hk & Ha & Hb).
      assert (Hf : In (nth k faces []) faces) by (apply nth_In; auto). destruct (Ht _ Hf) as (H3 & _).
      destruct (@runs_total _ a b H3 (Hn _ Hf) Ha Hb Hne) as [Hr|Hr]; [left|right]; apply in_all_edges; exists k, (nth k faces []).
      + split; [now apply nth_error_nth'|]. split; auto. split; auto. unfold first_face. now rewrite Ew.
      + split; [now apply nth_error_nth'|]. split; auto. rewrite first_face_sym, flat_pair_sym. split; auto. unfold first_face. now rewrite Ew.
  Qed.
  Lemma all_edges_range a b : In (a, b) all_edges -> a <> b /\ (a < length pts)%nat /\ (b < length pts)%nat.
  Proof.
    intros H. apply in_all_edges in H as (k & f & Hk & Hr & _). destruct (runs_facts (nth_error_In _ _ Hk) Hr) as (H1 & _ & H2). auto.
  Qed.
End Edges.

(** ** Edges of a point *)
Section PointEdges.
  Variable n : nat.
  Variable edges : list (nat * nat).
  Hypothesis He : forall a b, In (a, b) edges -> a <> b /\ a < n /\ b < n.

  Lemma mesh_point_edges_ok : exists pe, point_edges n edges = Ok pe /\ length pe = n /\
    forall p, p < n -> nth p pe [] = row_of (flat_map ends (numbered edges)) p.
  Proof.
    unfold point_edges.
    assert (E1 : fold_res (fun '(a, b) cnt => c1 <- count_corner a cnt ;; count_corner b c1) edges (repeat 0 n)
      = fold_res count_corner (flat_map (fun e => [fst e; snd e]) edges) (repeat 0 n)).
    { rewrite <- (fold_res_flat count_corner (fun e => [fst e; snd e])). apply fold_res_ext.
      intros [a b] st _. cbn [fold_res fst snd]. destruct (count_corner a st) as [s| |]; auto. cbn [bind].
      destruct (count_corner b s); auto. }
    rewrite E1.
    destruct (@count_ok (flat_map (fun e => [fst e; snd e]) edges) (repeat 0 n)) as (cnt & E & L & N).
    { intros p Hp. rewrite repeat_length. apply in_flat_map in Hp as ([a b] & Hab & Hp). destruct (He a b Hab) as (_ & H1 & H2).
      simpl in Hp. intuition lia. }
    rewrite E. cbn [bind]. rewrite repeat_length in *.
    rewrite (@fold_res_ext _ _ _ (fun x pe => fold_res (fun y => record_face cnt (fst y) (snd y)) (ends x) pe)).
    2:{ intros [i [a b]] st _. cbn [fold_res ends fst snd]. destruct (record_face cnt i a st) as [s| |]; auto. cbn [bind].
        destruct (record_face cnt i b s); auto. }
    rewrite fold_res_flat.
    destruct (@fill_ok cnt (flat_map ends (numbered edges)) (repeat [] n)) as (pe & E2 & L2 & N2).
    - now rewrite repeat_length.
    - rewrite repeat_length. intros x Hx. apply in_flat_map in Hx as ([i [a b]] & Hi & Hx). apply in_numbered, nth_error_In in Hi.
      destruct (He a b Hi) as (_ & H1 & H2). cbn in Hx. destruct Hx as [<-|[<-|[]]]; cbn; lia.
    - rewrite repeat_length. intros p Hp. rewrite nth_repeat_eq, row_of_count, N by auto. rewrite nth_repeat_eq. simpl.
      assert (Em : map snd (flat_map ends (numbered edges)) = flat_map (fun e => [fst e; snd e]) edges); [|rewrite Em; lia].
      unfold numbered. generalize 0 as k. clear. induction edges as [|e t IH]; intros k; simpl; auto. now rewrite IH.
    - rewrite repeat_length in *. exists pe. split; auto. split; auto. intros p Hp. rewrite N2, nth_repeat_eq by auto. reflexivity.
  Qed.

  Lemma mesh_gather_ok p : gather_edges edges (row_of (flat_map ends (numbered edges)) p) = Ok (filter (at_p p) edges).
  Proof.
    assert (G : forall m, m <= length edges ->
      gather_edges edges (row_of (flat_map ends (firstn m (numbered edges))) p) = Ok (filter (at_p p) (firstn m edges))).
    2:{ specialize (G (length edges) (le_n _)). rewrite firstn_all in G. rewrite firstn_all2 in G; auto.
        unfold numbered. rewrite combine_length, seq_length. lia. }
    induction m as [|m IH]; intros Hm; [reflexivity|].
    destruct (nth_error_lt edges (i := m)) as (e & Ee); [lia|].
    assert (Fs : forall (A : Type) (l : list A) k a, nth_error l k = Some a -> firstn (S k) l = firstn k l ++ [a]).
    { clear. intros A l. induction l as [|h t IH]; intros k a E; destruct k; simpl in *; try discriminate.
      - congruence.
      - f_equal. auto. }
    rewrite (Fs _ edges m e Ee), (Fs _ (numbered edges) m (m, e)) by (rewrite numbered_nth, Ee; auto).
    rewrite flat_map_app, row_of_app, gather_app, IH by lia. cbn [bind]. rewrite filter_app.
    destruct e as [a b]. destruct (He a b (nth_error_In _ _ Ee)) as (Hab & _).
    assert (Ea : filter (at_p p) [(a, b)] = if (a =? p) || (b =? p) then [(a, b)] else []) by reflexivity.
    rewrite Ea. cbn [flat_map ends app fst snd].
    unfold row_of. cbn [filter snd].
    destruct (Nat.eqb_spec a p), (Nat.eqb_spec b p); cbn [orb filter map fst]; subst; try lia; try tauto;
      cbn [gather_edges]; try rewrite (get_some Ee); cbn [bind]; reflexivity.
  Qed.
  Lemma gather_cons i t l : gather_edges edges (i :: t) = Ok l -> exists e l', l = e :: l' /\ get edges i = Ok e /\ gather_edges edges t = Ok l'.
  Proof.
    cbn [gather_edges]. intros E. apply bind_Ok_inv in E as (e & E1 & E). apply bind_Ok_inv in E as (l' & E2 & E).
    injection E as <-. eauto 10.
  Qed.
End PointEdges.

(** ** Corners *)
Section Corners.
  Local Open Scope R_scope.
  Variables (thr : R) (pts : list (list R)) (faces pf : list (list nat)) (edges : list (nat * nat)).
  Hypothesis Hp : proper_triangles (length pts) faces.
  Hypothesis Hap : forall p q, (p < length pts)%nat -> (q < length pts)%nat -> p <> q ->
     1 / 10 ^ 10 <= vdist 3 (at_point pts p) (at_point pts q).
  Hypothesis Lpf : length pf = length pts.
  Hypothesis Hpf : forall p, (p < length pts)%nat -> nth p pf [] = faces_at faces p.
  Variable ns : list (list R).
  Hypothesis Lns : length ns = length faces.
  Hypothesis Hns : forall i, (i < length faces)%nat -> forall d, (d < 3)%nat ->
    row_vec (nth i ns []) d = unit_normal pts (nth i faces []) d.
  Hypothesis Hnd : NoDup edges.
  Hypothesis Honce : forall a b, In (a, b) edges -> ~ In (b, a) edges.
  Hypothesis Hed : forall a b, In (a, b) edges \/ In (b, a) edges <-> a <> b /\ is_sharp_edge thr pts faces a b.

  Lemma mesh_range a b : In (a, b) edges -> a <> b /\ (a < length pts)%nat /\ (b < length pts)%nat.
  Proof.
    intros H. destruct (proj1 (Hed a b) (or_introl H)) as (H1 & H2). apply (@sharp_range thr pts faces Hp) in H2. tauto.
  Qed.
  Definition ends_of (p : nat) : list nat := map (other_end p) (filter (at_p p) edges).
  Lemma ends_other p e : In e (filter (at_p p) edges) -> (e = (p, other_end p e) \/ e = (other_end p e, p)) /\ other_end p e <> p.
  Proof.
    destruct e as [a b]. intros H. apply filter_In in H as (H & Hat). apply mesh_range in H as (H & _).
    unfold at_p in Hat. apply orb_true_iff in Hat. rewrite !Nat.eqb_eq in Hat. cbn [fst snd] in Hat. unfold other_end. cbn [fst snd].
    destruct (Nat.eqb_spec a p) as [->|Hn]; [split; auto|]. destruct Hat as [?| ->]; [tauto|]. split; auto.
  Qed.
  Lemma ends_in p q : In q (ends_of p) <-> q <> p /\ is_sharp_edge thr pts faces p q.
  Proof.
    unfold ends_of. rewrite in_map_iff. split.
    - intros (e & <- & He). destruct (@ends_other p e He) as (Ee & Hn). apply filter_In in He as (He & _). split; auto.
      apply (Hed p (other_end p e)). destruct Ee as [Ee|Ee]; rewrite Ee in He; auto.
    - intros (Hn & Hs). destruct (proj2 (Hed p q) (conj (not_eq_sym Hn) Hs)) as [H|H].
      + exists (p, q). split; [unfold other_end; cbn; now rewrite Nat.eqb_refl|]. apply filter_In. split; auto. unfold at_p. cbn. now rewrite Nat.eqb_refl.
      + exists (q, p). split; [unfold other_end; cbn; destruct (Nat.eqb_spec q p); tauto|]. apply filter_In. split; auto. unfold at_p. cbn.
        rewrite Nat.eqb_refl. apply orb_true_r.
  Qed.
  Lemma ends_nodup p : NoDup (ends_of p).
  Proof.
    unfold ends_of. pose proof (NoDup_filter (at_p p) Hnd) as Hf.
    pose proof (@ends_other p) as Ho. assert (Hincl : forall e, In e (filter (at_p p) edges) -> In e edges) by (intros e H; apply filter_In in H; tauto).
    induction (filter (at_p p) edges) as [|e t IH]; cbn [map]; [constructor|]. apply NoDup_cons_iff in Hf as (Hne & Hf).
    constructor; [|apply IH; auto; intros; [apply Ho|apply Hincl]; right; auto].
    rewrite in_map_iff. intros (e' & Ee & He').
    destruct (Ho e (or_introl eq_refl)) as ([E1|E1] & _), (Ho e' (or_intror He')) as ([E2|E2] & _); rewrite Ee in E2;
      try (apply Hne; replace e with e' by congruence; exact He').
    - pose proof (Hincl e (or_introl eq_refl)) as I1. pose proof (Hincl e' (or_intror He')) as I2. rewrite E1 in I1. rewrite E2 in I2. apply (@Honce _ _ I1 I2).
    - pose proof (Hincl e (or_introl eq_refl)) as I1. pose proof (Hincl e' (or_intror He')) as I2. rewrite E1 in I1. rewrite E2 in I2. apply (@Honce _ _ I1 I2).
  Qed.

  Lemma bend p q1 q2 : (p < length pts)%nat -> (q1 < length pts)%nat -> (q2 < length pts)%nat -> p <> q1 -> p <> q2 ->
    dot_product 3 (snd (normalize_vector 3 (fun d => row_vec (nth q1 pts []) d - row_vec (nth p pts []) d)))
                  (snd (normalize_vector 3 (fun d => row_vec (nth p pts []) d - row_vec (nth q2 pts []) d)))
    = - cosine (at_point pts q1) (at_point pts p) (at_point pts q2).
  Proof.
    intros H0 H1 H2 N1 N2.
    pose proof (@Hap q1 p H1 H0 (not_eq_sym N1)) as D1. pose proof (@Hap p q2 H0 H2 N2) as D2.
    rewrite !normalize_R.
    change (norm 3 (fun d => row_vec (nth q1 pts []) d - row_vec (nth p pts []) d)) with (vdist 3 (at_point pts q1) (at_point pts p)).
    change (norm 3 (fun d => row_vec (nth p pts []) d - row_vec (nth q2 pts []) d)) with (vdist 3 (at_point pts p) (at_point pts q2)).
    assert (P : 0 < 1 / 10 ^ 10) by lra.
    replace (Rltb (vdist 3 (at_point pts q1) (at_point pts p)) (1 / 10 ^ 10)) with false by (symmetry; apply Rltb_false; auto).
    replace (Rltb (vdist 3 (at_point pts p) (at_point pts q2)) (1 / 10 ^ 10)) with false by (symmetry; apply Rltb_false; auto).
    cbn [snd]. rewrite dot_product_R. unfold cosine.
    generalize dependent (vdist 3 (at_point pts q1) (at_point pts p)). intros d1 D1.
    generalize dependent (vdist 3 (at_point pts p) (at_point pts q2)). intros d2 D2.
    rewrite !dot3. unfold sub, at_point, row_vec. change (@n0 R RNum) with 0. change (@nsub R RNum) with Rminus. field. lra.
  Qed.

  (** the tip of a cone *)
  Lemma common_one f g p : NoDup f -> NoDup g -> In p f -> In p g ->
    (common_vertices f g =? 1)%nat = true <-> forall q, In q f /\ In q g <-> q = p.
  Proof.
    intros Hf Hg Ipf Ipg. unfold common_vertices. rewrite Nat.eqb_eq.
    assert (Hnl : NoDup (list_prod f g)).
    { clear - Hf Hg. induction f as [|a t IH]; simpl; [constructor|]. apply NoDup_cons_iff in Hf as (Ha & Hf). apply nodup_app; auto.
      - apply FinFun.Injective_map_NoDup; auto. intros x y E. congruence.
      - intros (x & y) H1 H2. apply in_map_iff in H1 as (z & E & _). injection E as <- <-. apply in_prod_iff in H2. tauto. }
    pose proof (NoDup_filter (fun xy => fst xy =? snd xy)%nat Hnl) as Hnf.
    assert (Hin : forall x, In x (filter (fun xy => fst xy =? snd xy)%nat (list_prod f g)) <-> fst x = snd x /\ In (fst x) f /\ In (fst x) g).
    { intros (x & y). rewrite filter_In, in_prod_iff, Nat.eqb_eq. cbn [fst snd]. split; [intros ((H1 & H2) & ->); auto|intros (-> & H1 & H2); auto]. }
    set (L := filter _ _) in *. assert (IL : In (p, p) L) by (apply Hin; auto). split.
    - intros E q. split; [|intros ->; auto]. intros (H1 & H2). assert (Iq : In (q, q) L) by (apply Hin; auto).
      destruct L as [|x [|]]; try discriminate. destruct IL as [->|[]]. destruct Iq as [Eq|[]]. congruence.
    - intros Hq. destruct L as [|x [|y t]]; [destruct IL|reflexivity|]. exfalso. apply NoDup_cons_iff in Hnf as (Hx & _). apply Hx. left.
      assert (A : x = (p, p)). { destruct x as (u & v). destruct (proj1 (Hin (u, v)) (or_introl eq_refl)) as (E1 & E2 & E3). cbn [fst snd] in *. subst v. assert (u = p) by (apply Hq; auto). congruence. }
      assert (B : y = (p, p)). { destruct y as (u & v). destruct (proj1 (Hin (u, v)) (or_intror (or_introl eq_refl))) as (E1 & E2 & E3). cbn [fst snd] in *. subst v. assert (u = p) by (apply Hq; auto). congruence. }
      congruence.
  Qed.

  Definition tip_pair (p i j : nat) : Prop :=
    (forall q, In q (nth i faces []) /\ In q (nth j faces []) <-> q = p) /\ facing pts faces i j < thr.
  Lemma tip_sym p i j : tip_pair p i j -> tip_pair p j i.
  Proof. intros (H1 & H2). split; [|now rewrite facing_sym]. intros q. rewrite <- H1. tauto. Qed.
  Lemma cone_pair_ok p i j : In i (faces_at faces p) -> In j (faces_at faces p) ->
    exists b, cone_pair thr faces ns i j = Ok b /\ (b = true <-> tip_pair p i j).
  Proof.
    intros Hi Hj. apply faces_at_in in Hi as (Hi & Ii). apply faces_at_in in Hj as (Hj & Ij). unfold cone_pair, tip_pair.
    rewrite (get_nth ns []) by lia. cbn [bind]. rewrite (get_nth ns []) by lia. cbn [bind].
    rewrite (@normals_dot pts faces ns Hns) by auto. change nleb with Rleb.
    destruct (Rleb thr (facing pts faces i j)) eqn:E.
    - exists false. split; auto. split; [discriminate|]. intros (_ & H). apply Rleb_true in E. lra.
    - rewrite (get_nth faces []) by lia. cbn [bind]. rewrite (get_nth faces []) by lia. cbn [bind]. eexists. split; [reflexivity|].
      destruct Hp as (_ & Hn). rewrite (@common_one _ _ p) by (try apply Hn; try apply nth_In; auto).
      apply Rleb_false in E. tauto.
  Qed.
  Lemma cone_from_ok p i l : In i (faces_at faces p) -> incl l (faces_at faces p) ->
    exists b, cone_from thr faces ns i l = Ok b /\ (b = true <-> exists j, In j l /\ tip_pair p i j).
  Proof.
    intros Hi. induction l as [|j t IH]; intros Hl; cbn [cone_from].
    - exists false. split; auto. split; [discriminate|]. intros (j & [] & _).
    - destruct (@cone_pair_ok p i j) as (b & E & Hb); auto; [apply Hl; left; auto|]. rewrite E. cbn [bind]. destruct b.
      + exists true. split; auto. split; auto. intros _. exists j. split; [left; auto|]. now apply Hb.
      + destruct IH as (b & E' & Hb'); [intros x Hx; apply Hl; right; auto|]. exists b. split; auto. rewrite Hb'. split.
        * intros (x & Hx & Ht). exists x. split; auto. right; auto.
        * intros (x & [<-|Hx] & Ht); [|exists x; auto]. apply Hb in Ht. discriminate.
  Qed.
  Lemma cone_ok p l : NoDup l -> incl l (faces_at faces p) ->
    exists b, cone thr faces ns l = Ok b /\ (b = true <-> exists i j, In i l /\ In j l /\ i <> j /\ tip_pair p i j).
  Proof.
    induction l as [|i t IH]; intros Hn Hl; cbn [cone].
    - exists false. split; auto. split; [discriminate|]. intros (i & j & [] & _).
    - apply NoDup_cons_iff in Hn as (Hi & Hn).
      destruct (@cone_from_ok p i t) as (b & E & Hb); [apply Hl; left; auto|intros x Hx; apply Hl; right; auto|]. rewrite E. cbn [bind]. destruct b.
      + exists true. split; auto. split; auto. intros _. destruct (proj1 Hb eq_refl) as (j & Hj & Ht). exists i, j. simpl.
        split; auto. split; auto. split; auto. intros ->. auto.
      + destruct IH as (b & E' & Hb'); auto; [intros x Hx; apply Hl; right; auto|]. exists b. split; auto. rewrite Hb'. split.
        * intros (x & y & H1 & H2 & H3). exists x, y. simpl. tauto.
        * assert (F : forall j, In j t -> ~ tip_pair p i j). { intros j Hj Ht. assert (false = true) by (apply Hb; eauto). discriminate. }
          intros (x & y & [<-|H1] & [<-|H2] & H3 & H4); [tauto| | |exists x, y; auto].
          -- exfalso. apply (F y); auto.
          -- exfalso. apply (F x); auto. now apply tip_sym.
  Qed.
  Lemma faces_at_nodup p : NoDup (faces_at faces p).
  Proof. rewrite (@faces_at_proper (length pts) faces p Hp). apply NoDup_filter, seq_NoDup. Qed.

  Variable pe : list (list nat).
  Hypothesis Lpe : length pe = length pts.
  Hypothesis Hpe : forall p, (p < length pts)%nat -> nth p pe [] = row_of (flat_map ends (numbered edges)) p.

  Lemma row_cases p : (p < length pts)%nat -> get pe p = Ok (nth p pe []) /\ gather_edges edges (nth p pe []) = Ok (filter (at_p p) edges).
  Proof.
    intros Hlt. split; [apply get_nth; lia|]. rewrite Hpe by auto. apply (@mesh_gather_ok (length pts)). apply mesh_range.
  Qed.
  Lemma mesh_corner_ok p : (p < length pts)%nat ->
    exists b, mesh_corner thr pts edges faces pf ns pe p = Ok b /\ (b = true <-> is_mesh_corner thr pts faces p).
  Proof.
    intros Hlt. destruct (row_cases Hlt) as (Eg & Er). unfold mesh_corner. rewrite Eg. cbn [bind].
    pose proof (@ends_in p) as HQ. pose proof (ends_nodup p) as NQ. unfold ends_of in HQ, NQ.
    pose proof (@ends_other p) as Ho.
    set (D := filter (at_p p) edges) in *. clearbody D.
    assert (Huniq : forall Q', NoDup Q' -> (forall q, In q Q' <-> q <> p /\ is_sharp_edge thr pts faces p q) -> Permutation (map (other_end p) D) Q').
    { intros Q' N' H'. apply NoDup_Permutation; auto. intros x. now rewrite HQ, H'. }
    assert (Hsome : forall q, In q (map (other_end p) D) -> ~ (forall q, q <> p -> ~ is_sharp_edge thr pts faces p q)).
    { intros q Hq Hno. apply HQ in Hq as (H1 & H2). apply (Hno q); auto. }
    assert (Hcor : forall b : bool, D <> [] -> (b = true <-> is_sharp_corner thr pts faces p) -> (b = true <-> is_mesh_corner thr pts faces p)).
    { intros b Hne Hb. rewrite Hb. unfold is_mesh_corner. split; auto. intros [H|(H & _)]; auto. exfalso.
      destruct D as [|e t]; [congruence|]. apply (Hsome (other_end p e)); auto. left; auto. }
    destruct (nth p pe []) as [|i1 [|i2 [|i3 r]]].
    - injection Er as <-. rewrite (get_nth pf []) by lia. cbn [bind]. rewrite Hpf by auto.
      destruct (@cone_ok p (faces_at faces p) (faces_at_nodup p) (incl_refl _)) as (b & Eb & Hb). exists b. split; auto. rewrite Hb.
      unfold is_mesh_corner, cone_tip. split.
      + intros (i & j & Hi & Hj & Hij & H1 & H2). right. split.
        * intros q Hq Hs. apply (proj2 (HQ q)); auto.
        * apply faces_at_in in Hi, Hj. exists i, j. tauto.
      + intros [(Q' & N' & H' & Hne & _)|(_ & i & j & Hi & Hj & Hij & H1 & H2)].
        * exfalso. apply Hne. apply Permutation_nil. apply (Huniq Q'); auto.
        * exists i, j. assert (Hb' := proj2 (H1 p) eq_refl). rewrite !faces_at_in. unfold tip_pair. tauto.
    - apply gather_cons in Er as (e1 & l1 & -> & _ & Er). injection Er as <-. exists true. split; auto. apply Hcor; [discriminate|].
      split; auto. intros _. exists (map (other_end p) [e1]). split; auto. split; auto. split; [discriminate|]. intros q1 q2 E. discriminate.
    - apply gather_cons in Er as (e1 & l1 & -> & E1 & Er). apply gather_cons in Er as (e2 & l2 & -> & E2 & Er). injection Er as <-.
      rewrite E1. cbn [bind]. rewrite E2. cbn [bind].
      assert (I1 : In (other_end p e1) (map (other_end p) [e1; e2])) by (simpl; auto).
      assert (I2 : In (other_end p e2) (map (other_end p) [e1; e2])) by (simpl; auto).
      apply HQ in I1 as (N1 & S1). apply HQ in I2 as (N2 & S2).
      apply (@sharp_range thr pts faces Hp) in S1 as (_ & R1). apply (@sharp_range thr pts faces Hp) in S2 as (_ & R2).
      rewrite (get_nth pts [] Hlt), (get_nth pts [] R1), (get_nth pts [] R2). cbn [bind]. eexists. split; [reflexivity|]. apply Hcor; [discriminate|].
      rewrite bend by auto. change nltb with Rltb. rewrite Rltb_true. split.
      + intros H. exists (map (other_end p) [e1; e2]). split; auto. split; auto. split; [discriminate|]. intros q1 q2 E. cbn [map] in E. injection E as <- <-. exact H.
      + intros (Q' & N' & H' & _ & Hcos). pose proof (Huniq Q' N' H') as Hpm. cbn [map] in Hpm.
        apply Permutation_length_2_inv in Hpm as [->| ->]; specialize (Hcos _ _ eq_refl); auto. now rewrite cosine_sym.
    - apply gather_cons in Er as (e1 & l1 & -> & E1 & Er). apply gather_cons in Er as (e2 & l2 & -> & E2 & Er).
      apply gather_cons in Er as (e3 & l3 & -> & E3 & Er). exists true. split; auto. apply Hcor; [discriminate|]. split; auto. intros _.
      exists (map (other_end p) (e1 :: e2 :: e3 :: l3)). split; auto. split; auto. split; [discriminate|]. intros q1 q2 E. discriminate.
  Qed.

  Lemma mesh_corners_ok : forall k lo, (lo + k = length pts)%nat -> exists cs, mesh_corners thr pts edges faces pf ns pe (seq lo k) = Ok cs /\
      Sorted lt cs /\ (forall p, In p cs <-> (lo <= p < length pts)%nat /\ is_mesh_corner thr pts faces p).
  Proof.
    induction k as [|k IH]; intros lo Hlo; cbn [seq mesh_corners].
    - exists []. split; auto. split; [constructor|]. intros p. simpl. split; [tauto|]. lia.
    - destruct (@mesh_corner_ok lo) as (b & E & Hb); [lia|]. rewrite E. cbn [bind].
      destruct (IH (S lo)) as (cs & Ec & Hso & Hcs); [lia|]. rewrite Ec. cbn [bind]. eexists. split; [reflexivity|]. destruct b.
      + split.
        * constructor; auto. destruct cs as [|c cs]; constructor. destruct (Hcs c) as (Hc1 & _). destruct Hc1; [left; auto|]. lia.
        * intros p. simpl. rewrite Hcs. split.
          -- intros [<-|(H1 & H2)]; [split; [lia|tauto]|split; [lia|auto]].
          -- intros (H1 & H2). destruct (Nat.eq_dec lo p); [auto|]. right. split; [lia|auto].
      + split; auto. intros p. rewrite Hcs. split; [intros (H1 & H2); split; [lia|auto]|].
        intros (H1 & H2). split; auto. destruct (Nat.eq_dec lo p) as [<-|]; [|lia]. apply Hb in H2. discriminate.
  Qed.

  (** the query *)
  Lemma edge_listed_ok q : forall row l, gather_edges edges row = Ok l ->
    exists r, edge_listed edges q row = Ok r /\ (r = true <-> exists e, In e l /\ (fst e = q \/ snd e = q)).
  Proof.
    induction row as [|i t IH]; intros l E.
    - injection E as <-. exists false. split; auto. split; [discriminate|]. intros (e & [] & _).
    - apply gather_cons in E as (e & l' & -> & Ee & E). cbn [edge_listed]. rewrite Ee. cbn [bind].
      destruct ((fst e =? q) || (snd e =? q))%nat eqn:Eq.
      + exists true. split; auto. split; auto. intros _. exists e. split; [left; auto|]. apply orb_true_iff in Eq. now rewrite !Nat.eqb_eq in Eq.
      + apply orb_false_iff in Eq as (Q1 & Q2). apply Nat.eqb_neq in Q1, Q2. destruct (IH l' E) as (r & Er & Hr). exists r. split; auto.
        rewrite Hr. split; [intros (x & Hx & H); exists x; split; auto; right; auto|].
        intros (x & [<-|Hx] & H); [tauto|]. exists x; auto.
  Qed.
  Lemma query_ok p q : (p < length pts)%nat -> p <> q -> exists r, sharp_edge edges pe p q = Ok r /\ (r = true <-> is_sharp_edge thr pts faces p q).
  Proof.
    intros Hlt Hne. destruct (row_cases Hlt) as (Eg & Er). destruct (@edge_listed_ok q _ _ Er) as (r & El & Hr). exists r.
    assert (Hr' : r = true <-> is_sharp_edge thr pts faces p q).
    { rewrite Hr. split.
      - intros (e & He & Hor). destruct (@ends_other p e He) as (Ee & Hn). apply filter_In in He as (He & _). set (o := other_end p e) in *. clearbody o.
        assert (o = q) by (destruct Ee as [-> | ->]; cbn [fst snd] in Hor; intuition). subst o.
        apply (Hed p q). destruct Ee as [Ee|Ee]; rewrite Ee in He; auto.
      - intros Hs. destruct (proj2 (Hed p q) (conj Hne Hs)) as [H|H].
        + exists (p, q). split; auto. apply filter_In. split; auto. unfold at_p. cbn. now rewrite Nat.eqb_refl.
        + exists (q, p). split; auto. apply filter_In. split; auto. unfold at_p. cbn. rewrite Nat.eqb_refl. apply orb_true_r. }
    split; auto. unfold sharp_edge. rewrite Eg. cbn [bind]. clear - El Er Hr. destruct edges as [|e0 t0]; auto. rewrite <- El.
    destruct (nth p pe []) as [|i t]; auto. cbn [gather_edges] in Er. unfold get in Er. destruct i; discriminate.
  Qed.

  (** the smallest angle between smooth neighbours *)
  Definition smooth_pair (a b i j : nat) : Prop := a <> b /\ ~ is_sharp_edge thr pts faces a b /\ faces_with faces a b = [i; j].
  Lemma not_sharp_two a b : faces_with faces a b <> [] -> ~ is_sharp_edge thr pts faces a b -> exists i j, faces_with faces a b = [i; j].
  Proof.
    intros Hw Hs. destruct (faces_with faces a b) as [|i [|j [|x t]]] eqn:E; [congruence| |eauto|]; exfalso; apply Hs; split; rewrite E; try discriminate.
  Qed.
  Definition least_upto (seen : nat -> nat -> Prop) (m : R) : Prop :=
    m <= 1 /\ (forall a b i j, seen a b -> smooth_pair a b i j -> m <= facing pts faces i j)
    /\ (m = 1 \/ exists a b i j, smooth_pair a b i j /\ m = facing pts faces i j).
  Lemma smooth_edge_ok k f i a b (seen : nat -> nat -> Prop) m : nth_error faces k = Some f -> (i < 3)%nat -> nth_error f i = Some a -> nth_error f (wrap3 i) = Some b ->
    least_upto seen m -> exists m', smooth_edge edges pe faces pf ns k f i m = Ok m' /\ least_upto (fun x y => seen x y \/ x = a /\ y = b) m'.
  Proof.
    intros Ek Hi Ea Eb (L1 & L2 & L3). pose proof (nth_error_In _ _ Ek) as Hf.
    unfold smooth_edge. rewrite (get_some Ea), (get_some Eb). cbn [bind].
    pose proof Hp as (Ht & Hn). destruct (Ht f Hf) as (H3 & Hin).
    assert (Hr : runs f a b).
    { exists i. split; [lia|]. split; auto. rewrite (wrap3_next _ H3 Hi) in Eb. exact Eb. }
    destruct (@runs_facts pts faces Hp f a b Hf Hr) as (Hne & Hnr & Hla & Hlb).
    destruct (query_ok Hla Hne) as (r & Er & Hrt). rewrite Er. cbn [bind]. destruct r.
    - exists m. split; auto. split; auto. split; auto. intros x y u v [Hs|(-> & ->)] Hsm; [eapply L2; eauto|]. destruct Hsm as (_ & Hns' & _). tauto.
    - destruct (@edge_exact (length pts) faces pf a b Hp Lpf Hpf Hla Hne) as (_ & G2). rewrite G2. cbn [bind].
      assert (Hnsh : ~ is_sharp_edge thr pts faces a b) by (intros H; apply Hrt in H; discriminate).
      pose proof (@with_ne faces k f a b Ek Hr) as Hk.
      destruct (@not_sharp_two a b) as (e1 & e2 & Ew); auto. { intros E0. rewrite E0 in Hk. destruct Hk. }
      pose proof (@with_lt faces a b) as Hlt. rewrite Ew in Hlt, Hk |- *. cbn [get nth_error bind].
      assert (K1 : (e1 < length faces)%nat) by (apply Hlt; simpl; auto). assert (K2 : (e2 < length faces)%nat) by (apply Hlt; simpl; auto).
      set (fi := if (e1 =? k)%nat then e1 else e2). set (fj := if (e1 =? k)%nat then e2 else e1).
      assert (Hfi : (fi < length faces)%nat) by (unfold fi; destruct (e1 =? k)%nat; auto).
      assert (Hfj : (fj < length faces)%nat) by (unfold fj; destruct (e1 =? k)%nat; auto).
      rewrite (get_nth ns []) by lia. cbn [bind]. rewrite (get_nth ns []) by lia. cbn [bind].
      rewrite (@normals_dot pts faces ns Hns) by auto. change nltb with Rltb.
      assert (Ef : facing pts faces fi fj = facing pts faces e1 e2) by (unfold fi, fj; destruct (e1 =? k)%nat; auto using facing_sym).
      rewrite Ef. eexists. split; [reflexivity|].
      assert (Sp : smooth_pair a b e1 e2) by (split; auto).
      destruct (Rltb (facing pts faces e1 e2) m) eqn:El.
      + apply Rltb_true in El. split; [lra|]. split; [|right; exists a, b, e1, e2; auto]. intros x y u v [Hs|(-> & ->)] Hsm.
        * pose proof (L2 x y u v Hs Hsm). lra.
        * destruct Hsm as (_ & _ & Euv). rewrite Ew in Euv. injection Euv as <- <-. lra.
      + apply Rltb_false in El. split; auto. split; auto. intros x y u v [Hs|(-> & ->)] Hsm; [eapply L2; eauto|].
        destruct Hsm as (_ & _ & Euv). rewrite Ew in Euv. injection Euv as <- <-. lra.
  Qed.
  Lemma min_smooth_ok : exists m, min_smooth_dot edges pe faces pf ns = Ok m /\ least_facing thr pts faces m.
  Proof.
    unfold min_smooth_dot.
    set (seen := fun l : list (nat * list nat) => fun a b : nat => exists k f, In (k, f) l /\ runs f a b).
    assert (Hmono : forall (S S' : nat -> nat -> Prop) m, (forall a b, S' a b -> S a b) -> least_upto S m -> least_upto S' m).
    { intros S S' m HS (H1 & H2 & H3). split; auto. split; auto. intros a b i j Hs. apply H2. auto. }
    destruct (@fold_res_inv _ _ (fun l m => least_upto (seen l) m)
      (fun '(iface, f) m => fold_res (smooth_edge edges pe faces pf ns iface f) [0; 1; 2]%nat m) (numbered faces) (@n1 R _)) as (m & Em & Hm).
    - change (@n1 R _) with 1. split; [lra|]. split; [|left; reflexivity]. intros a b i j (k & f & [] & _).
    - intros pre [k f] post st El Hst. assert (Ek : nth_error faces k = Some f).
      { apply in_numbered. rewrite El. apply in_app_iff. right; left; auto. }
      destruct Hp as (Ht & _). destruct (Ht f (nth_error_In _ _ Ek)) as (H3 & _). destruct (triple _ H3) as (a & b & c & Ef).
      destruct (@smooth_edge_ok k f 0 a b (seen pre) st) as (m1 & E1 & M1); subst f; auto.
      destruct (@smooth_edge_ok k [a; b; c] 1 b c _ m1 Ek ltac:(lia) eq_refl eq_refl M1) as (m2 & E2 & M2).
      destruct (@smooth_edge_ok k [a; b; c] 2 c a _ m2 Ek ltac:(lia) eq_refl eq_refl M2) as (m3 & E3 & M3).
      exists m3. split.
      + rewrite !fold_res_cons, E1. cbn [bind]. rewrite fold_res_cons, E2. cbn [bind]. rewrite fold_res_cons, E3. reflexivity.
      + eapply Hmono; [|exact M3]. intros x y (k' & f' & Hin & Hr). apply in_app_iff in Hin as [Hin|[Hin|[]]].
        * left; left; left. exists k', f'. auto.
        * injection Hin as <- <-. apply runs3 in Hr. tauto.
    - exists m. split; auto. destruct Hm as (M1 & M2 & M3). unfold least_facing. split; auto. split.
      + intros i j (a & b & Hab & Hs & Ew). assert (Hi : In i (faces_with faces a b)) by (rewrite Ew; simpl; auto).
        apply faces_with_in in Hi as (Hi & Ia & Ib). destruct Hp as (Ht & Hn).
        assert (Hf : In (nth i faces []) faces) by (apply nth_In; auto). destruct (Ht _ Hf) as (H3 & _).
        assert (Hnum : In (i, nth i faces []) (numbered faces)). { apply nth_error_In with i. rewrite numbered_nth. now rewrite (nth_error_nth' _ [] Hi). }
        destruct (@runs_total _ a b H3 (Hn _ Hf) Ia Ib Hab) as [Hr|Hr].
        * apply (M2 a b); [exists i, (nth i faces []); auto|split; auto].
        * apply (M2 b a); [exists i, (nth i faces []); auto|]. split; auto. split; [|now rewrite faces_with_sym]. intros H. apply Hs. now apply sharp_sym.
      + destruct M3 as [M3|(a & b & i & j & Hsm & Em')]; auto. right. exists i, j. split; auto. exists a, b. exact Hsm.
  Qed.
End Corners.
