(** Proofs about surface meshes: incidences. *)
From Verif Require Import Base PolyMesh PolyMeshSpec.

Lemma get_nth {A} (l : list A) i d : i < length l -> get l i = Ok (nth i l d).
Proof.
  intros H. unfold get. destruct (nth_error l i) eqn:E.
  - now rewrite (nth_error_nth _ _ d E).
  - apply nth_error_None in E. lia.
Qed.

Lemma nth_upd {A} (l : list A) i a k d : i < length l ->
  nth k (upd l i a) d = if k =? i then a else nth k l d.
Proof.
  revert i k; induction l as [|h t IH]; intros i k H; [simpl in H; lia|].
  destruct i as [|i], k as [|k]; cbn [upd nth Nat.eqb]; auto. apply IH. simpl in H. lia.
Qed.

Lemma set_upd {A} (l : list A) i a : i < length l -> set l i a = Ok (upd l i a).
Proof. apply set_Ok. Qed.

Lemma fold_res_app {A St} (f : A -> St -> res St) l l' s :
  fold_res f (l ++ l') s = (s1 <- fold_res f l s ;; fold_res f l' s1).
Proof.
  revert s; induction l as [|a t IH]; intros s; cbn [fold_res app bind]; auto.
  destruct (f a s); cbn [bind]; auto.
Qed.

Lemma fold_res_flat {A B St} (f : B -> St -> res St) (g : A -> list B) l s :
  fold_res (fun a st => fold_res f (g a) st) l s = fold_res f (flat_map g l) s.
Proof.
  revert s; induction l as [|a t IH]; intros s; cbn [fold_res flat_map]; auto.
  rewrite fold_res_app. destruct (fold_res f (g a) s); cbn [bind]; auto.
Qed.

Lemma fold_res_ext {A St} (f g : A -> St -> res St) l s :
  (forall a st, In a l -> f a st = g a st) -> fold_res f l s = fold_res g l s.
Proof.
  revert s; induction l as [|a t IH]; intros s E; cbn [fold_res]; auto.
  rewrite E by (left; auto). destruct (g a s); cbn [bind]; auto. apply IH. intros; apply E; right; auto.
Qed.

Lemma fold_res_map {A B St} (f : B -> St -> res St) (h : A -> B) l s :
  fold_res f (map h l) s = fold_res (fun a => f (h a)) l s.
Proof.
  revert s; induction l as [|a t IH]; intros s; cbn [fold_res map]; auto.
  destruct (f (h a) s); cbn [bind]; auto.
Qed.

Lemma fold_res_inv {A St} (P : list A -> St -> Prop) (f : A -> St -> res St) l s :
  P [] s ->
  (forall pre a post st, l = pre ++ a :: post -> P pre st -> exists st', f a st = Ok st' /\ P (pre ++ [a]) st') ->
  exists s', fold_res f l s = Ok s' /\ P l s'.
Proof.
  intros H0 Hstep.
  enough (G : forall post pre st, l = pre ++ post -> P pre st -> exists s', fold_res f post st = Ok s' /\ P l s').
  { destruct (G l [] s) as (s' & E & HP); eauto. }
  induction post as [|a post IH]; intros pre st El HP.
  - rewrite app_nil_r in El. subst. exists st. auto.
  - destruct (Hstep pre a post st El HP) as (st' & E & HP'). cbn [fold_res]. rewrite E. cbn [bind].
    apply (IH (pre ++ [a])); auto. now rewrite <- app_assoc.
Qed.

Lemma numbered_nth {A} (l : list A) k : nth_error (numbered l) k = option_map (pair k) (nth_error l k).
Proof.
  unfold numbered. enough (G : forall a, nth_error (combine (seq a (length l)) l) k = option_map (pair (a + k)) (nth_error l k)).
  { rewrite (G 0). reflexivity. }
  revert k; induction l as [|h t IH]; intros k a; destruct k; simpl; auto.
  - now rewrite Nat.add_0_r.
  - rewrite IH. now rewrite Nat.add_succ_r.
Qed.

Lemma corners3_ok f : length f = 3 -> corners3 f = Ok f.
Proof. intros H. destruct f as [|a [|b [|c [|]]]]; try discriminate. reflexivity. Qed.

(** ** Filling of rows *)
Lemma count_ok l : forall cnt, (forall p, In p l -> p < length cnt) ->
  exists cnt', fold_res count_corner l cnt = Ok cnt' /\ length cnt' = length cnt
    /\ forall p, p < length cnt -> nth p cnt' 0 = nth p cnt 0 + count_occ Nat.eq_dec l p.
Proof.
  induction l as [|q t IH]; intros cnt Hl; cbn [fold_res].
  - exists cnt. split; auto.
  - assert (Hq : q < length cnt) by (apply Hl; left; auto).
    unfold count_corner at 1. rewrite (get_nth cnt 0 Hq). cbn [bind]. rewrite set_upd by auto. cbn [bind].
    destruct (IH (upd cnt q (S (nth q cnt 0)))) as (cnt' & E & L & N).
    { intros p Hp. rewrite upd_length. apply Hl. right; auto. }
    exists cnt'. split; auto. rewrite upd_length in L. split; auto. intros p Hp.
    rewrite N by (rewrite upd_length; auto). rewrite nth_upd by auto. cbn [count_occ].
    destruct (Nat.eqb_spec p q) as [->|Hn].
    + destruct (Nat.eq_dec q q); lia.
    + destruct (Nat.eq_dec q p); [congruence|]. lia.
Qed.

Definition row_of (L : list (nat * nat)) (p : nat) : list nat := map fst (filter (fun x => snd x =? p) L).

Lemma row_of_count L p : length (row_of L p) = count_occ Nat.eq_dec (map snd L) p.
Proof.
  unfold row_of. rewrite map_length. induction L as [|[i q] t IH]; simpl; auto.
  destruct (Nat.eqb_spec q p), (Nat.eq_dec q p); simpl; congruence.
Qed.

Lemma fill_ok cnt L : forall pf, length cnt = length pf ->
  (forall x, In x L -> snd x < length pf) ->
  (forall p, p < length pf -> length (nth p pf []) + length (row_of L p) <= nth p cnt 0) ->
  exists pf', fold_res (fun x => record_face cnt (fst x) (snd x)) L pf = Ok pf' /\ length pf' = length pf
    /\ forall p, p < length pf -> nth p pf' [] = nth p pf [] ++ row_of L p.
Proof.
  induction L as [|[i q] t IH]; intros pf Hc Hl Hr; cbn [fold_res].
  - exists pf. split; auto. split; auto. intros. cbn. now rewrite app_nil_r.
  - assert (Hq : q < length pf) by (apply (Hl (i, q)); left; auto).
    cbn [fst snd]. unfold record_face at 1. rewrite (get_nth pf [] Hq). cbn [bind].
    rewrite (get_nth cnt 0) by lia. cbn [bind].
    assert (Hlt : length (nth q pf []) < nth q cnt 0).
    { specialize (Hr q Hq). unfold row_of in Hr. cbn [filter snd] in Hr. rewrite Nat.eqb_refl in Hr. simpl in Hr. lia. }
    apply Nat.ltb_lt in Hlt. rewrite Hlt. rewrite set_upd by auto. cbn [bind].
    destruct (IH (upd pf q (nth q pf [] ++ [i]))) as (pf' & E & L & N).
    + now rewrite upd_length.
    + intros x Hx. rewrite upd_length. apply Hl. right; auto.
    + rewrite upd_length. intros p Hp. rewrite nth_upd by auto. specialize (Hr p Hp).
      unfold row_of in *. cbn [filter snd] in Hr.
      destruct (Nat.eqb_spec p q) as [->|Hn].
      * rewrite Nat.eqb_refl in Hr. simpl in Hr. rewrite app_length. simpl. lia.
      * destruct (Nat.eqb_spec q p); [congruence|]. lia.
    + exists pf'. split; auto. rewrite upd_length in L. split; auto. intros p Hp.
      rewrite N by (rewrite upd_length; auto). rewrite nth_upd by auto.
      unfold row_of. cbn [filter snd]. destruct (Nat.eqb_spec p q) as [->|Hn].
      * rewrite Nat.eqb_refl. simpl. now rewrite <- app_assoc.
      * destruct (Nat.eqb_spec q p); [congruence|]. reflexivity.
Qed.

(** ** build_point_faces *)
Lemma nth_repeat_eq {A} (a : A) n k : nth k (repeat a n) a = a.
Proof. apply nth_repeat. Qed.

Definition incidences (faces : list (list nat)) : list (nat * nat) :=
  flat_map (fun '(i, f) => map (pair i) f) (numbered faces).

Lemma numbered_seq {A} (l : list A) d : numbered l = map (fun i => (i, nth i l d)) (seq 0 (length l)).
Proof.
  apply list_ext. intros k. rewrite numbered_nth, map_nth_error'.
  destruct (lt_dec k (length l)) as [Hk|Hk].
  - rewrite (nth_error_nth' _ d Hk), (nth_error_nth' _ 0) by now rewrite seq_length.
    rewrite seq_nth by auto. reflexivity.
  - assert (E1 : nth_error l k = None) by (apply nth_error_None; lia).
    assert (E2 : nth_error (seq 0 (length l)) k = None) by (apply nth_error_None; rewrite seq_length; lia).
    now rewrite E1, E2.
Qed.

Lemma row_of_app L L' p : row_of (L ++ L') p = row_of L p ++ row_of L' p.
Proof. unfold row_of. now rewrite filter_app, map_app. Qed.
Lemma row_of_face i f p : row_of (map (pair i) f) p = repeat i (count_occ Nat.eq_dec f p).
Proof.
  unfold row_of. induction f as [|c t IH]; simpl; auto.
  destruct (Nat.eqb_spec c p), (Nat.eq_dec c p); simpl; congruence.
Qed.
Lemma row_of_incidences faces p : row_of (incidences faces) p = faces_at faces p.
Proof.
  unfold incidences, faces_at. rewrite (numbered_seq faces []).
  induction (seq 0 (length faces)) as [|i t IH]; simpl; auto.
  rewrite row_of_app, row_of_face. now rewrite IH.
Qed.
Lemma incidences_snd faces : map snd (incidences faces) = concat faces.
Proof.
  unfold incidences, numbered. generalize 0 as a. induction faces as [|f t IH]; intros a; simpl; auto.
  rewrite map_app, IH, map_map. simpl. now rewrite map_id.
Qed.

Lemma in_numbered {A} (l : list A) i x : In (i, x) (numbered l) -> nth_error l i = Some x.
Proof.
  intros H. apply In_nth_error in H as (k & H). rewrite numbered_nth in H.
  destruct (nth_error l k) eqn:E; [|discriminate]. injection H as <- <-. auto.
Qed.

Lemma incidences_in faces n x : triangles n faces -> In x (incidences faces) -> snd x < n.
Proof.
  intros Ht H. apply (in_map snd) in H. rewrite incidences_snd in H. apply in_concat in H as (f & Hf & Hx).
  destruct (Ht f Hf) as (_ & Hc). auto.
Qed.

Lemma count_faces_ok n faces : triangles n faces ->
  exists cnt, count_faces n faces = Ok cnt /\ length cnt = n
    /\ forall p, p < n -> nth p cnt 0 = count_occ Nat.eq_dec (concat faces) p.
Proof.
  intros Ht. unfold count_faces.
  rewrite (@fold_res_ext _ _ _ (fun f cnt => fold_res count_corner f cnt)).
  2:{ intros f st Hf. rewrite corners3_ok by (apply Ht; auto). reflexivity. }
  rewrite (fold_res_flat count_corner (fun f => f)). rewrite flat_map_concat_map, map_id.
  destruct (@count_ok (concat faces) (repeat 0 n)) as (cnt & E & L & N).
  - intros p Hp. rewrite repeat_length. apply in_concat in Hp as (f & Hf & Hp).
    destruct (Ht f Hf). auto.
  - rewrite repeat_length in *. exists cnt. split; auto. split; auto. intros p Hp.
    rewrite N by auto. now rewrite nth_repeat_eq.
Qed.

Lemma build_ok n faces : triangles n faces ->
  exists pf, build_point_faces n faces = Ok pf /\ length pf = n
    /\ forall p, p < n -> nth p pf [] = faces_at faces p.
Proof.
  intros Ht. unfold build_point_faces.
  destruct (count_faces_ok Ht) as (cnt & E & L & N). rewrite E. cbn [bind].
  rewrite (@fold_res_ext _ _ _ (fun x pf => fold_res (fun y => record_face cnt (fst y) (snd y))
             ((fun '(i, f) => map (pair i) f) x) pf)).
  2:{ intros [i f] st Hf. apply in_numbered in Hf. apply nth_error_In in Hf.
      rewrite corners3_ok by (apply Ht; auto). cbn [bind]. now rewrite fold_res_map. }
  rewrite fold_res_flat. fold (incidences faces).
  destruct (@fill_ok cnt (incidences faces) (repeat [] n)) as (pf & E1 & L1 & N1).
  - now rewrite repeat_length.
  - rewrite repeat_length. intros x. now apply incidences_in.
  - rewrite repeat_length. intros p Hp. rewrite nth_repeat_eq, row_of_count, incidences_snd, N by auto. simpl. lia.
  - rewrite repeat_length in *. exists pf. split; auto. split; auto. intros p Hp.
    rewrite N1, nth_repeat_eq, row_of_incidences by auto. reflexivity.
Qed.

Lemma faces_at_in faces p i : In i (faces_at faces p) <-> i < length faces /\ In p (nth i faces []).
Proof.
  unfold faces_at. rewrite in_flat_map. split.
  - intros (j & Hj & Hi). apply in_seq in Hj. pose proof (repeat_spec _ _ _ Hi). subst j.
    split; [lia|]. apply (count_occ_In Nat.eq_dec). destruct (count_occ _ _ _); simpl in Hi; [tauto|lia].
  - intros (Hi & Hp). exists i. split; [apply in_seq; lia|].
    apply (count_occ_In Nat.eq_dec) in Hp. destruct (count_occ _ _ _); [lia|]. left; auto.
Qed.

(** With three different corners each face is listed once. *)
Lemma faces_at_proper n faces p : proper_triangles n faces ->
  faces_at faces p = filter (fun i => existsb (Nat.eqb p) (nth i faces [])) (seq 0 (length faces)).
Proof.
  intros (Ht & Hn). unfold faces_at.
  assert (G : forall l, (forall i, In i l -> i < length faces) ->
    flat_map (fun i => repeat i (count_occ Nat.eq_dec (nth i faces []) p)) l
    = filter (fun i => existsb (Nat.eqb p) (nth i faces [])) l).
  2:{ apply G. intros i Hi. apply in_seq in Hi. lia. }
  induction l as [|i t IH]; intros Hl; simpl; auto.
  rewrite IH by (intros; apply Hl; right; auto).
  assert (Hi : In (nth i faces []) faces) by (apply nth_In, Hl; left; auto).
  destruct (existsb (Nat.eqb p) (nth i faces [])) eqn:E.
  - apply existsb_exists in E as (q & Hq & Eq). apply Nat.eqb_eq in Eq. subst q.
    assert (C : count_occ Nat.eq_dec (nth i faces []) p = 1).
    { apply NoDup_count_occ'; auto. }
    rewrite C. reflexivity.
  - assert (C : count_occ Nat.eq_dec (nth i faces []) p = 0).
    { apply count_occ_not_In. intros Hp.
      assert (existsb (Nat.eqb p) (nth i faces []) = true) by (apply existsb_exists; exists p; split; auto; apply Nat.eqb_refl).
      congruence. }
    rewrite C. reflexivity.
Qed.

(** ** Faces of an edge *)
Lemma next_corner_lt f j : j < length f -> next_corner f j < length f.
Proof. intros H. unfold next_corner. destruct (S j <? length f) eqn:E; [apply Nat.ltb_lt in E; lia|lia]. Qed.

(** The number of times the face runs along the edge, in either direction. *)
Fixpoint hits (pi pj : nat) (f l : list nat) : nat :=
  match l with
  | [] => 0
  | j :: t =>
    (if (nth j f 0 =? pi) && (nth (next_corner f j) f 0 =? pj) then 1 else 0)
    + (if (nth j f 0 =? pj) && (nth (next_corner f j) f 0 =? pi) then 1 else 0) + hits pi pj f t
  end.

Lemma hits_ok pi pj f : forall l n, (forall j, In j l -> j < length f) ->
  fold_res (fun j n => a <- get f j ;; b <- get f (next_corner f j) ;;
    let n1 := if (a =? pi) && (b =? pj) then S n else n in
    Ok (if (a =? pj) && (b =? pi) then S n1 else n1)) l n = Ok (n + hits pi pj f l)
  /\ edge_from pi pj f l = Ok (0 <? hits pi pj f l).
Proof.
  induction l as [|j t IH]; intros n Hl; cbn [fold_res edge_from hits].
  - split; [f_equal; lia|reflexivity].
  - assert (Hj : j < length f) by (apply Hl; left; auto).
    rewrite (get_nth f 0 Hj). cbn [bind]. rewrite (get_nth f 0 (next_corner_lt f Hj)). cbn [bind].
    set (x := nth j f 0). set (y := nth (next_corner f j) f 0).
    assert (Ht : forall j, In j t -> j < length f) by (intros; apply Hl; right; auto).
    destruct ((x =? pi) && (y =? pj)) eqn:E1, ((x =? pj) && (y =? pi)) eqn:E2; cbn [orb bind];
      (split; [rewrite (proj1 (IH _ Ht)); f_equal; lia|]); try reflexivity.
    rewrite (proj2 (IH 0 Ht)). reflexivity.
Qed.

Lemma count_in_face_ok pi pj f n : count_in_face pi pj f n = Ok (n + hits pi pj f (seq 0 (length f))).
Proof. apply hits_ok. intros j Hj. apply in_seq in Hj. lia. Qed.
Lemma edge_from_ok pi pj f : edge_from pi pj f (seq 0 (length f)) = Ok (0 <? hits pi pj f (seq 0 (length f))).
Proof. apply (@hits_ok pi pj f _ 0). intros j Hj. apply in_seq in Hj. lia. Qed.

Definition hit_face (faces : list (list nat)) (pi pj i : nat) : nat :=
  hits pi pj (nth i faces []) (seq 0 (length (nth i faces []))).
Definition total (h : nat -> nat) (l : list nat) : nat := fold_right (fun i s => h i + s) 0 l.

Lemma num_edge_faces_ok faces pf pi pj row : nth_error pf pi = Some row ->
  (forall i, In i row -> i < length faces) ->
  get_num_edge_faces faces pf pi pj = Ok (total (hit_face faces pi pj) row).
Proof.
  intros Er Hr. unfold get_num_edge_faces. rewrite (get_some Er). cbn [bind].
  enough (G : forall n, fold_res (fun fi n => f <- get faces fi ;; count_in_face pi pj f n) row n
    = Ok (n + total (hit_face faces pi pj) row)) by apply G.
  clear Er. induction row as [|i t IH]; intros n; cbn [fold_res total fold_right]; [f_equal; lia|].
  rewrite (get_nth faces []) by (apply Hr; left; auto). cbn [bind]. rewrite count_in_face_ok. cbn [bind].
  rewrite IH by (intros; apply Hr; right; auto). unfold total, hit_face. f_equal. lia.
Qed.

Lemma edge_faces_ok faces pf pi pj row : nth_error pf pi = Some row ->
  (forall i, In i row -> i < length faces) ->
  get_edge_faces faces pf pi pj
  = Ok (total (hit_face faces pi pj) row, filter (fun i => 0 <? hit_face faces pi pj i) row)
  /\ length (filter (fun i => 0 <? hit_face faces pi pj i) row) <= total (hit_face faces pi pj) row.
Proof.
  intros Er Hr. unfold get_edge_faces. rewrite (@num_edge_faces_ok faces pf pi pj row Er Hr). cbn [bind].
  rewrite (get_some Er). cbn [bind].
  assert (Lf : length (filter (fun i => 0 <? hit_face faces pi pj i) row) <= total (hit_face faces pi pj) row).
  { clear. induction row as [|i t IH]; cbn [filter total fold_right]; [simpl; lia|].
    destruct (0 <? hit_face faces pi pj i) eqn:E; cbn [length]; unfold total in IH; [apply Nat.ltb_lt in E|]; lia. }
  split; [|exact Lf].
  set (num := total _ _) in *. clearbody num.
  enough (G : forall out, length out + length (filter (fun i => 0 <? hit_face faces pi pj i) row) <= num ->
    fold_res (fun fi out => f <- get faces fi ;; b <- edge_from pi pj f (seq 0 (length f)) ;;
      if (b : bool) then if length out <? num then Ok (out ++ [fi]) else UB else Ok out) row out
    = Ok (out ++ filter (fun i => 0 <? hit_face faces pi pj i) row)).
  { rewrite (G []) by exact Lf. reflexivity. }
  clear Er Lf. induction row as [|i t IH]; intros out Ho; cbn [fold_res filter]; [now rewrite app_nil_r|].
  rewrite (get_nth faces []) by (apply Hr; left; auto). cbn [bind]. rewrite edge_from_ok. cbn [bind].
  fold (hit_face faces pi pj i). cbn [filter] in Ho.
  destruct (0 <? hit_face faces pi pj i) eqn:E; cbn [length] in Ho.
  - replace (length out <? num) with true by (symmetry; apply Nat.ltb_lt; lia). cbn [bind].
    rewrite IH. { now rewrite <- app_assoc. } { intros; apply Hr; right; auto. } { rewrite app_length. simpl. lia. }
  - cbn [bind]. apply IH; auto. intros; apply Hr; right; auto.
Qed.

(** In a triangle with three corners: one hit if both end points are corners. *)
Lemma hits_triangle pi pj f : length f = 3 -> NoDup f -> pi <> pj ->
  hits pi pj f (seq 0 (length f)) = if existsb (Nat.eqb pi) f && existsb (Nat.eqb pj) f then 1 else 0.
Proof.
  intros H3 Hn Hij. destruct f as [|a [|b [|c [|]]]]; try discriminate.
  apply NoDup_cons_iff in Hn as (Ha & Hn). apply NoDup_cons_iff in Hn as (Hb & _). simpl in Ha, Hb.
  cbn [seq length hits next_corner Nat.ltb Nat.leb nth existsb].
  repeat match goal with |- context [ ?x =? ?y ] => destruct (Nat.eqb_spec x y); subst; try lia end;
    simpl; try lia.
Qed.

Lemma total_01 h l : (forall i, In i l -> h i = 0 \/ h i = 1) -> total h l = length (filter (fun i => 0 <? h i) l).
Proof.
  induction l as [|i t IH]; intros H; cbn [total fold_right filter]; auto.
  assert (IHt : total h t = length (filter (fun i => 0 <? h i) t)) by (apply IH; intros; apply H; right; auto).
  unfold total in IHt. rewrite IHt. destruct (H i (or_introl eq_refl)) as [-> | ->]; reflexivity.
Qed.

Lemma filter_filter {A} (f g : A -> bool) l : filter f (filter g l) = filter (fun x => g x && f x) l.
Proof. induction l as [|a t IH]; simpl; auto. destruct (g a); simpl; rewrite IH; auto. Qed.

Lemma filter_ext_in' {A} (f g : A -> bool) l : (forall a, In a l -> f a = g a) -> filter f l = filter g l.
Proof. apply filter_ext_in. Qed.

(** The exact answers on a mesh of proper triangles. *)
Lemma edge_exact n faces pf a b : proper_triangles n faces -> length pf = n ->
  (forall p, p < n -> nth p pf [] = faces_at faces p) -> a < n -> a <> b ->
  get_num_edge_faces faces pf a b = Ok (length (faces_with faces a b))
  /\ get_edge_faces faces pf a b = Ok (length (faces_with faces a b), faces_with faces a b).
Proof.
  intros Hp Lp Hpf Ha Hab. destruct Hp as (Ht & Hn).
  assert (Er : nth_error pf a = Some (faces_at faces a)).
  { rewrite <- Hpf by auto. apply nth_error_nth'. lia. }
  assert (Hr : forall i, In i (faces_at faces a) -> i < length faces).
  { intros i Hi. apply faces_at_in in Hi. tauto. }
  assert (Hh : forall i, i < length faces -> hit_face faces a b i
    = if existsb (Nat.eqb a) (nth i faces []) && existsb (Nat.eqb b) (nth i faces []) then 1 else 0).
  { intros i Hi. unfold hit_face. apply hits_triangle; auto; [apply Ht|apply Hn]; apply nth_In; auto. }
  assert (Ef : filter (fun i => 0 <? hit_face faces a b i) (faces_at faces a) = faces_with faces a b).
  { rewrite (@faces_at_proper n) by (split; auto). rewrite filter_filter. apply filter_ext_in.
    intros i Hi. apply in_seq in Hi. rewrite Hh by lia.
    destruct (existsb (Nat.eqb a) (nth i faces [])), (existsb (Nat.eqb b) (nth i faces [])); reflexivity. }
  assert (Et : total (hit_face faces a b) (faces_at faces a) = length (faces_with faces a b)).
  { rewrite total_01, Ef; auto. intros i Hi. apply Hr in Hi. rewrite Hh by auto. destruct (_ && _); auto. }
  split.
  - rewrite (@num_edge_faces_ok _ _ _ _ _ Er Hr). now rewrite Et.
  - rewrite (proj1 (@edge_faces_ok _ _ _ b _ Er Hr)). now rewrite Et, Ef.
Qed.

(** ** Water-tightness *)
Lemma faces_with_sym faces a b : faces_with faces a b = faces_with faces b a.
Proof. apply filter_ext. intros. apply andb_comm. Qed.

Lemma faces_with_in faces a b i : In i (faces_with faces a b) <->
  i < length faces /\ In a (nth i faces []) /\ In b (nth i faces []).
Proof.
  unfold faces_with. rewrite filter_In, in_seq, andb_true_iff, !existsb_exists.
  split.
  - intros (Hi & (x & Hx & Ex) & (y & Hy & Ey)). apply Nat.eqb_eq in Ex, Ey. subst. split; [lia|auto].
  - intros (Hi & Ha & Hb). split; [lia|]. split; [exists a|exists b]; split; auto using Nat.eqb_refl.
Qed.

Section Water.
  Variables (n : nat) (faces pf : list (list nat)).
  Hypothesis Hp : proper_triangles n faces.
  Hypothesis Lp : length pf = n.
  Hypothesis Hpf : forall p, p < n -> nth p pf [] = faces_at faces p.

  Definition edge_shared (a b : nat) : bool := negb (length (faces_with faces a b) =? 1).

  Lemma edges_ok_ok a b c : In [a; b; c] faces ->
    edges_ok faces pf [a; b; c] [0; 1; 2]
    = Ok (edge_shared a b && edge_shared b c && edge_shared c a).
  Proof.
    intros Hf. destruct Hp as (Ht & Hn). destruct (Ht _ Hf) as (_ & Hc). specialize (Hn _ Hf).
    apply NoDup_cons_iff in Hn as (N1 & Hn). apply NoDup_cons_iff in Hn as (N2 & _). simpl in N1, N2.
    assert (a < n) by (apply Hc; simpl; auto). assert (b < n) by (apply Hc; simpl; auto).
    assert (c < n) by (apply Hc; simpl; auto).
    unfold edge_shared. cbn [edges_ok get nth_error bind wrap3 Nat.eqb].
    rewrite (proj1 (@edge_exact n faces pf a b Hp Lp Hpf ltac:(auto) ltac:(intuition))). cbn [bind].
    destruct (length (faces_with faces a b) =? 1); [reflexivity|]. cbn [get nth_error bind].
    rewrite (proj1 (@edge_exact n faces pf b c Hp Lp Hpf ltac:(auto) ltac:(intuition))). cbn [bind].
    destruct (length (faces_with faces b c) =? 1); [reflexivity|]. cbn [get nth_error bind].
    rewrite (proj1 (@edge_exact n faces pf c a Hp Lp Hpf ltac:(auto) ltac:(intuition))). cbn [bind].
    destruct (length (faces_with faces c a) =? 1); reflexivity.
  Qed.

  Lemma all_edges_ok_ok l : incl l faces ->
    exists r, all_edges_ok faces pf l = Ok r
      /\ (r = true <-> forall f a b, In f l -> In a f -> In b f -> a <> b -> length (faces_with faces a b) <> 1).
  Proof.
    induction l as [|f t IH]; intros Hl; cbn [all_edges_ok].
    - exists true. split; auto. split; auto.
    - assert (Hf : In f faces) by (apply Hl; left; auto).
      destruct (proj1 Hp f Hf) as (H3 & _). destruct f as [|a [|b [|c [|]]]]; try discriminate.
      rewrite edges_ok_ok by auto. cbn [bind].
      destruct IH as (r & E & Hr). { intros x Hx. apply Hl. right; auto. }
      assert (Hs : edge_shared a b && edge_shared b c && edge_shared c a = true <->
        (forall x y, In x [a; b; c] -> In y [a; b; c] -> x <> y -> length (faces_with faces x y) <> 1)).
      { unfold edge_shared. rewrite !andb_true_iff, !negb_true_iff, !Nat.eqb_neq. split.
        - intros ((Hab & Hbc) & Hca) x y [<-|[<-|[<-|[]]]] [<-|[<-|[<-|[]]]] Hxy; try congruence;
            try assumption; rewrite faces_with_sym; assumption.
        - intros H. pose proof (proj2 Hp _ Hf) as Hn.
          apply NoDup_cons_iff in Hn as (N1 & Hn). apply NoDup_cons_iff in Hn as (N2 & _). simpl in N1, N2.
          split; [split|]; apply H; simpl; auto; intuition. }
      destruct (edge_shared a b && edge_shared b c && edge_shared c a) eqn:Eb.
      + exists r. split; auto. rewrite Hr. split.
        * intros H g x y [<-|Hg] Hx Hy Hxy; [apply Hs; auto|eapply H; eauto].
        * intros H g x y Hg. apply H. right; auto.
      + exists false. split; auto. split; [discriminate|]. intros H.
        assert (false = true); [|congruence]. apply Hs. intros x y Hx Hy. eapply H; [left; reflexivity|auto|auto].
  Qed.
End Water.

(** ** Isolated points *)
Lemma filter_map_comm {A B} (f : B -> bool) (g : A -> bool) (h : A -> B) l :
  (forall a, f (h a) = g a) -> filter f (map h l) = map h (filter g l).
Proof.
  intros E. induction l as [|a t IH]; cbn [map filter]; auto. rewrite E. destruct (g a); cbn [map]; now rewrite IH.
Qed.

Lemma compact_ok {P} (pts : list P) : forall pf k, length pf = length pts ->
  exists np m K, compact_points pts pf k = Ok (np, m) /\ length m = length pts
    /\ K = filter (fun i => negb (length (nth i pf []) =? 0)) (seq 0 (length pts))
    /\ map Some np = map (nth_error pts) K
    /\ forall i, i < length pts -> nth i pf [] <> [] ->
         exists v, nth_error m i = Some (Some (k + v)) /\ nth_error np v = nth_error pts i /\ v < length np.
Proof.
  induction pts as [|p t IH]; intros pf k Hl; cbn [compact_points].
  - exists [], [], []. split; auto. split; auto. split; auto. split; auto. simpl. intros; lia.
  - destruct pf as [|row pft]; [discriminate|]. injection Hl as Hl.
    assert (EK : forall k0, filter (fun i => negb (length (nth i (row :: pft) []) =? 0)) (seq 1 k0)
      = map S (filter (fun i => negb (length (nth i pft []) =? 0)) (seq 0 k0))).
    { intros k0. rewrite <- seq_shift. apply filter_map_comm. reflexivity. }
    destruct (length row =? 0) eqn:E.
    + destruct (IH pft k Hl) as (np & m & K & Ec & Lm & HK & Hnp & Hm). rewrite Ec. cbn [bind].
      eexists np, (None :: m), _. split; [reflexivity|]. split; [simpl; auto|]. split; [reflexivity|].
      cbn [seq length filter nth]. rewrite E. cbn [negb]. rewrite EK, map_map. split; [subst K; exact Hnp|].
      intros i Hi Hn. destruct i as [|i].
      * simpl in Hn. apply Nat.eqb_eq in E. destruct row; [congruence|discriminate].
      * simpl in Hi, Hn. destruct (Hm i) as (v & Hv); [lia|auto|]. exists v. simpl. auto.
    + destruct (IH pft (S k) Hl) as (np & m & K & Ec & Lm & HK & Hnp & Hm). rewrite Ec. cbn [bind].
      eexists (p :: np), (Some k :: m), _. split; [reflexivity|]. split; [simpl; auto|]. split; [reflexivity|].
      cbn [seq length filter nth]. rewrite E. cbn [negb]. rewrite EK. cbn [map nth_error]. rewrite map_map.
      split; [subst K; now f_equal|].
      intros i Hi Hn. destruct i as [|i].
      * exists 0. simpl. rewrite Nat.add_0_r. repeat split; auto. lia.
      * simpl in Hi, Hn. destruct (Hm i) as (v & E1 & E2 & E3); [lia|auto|]. exists (S v). simpl.
        split; [rewrite E1; do 2 f_equal; lia|]. split; [auto|lia].
Qed.

Lemma renumber_ok {P} (pts np : list P) m f :
  (forall c, In c f -> exists v, nth_error m c = Some (Some v) /\ nth_error np v = nth_error pts c /\ v < length np) ->
  exists f', renumber m f = Ok f' /\ shape np f' = shape pts f /\ length f' = length f
    /\ forall c, In c f' -> c < length np.
Proof.
  induction f as [|c t IH]; intros Hf; cbn [renumber].
  - exists []. repeat split; auto. intros c [].
  - destruct (Hf c (or_introl eq_refl)) as (v & Ev & Es & Hv). rewrite (get_some Ev). cbn [bind].
    destruct IH as (f' & E & S1 & L & B). { intros; apply Hf; right; auto. }
    rewrite E. cbn [bind]. exists (v :: f'). split; auto. unfold shape in *. cbn [map]. rewrite Es, S1.
    split; auto. split; [simpl; auto|]. intros x [<-|Hx]; auto.
Qed.

Lemma renumber_all_ok {P} (pts np : list P) m faces :
  (forall f, In f faces -> forall c, In c f ->
     exists v, nth_error m c = Some (Some v) /\ nth_error np v = nth_error pts c /\ v < length np) ->
  (forall f, In f faces -> length f = 3) ->
  exists faces', renumber_all m faces = Ok faces' /\ map (shape np) faces' = map (shape pts) faces
    /\ triangles (length np) faces'.
Proof.
  induction faces as [|f t IH]; intros Hf H3; cbn [renumber_all].
  - exists []. repeat split; auto; destruct H.
  - destruct (@renumber_ok P pts np m f) as (f' & E & S1 & L & B). { intros; eapply Hf; eauto; left; auto. }
    rewrite E. cbn [bind]. destruct IH as (t' & E' & S' & T').
    { intros g Hg; apply Hf; right; auto. } { intros; apply H3; right; auto. }
    rewrite E'. cbn [bind]. exists (f' :: t'). split; auto. cbn [map]. rewrite S1, S'. split; auto.
    intros g [<-|Hg]; [split; [rewrite L; apply H3; left; auto|auto]|apply T'; auto].
Qed.

Lemma filter_sorted (P : nat -> bool) : forall a k, Sorted lt (filter P (seq k a)) /\ HdRel (fun x y => x <= y) k (filter P (seq k a)).
Proof.
  induction a as [|a IH]; intros k; cbn [seq filter].
  - split; constructor.
  - destruct (IH (S k)) as (Hs & Hh).
    assert (Hh' : HdRel lt k (filter P (seq (S k) a))) by (inversion Hh; constructor; lia).
    destruct (P k); split; try constructor; auto.
    inversion Hh; constructor; lia.
Qed.

Lemma remove_isolated_ok {P} (pts : list P) faces pf :
  triangles (length pts) faces -> length pf = length pts ->
  (forall p, p < length pts -> nth p pf [] = faces_at faces p) ->
  exists np faces' pf' K, remove_isolated_points pts faces pf = Ok (np, faces', pf')
    /\ ascending K /\ (forall p, In p K <-> used faces p)
    /\ map Some np = map (nth_error pts) K
    /\ map (shape np) faces' = map (shape pts) faces
    /\ triangles (length np) faces'
    /\ length pf' = length np /\ (forall p, p < length np -> nth p pf' [] = faces_at faces' p).
Proof.
  intros Ht Lp Hpf. unfold remove_isolated_points.
  assert (Hu : forall p, p < length pts -> (nth p pf [] <> [] <-> used faces p)).
  { intros p Hlt. rewrite Hpf by auto. split.
    - intros Hne. destruct (faces_at faces p) as [|i l] eqn:E; [congruence|].
      assert (Hi : In i (faces_at faces p)) by (rewrite E; left; auto).
      apply faces_at_in in Hi as (Hi & Hin). exists (nth i faces []). split; auto. now apply nth_In.
    - intros (f & Hf & Hin) E. apply In_nth with (d := []) in Hf as (i & Hi & Ei).
      assert (In i (faces_at faces p)) by (apply faces_at_in; rewrite Ei; auto). rewrite E in H. destruct H. }
  assert (Hul : forall p, used faces p -> p < length pts).
  { intros p (f & Hf & Hin). apply (Ht f Hf). auto. }
  destruct (length (filter (fun row => length row =? 0) (firstn (length pts) pf)) =? 0) eqn:E0.
  - apply Nat.eqb_eq in E0. apply length_zero_iff_nil in E0.
    exists pts, faces, pf, (seq 0 (length pts)). split; auto.
    split; [|split; [|split; [|auto]]].
    + unfold ascending. pose proof (proj1 (filter_sorted (fun _ => true) (length pts) 0)) as Hs.
      replace (filter (fun _ => true) (seq 0 (length pts))) with (seq 0 (length pts)) in Hs; auto.
      generalize (seq 0 (length pts)) as l. induction l; simpl; congruence.
    + intros p. rewrite in_seq. split; [|intros Hp; apply Hul in Hp; lia].
      intros Hp. apply Hu; [lia|]. intros En.
      assert (Hin : In (nth p pf []) (filter (fun row => length row =? 0) (firstn (length pts) pf))).
      { apply filter_In. rewrite firstn_all2 by lia. split; [apply nth_In; lia|now rewrite En]. }
      rewrite E0 in Hin. destruct Hin.
    + apply list_ext. intros k. rewrite !map_nth_error'. destruct (lt_dec k (length pts)) as [Hk|Hk].
      * rewrite (nth_error_nth' (seq 0 (length pts)) 0) by now rewrite seq_length.
        rewrite seq_nth by auto. cbn [option_map Nat.add]. destruct (nth_error pts k) eqn:E; auto.
        apply nth_error_None in E. lia.
      * assert (E1 : nth_error pts k = None) by (apply nth_error_None; lia).
        assert (E2 : nth_error (seq 0 (length pts)) k = None) by (apply nth_error_None; rewrite seq_length; lia).
        now rewrite E1, E2.
  - destruct (compact_ok pts pf 0 Lp) as (np & m & K & Ec & Lm & HK & Hnp & Hm). rewrite Ec. cbn [bind].
    destruct (@renumber_all_ok P pts np m faces) as (faces' & Er & Sr & Tr).
    { intros f Hf c Hc. assert (Hlt : c < length pts) by (apply (Ht f Hf); auto).
      destruct (Hm c Hlt) as (v & Hv); [apply Hu; auto; exists f; auto|]. exists v. exact Hv. }
    { intros f Hf. apply Ht; auto. }
    rewrite Er. cbn [bind]. destruct (build_ok Tr) as (pf' & Eb & Lb & Hb). rewrite Eb. cbn [bind].
    exists np, faces', pf', K. split; auto. split; [subst K; apply filter_sorted|].
    split.
    { intros p. subst K. rewrite filter_In, in_seq, negb_true_iff, Nat.eqb_neq. split.
      - intros (Hp & Hne). apply Hu; [lia|]. intros E. apply Hne. now rewrite E.
      - intros Hp. pose proof (Hul p Hp). split; [lia|]. apply Hu in Hp; [|lia].
        intros E. apply length_zero_iff_nil in E. auto. }
    repeat split; auto; apply Tr; auto.
Qed.
