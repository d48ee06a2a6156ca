(** Proofs about the model read from OBJ files. *)
From Coq Require Import Ascii String Reals Lra.
From Verif Require Import Base Num Vec KdSpec SmartTree PolyMesh PolyMeshSpec PolyMeshProofs PolyMeshWeldProofs PropsPolyMesh
  Text TextSpec TextProofs TextFilesProofs InputModel InputModelSpec.
Local Open Scope list_scope.
Local Open Scope nat_scope.

Lemma near_refl eps x : near eps x x.
Proof. now left. Qed.
Lemma near_mono a b x y : (a <= b)%R -> near a x y -> near b x y.
Proof. intros L [E|E]; [now left|right; lra]. Qed.
Lemma near_trans a b x y z : (0 <= a)%R -> (0 <= b)%R -> near a x y -> near b y z -> near (a + b) x z.
Proof.
  intros Ha Hb [<-|E] [<-|G]; [now left|right; lra|right; lra|right].
  pose proof (vdist_triangle 3 (vec x) (vec y) (vec z)). lra.
Qed.

(** * Lists *)
Lemma Forall2_map_same {A B} (R : B -> B -> Prop) (f g : A -> B) l :
  (forall a, In a l -> R (f a) (g a)) -> Forall2 R (map f l) (map g l).
Proof. induction l as [|a l IH]; intros H; constructor; [apply H; now left|apply IH; intros; apply H; now right]. Qed.
Lemma Forall2_comp {A} (P Q R : A -> A -> Prop) l1 l2 l3 :
  (forall a b c, P a b -> Q b c -> R a c) -> Forall2 P l1 l2 -> Forall2 Q l2 l3 -> Forall2 R l1 l3.
Proof.
  intros H F; revert l3. induction F as [|a b l1 l2 Hab F IH]; intros l3 G; inversion G; subst; constructor; eauto.
Qed.
Lemma Forall2_perm {A B} (R : A -> B -> Prop) l l1 l2 :
  Forall2 R l l1 -> Permutation l1 l2 -> exists l', Permutation l l' /\ Forall2 R l' l2.
Proof.
  intros F P. revert l F. induction P as [|x a b P IH|x y a|a b c P1 IH1 P2 IH2]; intros l F.
  - inversion F; subst. exists []. split; constructor.
  - inversion F as [|x' ? l' ? Hx F']; subst. destruct (IH _ F') as (l2 & A1 & A2).
    exists (x' :: l2). split; constructor; auto.
  - inversion F as [|x' ? l' ? Hx F']; subst. inversion F' as [|y' ? l2 ? Hy F2]; subst.
    exists (y' :: x' :: l2). split; [constructor|repeat constructor; auto].
  - destruct (IH1 _ F) as (m & A1 & A2). destruct (IH2 _ A2) as (k & B1 & B2).
    exists k. split; auto. now transitivity m.
Qed.
Lemma Forall2_len {A B} (R : A -> B -> Prop) l l' : Forall2 R l l' -> length l = length l'.
Proof. induction 1; simpl; auto. Qed.
Lemma Forall2_in_r {A B} (R : A -> B -> Prop) l l' b : Forall2 R l l' -> In b l' -> exists a, In a l /\ R a b.
Proof. induction 1 as [|x y l l' Hxy F IH]; intros []; subst; [exists x; split; auto; now left|]. destruct IH as (a & ? & ?); auto. exists a. split; auto. now right. Qed.
Lemma Forall2_in_l {A B} (R : A -> B -> Prop) l l' a : Forall2 R l l' -> In a l -> exists b, In b l' /\ R a b.
Proof. induction 1 as [|x y l l' Hxy F IH]; intros []; subst; [exists y; split; auto; now left|]. destruct IH as (b & ? & ?); auto. exists b. split; auto. now right. Qed.
Lemma Forall2_nth_ {A B} (R : A -> B -> Prop) l l' i a b : Forall2 R l l' -> i < length l -> R (nth i l a) (nth i l' b).
Proof. intros F. revert i. induction F as [|x y l l' Hxy F IH]; intros [|i] H; simpl in *; try lia; auto. apply IH. lia. Qed.

Lemma map_nodup_in {A B} (f : A -> B) l : (forall x y, In x l -> In y l -> f x = f y -> x = y) -> NoDup l -> NoDup (map f l).
Proof.
  induction l as [|a l IH]; intros Hi N; [constructor|]. inversion N; subst. cbn [map]. constructor.
  - intros Hin. apply in_map_iff in Hin as (b & E & Hb). apply Hi in E; [subst; auto|now right|now left].
  - apply IH; auto. intros x y Hx Hy. apply Hi; now right.
Qed.

Lemma collapsed3 f : length f = 3 -> collapsed f <-> ~ NoDup f.
Proof.
  destruct f as [|a [|b [|c [|? ?]]]]; try discriminate. intros _. split.
  - intros (j & Hj & E) N. inversion N as [|? ? N1 N2]; subst. inversion N2 as [|? ? N3 N4]; subst.
    destruct j as [|[|[|j]]]; simpl in E, Hj; try lia; injection E as E; subst; simpl in *; tauto.
  - intros N. destruct (Nat.eq_dec a b) as [->|A]. { exists 0. simpl. split; [lia|auto]. }
    destruct (Nat.eq_dec b c) as [->|B]. { exists 1. simpl. split; [lia|auto]. }
    destruct (Nat.eq_dec c a) as [->|C]. { exists 2. simpl. split; [lia|auto]. }
    exfalso. apply N. repeat constructor; simpl; intuition congruence.
Qed.

(** * Reading *)
Lemma parse_len {F} (io : numio F) n : forall toks i x, parse_from io toks i n = Ok x -> length x = n.
Proof.
  induction n as [|n IH]; intros toks i x; cbn [parse_from].
  - intros [= <-]. reflexivity.
  - intros E. apply bind_Ok_inv in E as (t & _ & E). apply bind_Ok_inv in E as (r & Er & E). injection E as <-.
    simpl. f_equal. eauto.
Qed.
Definition shaped {F} (o : obj F) : Prop :=
  (forall p, In p (ob_pts o) -> length p = 3) /\ forall f, In f (ob_faces o) -> length f = 3.
Lemma read_lines_shaped {F} (io : numio F) ti lines : forall o o', shaped o ->
  read_obj_lines io ti lines o = Ok o' -> shaped o'.
Proof.
  induction lines as [|l lines IH]; intros o o' S; cbn [read_obj_lines].
  - intros [= <-]. auto.
  - destruct (words l) as [|w ws]; [now apply IH|]. intros E.
    apply bind_Ok_inv in E as (o1 & E1 & E). apply bind_Ok_inv in E as (o2 & E2 & E). apply IH in E; auto.
    assert (S1 : shaped o1).
    { destruct (text_eqb w (lit "v")); [|injection E1 as <-; auto].
      apply bind_Ok_inv in E1 as (x & Ex & E1). injection E1 as <-. destruct S as (A & B). split; cbn [ob_pts ob_faces]; auto.
      intros p Hp. apply in_app_iff in Hp as [Hp|[<-|[]]]; auto. eapply parse_len; eauto. }
    destruct (text_eqb w (lit "f")); [|injection E2 as <-; auto].
    apply bind_Ok_inv in E2 as (a & _ & E2). apply bind_Ok_inv in E2 as (b & _ & E2). apply bind_Ok_inv in E2 as (c & _ & E2).
    injection E2 as <-. destruct S1 as (A & B). split; cbn [ob_pts ob_faces]; auto.
    intros p Hp. apply in_app_iff in Hp as [Hp|[<-|[]]]; auto.
Qed.
Lemma read_shaped {F} (io : numio F) ti file o : read_obj io ti file = Ok o -> shaped o.
Proof. unfold read_obj. apply read_lines_shaped. split; intros ? []. Qed.

Lemma faces_of_ok {F} (o : obj F) : valid_faces o -> faces_of (ob_faces o) = Ok (map (map Z.to_nat) (ob_faces o)).
Proof.
  intros V. unfold faces_of. apply map_res_ok. intros f Hf. apply map_res_ok. intros z Hz. unfold to_nat.
  destruct (Z.ltb_spec z 0) as [L|L]; auto. specialize (V f Hf z Hz). lia.
Qed.

(** * Welding one model *)
Lemma lit8 : @nlit R RNum 1 8 = (1 / 10 ^ 8)%R.
Proof. unfold nlit. cbn [ndiv nofZ RNum]. change (10 ^ 8)%Z with 100000000%Z. lra. Qed.
Lemma lit8_max : (@nlit R RNum 1 8 <= @dbl_max R RNum)%R.
Proof.
  rewrite lit8. unfold dbl_max. cbn [nofZ RNum].
  apply Rle_trans with 1%R; [|apply (IZR_le 1); vm_compute; discriminate].
  apply Rle_trans with (1 / 1)%R; [|lra]. unfold Rdiv. rewrite !Rmult_1_l. apply Rinv_le_contravar; [lra|]. lra.
Qed.

Lemma weld_holds need (o : obj R) : shaped o -> valid_faces o ->
  exists pts faces, weld_nearby_points need (nlit 1 8) (ob_pts o) (map (map Z.to_nat) (ob_faces o)) = Ok (pts, faces)
    /\ holds (1 / 10 ^ 8) [o] pts faces.
Proof.
  intros (Sp & Sf) V. set (n := length (ob_pts o)).
  assert (Hf : forall f, In f (map (map Z.to_nat) (ob_faces o)) -> forall c, In c f -> c < n).
  { intros f Hf c Hc. apply in_map_iff in Hf as (g & <- & Hg). apply in_map_iff in Hc as (z & <- & Hz).
    specialize (V g Hg z Hz). unfold n. lia. }
  destruct (@C22_weld need (nlit 1 8) (ob_pts o) _ Sp lit8_max Hf) as (pts & faces & K & m & E & W & M & N1 & N2 & N3).
  rewrite lit8 in W. exists pts, faces. split; auto.
  destruct W as (Ka & Kl & Lm & Kd & Kr).
  assert (Lp : length pts = length K) by (apply (f_equal (@length _)) in M; now rewrite !map_length in M).
  assert (PK : forall c k, nth_error K c = Some k -> nth_error pts c = nth_error (ob_pts o) k).
  { intros c k Ek. assert (A : nth_error (map Some pts) c = nth_error (map (nth_error (ob_pts o)) K) c) by now rewrite M.
    rewrite !nth_error_map, Ek in A. cbn in A. destruct (nth_error pts c); cbn in A; congruence. }
  assert (PN : forall c, c < length pts -> exists k, In k K /\ nth_error K c = Some k /\ k < n /\ nth c pts [] = nth k (ob_pts o) []).
  { intros c Hc. destruct (nth_error K c) as [k|] eqn:Ek; [|apply nth_error_None in Ek; lia].
    assert (Hk : In k K) by (eapply nth_error_In; eauto). exists k. split; auto. split; auto. split; [now apply Kl|].
    specialize (PK _ _ Ek). destruct (nth_error (ob_pts o) k) as [x|] eqn:Ex.
    - rewrite (nth_error_nth _ _ _ Ex), (nth_error_nth _ _ _ PK). reflexivity.
    - apply nth_error_None in Ex. specialize (Kl k Hk). unfold n in *. lia. }
  assert (RP : forall i, i < n -> nth i m 0 < length pts /\ near (1 / 10 ^ 8) (nth i (ob_pts o) []) (nth (nth i m 0) pts [])).
  { intros i Hi. destruct (Kr i Hi) as (c & k & Ec & Ek & _ & Hk & _). rewrite (nth_error_nth _ _ _ Ec).
    assert (Lc : c < length pts) by (rewrite Lp; eapply nth_error_Some_lt; eauto).
    split; auto. destruct (PN c Lc) as (k' & _ & Ek' & _ & ->). rewrite Ek in Ek'. injection Ek' as <-.
    destruct Hk as [->|Hk]; [now left|now right]. }
  assert (AP : forall i j, i < length pts -> j < length pts -> i <> j ->
    (1 / 10 ^ 8 <= vdist 3 (vec (nth i pts [])) (vec (nth j pts [])))%R).
  { intros i j Hi Hj Hij. destruct (PN i Hi) as (k & Ik & Ek & _ & ->). destruct (PN j Hj) as (k' & Ik' & Ek' & _ & ->).
    apply Kd; auto. intros <-. apply Hij.
    assert (ND : NoDup K). { apply Sorted_StronglySorted in Ka; [|exact Nat.lt_trans]. clear -Ka. induction Ka as [|a l As IH Fa]; constructor; auto.
      rewrite Forall_forall in Fa. intros Hin. specialize (Fa a Hin). lia. }
    eapply (proj1 (NoDup_nth_error K)); eauto; [now rewrite <- Lp|congruence]. }
  assert (PI : forall p, In p pts -> In p (ob_pts o)).
  { intros p Hp. apply In_nth with (d := []) in Hp as (c & Hc & <-). destruct (PN c Hc) as (k & _ & _ & Lk & ->). now apply nth_In. }
  assert (NR : forall p, In p (ob_pts o) -> exists q, In q pts /\ near (1 / 10 ^ 8) p q).
  { intros p Hp. apply In_nth with (d := []) in Hp as (i & Hi & <-). destruct (RP i Hi) as (A & B). eexists. split; [apply nth_In, A|exact B]. }
  (* the image of the faces *)
  set (fs := map (map Z.to_nat) (ob_faces o)) in *.
  assert (FT : file_triangles o = map (map (fun c => nth c (ob_pts o) [])) fs).
  { unfold file_triangles, fs. rewrite map_map. apply map_ext. intros f. now rewrite map_map. }
  assert (F3 : forall f, In f fs -> length f = 3).
  { intros f Hin. apply in_map_iff in Hin as (g & <- & Hg). rewrite map_length. auto. }
  assert (IM : Forall2 (Forall2 (near (1 / 10 ^ 8))) (file_triangles o) (model_triangles pts (map (map (fun c => nth c m 0)) fs))).
  { rewrite FT. unfold model_triangles. rewrite map_map. apply Forall2_map_same. intros f Hin. rewrite map_map.
    apply Forall2_map_same. intros c Hc. apply RP. eauto. }
  constructor.
  - intros p Hp. exists o. split; [now left|auto].
  - auto.
  - intros o' p [<-|[]] Hp. auto.
  - intros f Hin. split; [|now apply N3].
    destruct (Nat.eq_dec (length K) n) as [EK|NK].
    + destruct (N1 EK) as (_ & ->). auto.
    + destruct (N2 NK) as (d & Hpm & _ & _).
      assert (A : In f (map (map (fun c => nth c m 0)) fs)) by (eapply Permutation_in; [symmetry; eauto|apply in_app_iff; auto]).
      apply in_map_iff in A as (g & <- & Hg). rewrite map_length. auto.
  - cbn [flat_map]. rewrite app_nil_r.
    destruct (Nat.eq_dec (length K) n) as [EK|NK].
    + destruct (N1 EK) as (-> & ->). exists (file_triangles o), []. rewrite app_nil_r. split; auto. split; [|intros ? []].
      rewrite FT. unfold model_triangles. apply Forall2_map_same. intros f Hin. apply Forall2_map_same. intros. apply near_refl.
    + destruct (N2 NK) as (d & Hpm & _ & Hd).
      assert (Hpm' : Permutation (model_triangles pts (map (map (fun c => nth c m 0)) fs)) (model_triangles pts faces ++ model_triangles pts d)).
      { unfold model_triangles. rewrite <- map_app. now apply Permutation_map. }
      destruct (Forall2_perm IM Hpm') as (l' & P1 & P2). apply Forall2_app_inv_r in P2 as (kept & lost & K1 & K2 & ->).
      exists kept, lost. split; auto. split; auto. intros t Ht.
      destruct (Forall2_in_l _ K2 Ht) as (t' & Ht' & Hn). apply in_map_iff in Ht' as (f & <- & Hfd).
      assert (A : In f (map (map (fun c => nth c m 0)) fs)) by (eapply Permutation_in; [symmetry; eauto|apply in_app_iff; auto]).
      assert (L3 : length f = 3) by (apply in_map_iff in A as (g & <- & Hg); rewrite map_length; auto).
      assert (Fin : forall c, In c f -> c < length pts).
      { apply in_map_iff in A as (g & <- & Hg). intros c Hc. apply in_map_iff in Hc as (c0 & <- & Hc0). apply RP. eauto. }
      pose proof (Forall2_len Hn) as Lt. rewrite map_length, L3 in Lt.
      specialize (Hd f Hfd). destruct Hd as (j & Hj & Ej).
      assert (EX : exists i i', (i < i' < 3) /\ nth i f 0 = nth i' f 0).
      { destruct f as [|a [|b [|c [|? ?]]]]; try discriminate. destruct j as [|[|[|j]]]; simpl in Ej, Hj; try lia; injection Ej as Ej.
        - exists 0, 1. simpl. split; [lia|auto].
        - exists 1, 2. simpl. split; [lia|auto].
        - exists 0, 2. simpl. split; [lia|auto]. }
      destruct EX as (i & i' & Hi & Ei).
      assert (NN : forall u, u < 3 -> near (1 / 10 ^ 8) (nth u t []) (nth (nth u f 0) pts [])).
      { intros u Hu. pose proof (@Forall2_nth_ _ _ _ _ _ u [] [] Hn ltac:(lia)) as Q.
        rewrite (nth_indep (map _ f) [] (nth 0 pts [])) in Q by (rewrite map_length; lia).
        rewrite (map_nth (fun c => nth c pts [])) in Q. exact Q. }
      exists o, (nth (nth i f 0) pts []). split; [now left|]. split. { apply PI, nth_In, Fin, nth_In. lia. }
      exists i, i'. rewrite Lt. split; [lia|]. split; [apply NN; lia|]. rewrite Ei. apply NN; lia.
  - intros ND f Hin. destruct (Nat.eq_dec (length K) n) as [EK|NK].
    + destruct (N1 EK) as (_ & ->). apply in_map_iff in Hin as (g & <- & Hg). specialize (ND o g (or_introl eq_refl) Hg).
      apply map_nodup_in; auto. intros x y Hx Hy. pose proof (V g Hg x Hx). pose proof (V g Hg y Hy). lia.
    + destruct (N2 NK) as (d & Hpm & Hc & _). specialize (Hc f Hin).
      assert (A : In f (map (map (fun c => nth c m 0)) fs)) by (eapply Permutation_in; [symmetry; eauto|apply in_app_iff; auto]).
      assert (L3 : length f = 3) by (apply in_map_iff in A as (g & <- & Hg); rewrite map_length; auto).
      rewrite (collapsed3 _ L3) in Hc. destruct (ListDec.NoDup_dec Nat.eq_dec f); tauto.
Qed.

(** * Several models *)
Lemma map_Some_inj {A} (l l' : list A) : map Some l = map Some l' -> l = l'.
Proof. revert l'. induction l as [|a l IH]; intros [|b l']; simpl; intros E; try discriminate; auto. injection E as -> E. f_equal; auto. Qed.
Lemma map_map_Some_inj {A} (l l' : list (list A)) : map (map Some) l = map (map Some) l' -> l = l'.
Proof. revert l'. induction l as [|a l IH]; intros [|b l']; simpl; intros E; try discriminate; auto. injection E as E1 E. f_equal; auto. now apply map_Some_inj. Qed.
Lemma triangles_some (o : obj R) : valid_faces o -> TextSpec.triangles o = map (map Some) (file_triangles o).
Proof.
  intros V. unfold TextSpec.triangles, file_triangles. rewrite map_map. apply map_ext_in. intros f Hf. rewrite map_map. apply map_ext_in.
  intros z Hz. apply nth_error_nth'. specialize (V f Hf z Hz). lia.
Qed.
Lemma as_obj_triangles pts faces : file_triangles (as_obj (pts, faces)) = model_triangles pts faces.
Proof.
  unfold file_triangles, model_triangles, as_obj. cbn [ob_pts ob_faces fst snd]. rewrite map_map. apply map_ext. intros f.
  rewrite map_map. apply map_ext. intros c. now rewrite Nat2Z.id.
Qed.
Lemma as_obj_valid pts (faces : list (list nat)) :
  (forall f, In f faces -> length f = 3 /\ forall c, In c f -> c < length pts) -> valid_faces (as_obj (F := R) (pts, faces)).
Proof.
  intros V f Hf z Hz. cbn [ob_pts ob_faces as_obj fst snd] in *. apply in_map_iff in Hf as (g & <- & Hg). apply in_map_iff in Hz as (c & <- & Hc).
  apply (proj2 (V g Hg)) in Hc. lia.
Qed.
Lemma merge_faces {F} (ms : list (obj F)) : forall acc f, In f (ob_faces (merge_from acc ms)) ->
  In f (ob_faces acc) \/ exists m g k, In m ms /\ In g (ob_faces m) /\ f = map (Z.add k) g.
Proof.
  induction ms as [|m ms IH]; intros acc f; cbn [merge_from]; auto. intros Hin. apply IH in Hin as [Hin|(m' & g & k & A & B & C)].
  - cbn [ob_faces] in Hin. apply in_app_iff in Hin as [Hin|Hin]; auto. right. apply in_map_iff in Hin as (g & <- & Hg).
    exists m, g, (Z.of_nat (length (ob_pts acc))). split; [now left|auto].
  - right. exists m', g, k. split; [now right|auto].
Qed.

Section Several.
  Variables (os : list (obj R)) (ms : list (list (list R) * list (list nat))).
  Notation h := (1 / 10 ^ 8)%R.
  Hypothesis Hos : forall o, In o os -> shaped o /\ valid_faces o.
  Hypothesis Hms : Forall2 (fun o m => holds h [o] (fst m) (snd m)) os ms.
  Let O := merge_models (map (@as_obj R) ms).

  Lemma ms_in m : In m ms -> exists o, In o os /\ holds h [o] (fst m) (snd m).
  Proof. intros Hm. exact (Forall2_in_r _ Hms Hm). Qed.
  Lemma merged : ob_pts O = flat_map fst ms /\ file_triangles O = flat_map (fun m => model_triangles (fst m) (snd m)) ms
    /\ valid_faces O /\ shaped O.
  Proof.
    assert (V : forall m, In m (map (@as_obj R) ms) -> valid_faces m).
    { intros m Hm. apply in_map_iff in Hm as ((p & f) & <- & Hm). apply ms_in in Hm as (o & _ & Hh). apply as_obj_valid. apply (h_valid Hh). }
    destruct (@merge_ok R (map (@as_obj R) ms) (Obj [] [])) as (A & B & C); auto. { intros f []. }
    fold (merge_models (map (@as_obj R) ms)) in A, B, C. fold O in A, B, C. cbn [ob_pts app] in A.
    assert (A' : ob_pts O = flat_map fst ms).
    { rewrite A. clear. induction ms as [|m l IH]; cbn [map flat_map]; auto. now rewrite IH. }
    split; auto. split; [|split; auto].
    - apply map_map_Some_inj. rewrite <- triangles_some by auto. rewrite B. cbn [TextSpec.triangles ob_faces map app].
      clear -V. induction ms as [|m l IH]; cbn [map flat_map]; auto. rewrite map_app, IH by (intros; apply V; now right).
      rewrite triangles_some by (apply V; now left). destruct m as (p, f). rewrite as_obj_triangles. reflexivity.
    - split.
      + rewrite A'. intros p Hp. apply in_flat_map in Hp as (m & Hm & Hp). destruct (ms_in _ Hm) as (o & Ho & Hh).
        destruct (h_points Hh _ Hp) as (o' & [<-|[]] & Hp'). now apply (proj1 (Hos _ Ho)).
      + intros f Hf. apply merge_faces in Hf as [[]|(m & g & k & Hm & Hg & ->)]. apply in_map_iff in Hm as ((p & fs) & <- & Hm).
        cbn [ob_faces as_obj snd] in Hg. apply in_map_iff in Hg as (f & <- & Hf). rewrite !map_length.
        destruct (ms_in _ Hm) as (o & _ & Hh). now apply (h_valid Hh).
  Qed.

  Lemma h_pos : (0 <= h)%R.
  Proof. lra. Qed.
  Lemma stage1 : exists kept lost, Permutation (flat_map file_triangles os) (kept ++ lost)
    /\ Forall2 (Forall2 (near h)) kept (flat_map (fun m => model_triangles (fst m) (snd m)) ms)
    /\ forall t, In t lost -> exists o q, In o os /\ In q (ob_pts o) /\ shrinks h q t.
  Proof.
    clear Hos. clear O. induction Hms as [|o m os' ms' Hm F IH].
    - exists [], []. split; [constructor|]. split; [constructor|intros ? []].
    - destruct (IH F) as (k2 & l2 & P2 & F2 & L2). destruct (h_triangles Hm) as (k1 & l1 & P1 & F1 & L1).
      cbn [flat_map] in P1. rewrite app_nil_r in P1. exists (k1 ++ k2), (l1 ++ l2). cbn [flat_map]. split; [|split].
      + rewrite P1, P2. rewrite <- !app_assoc. apply Permutation_app_head. rewrite !app_assoc. apply Permutation_app_tail. apply Permutation_app_comm.
      + now apply Forall2_app.
      + intros t Ht. apply in_app_iff in Ht as [Ht|Ht].
        * destruct (L1 t Ht) as (o' & q & [<-|[]] & Hq & S). exists o, q. split; [now left|auto].
        * destruct (L2 t Ht) as (o' & q & Ho & Hq & S). exists o', q. split; [now right|auto].
  Qed.

  Lemma back p : In p (ob_pts O) -> exists o, In o os /\ In p (ob_pts o).
  Proof.
    destruct merged as (-> & _). intros Hp. apply in_flat_map in Hp as (m & Hm & Hp). destruct (ms_in _ Hm) as (o & Ho & Hh).
    destruct (h_points Hh _ Hp) as (o' & [<-|[]] & Hp'). exists o. auto.
  Qed.

  Lemma several_holds pts faces : holds h [O] pts faces -> holds (2 / 10 ^ 8) os pts faces.
  Proof.
    intros Hh. pose proof h_pos as H0. assert (E2 : (2 / 10 ^ 8 = h + h)%R) by lra. destruct merged as (MP & MT & MV & MS). constructor.
    - intros p Hp. destruct (h_points Hh _ Hp) as (o & [<-|[]] & Hp'). now apply back.
    - apply (h_apart Hh).
    - intros o p Ho Hp. destruct (Forall2_in_l _ Hms Ho) as (m & Hm & Hm1).
      destruct (h_near Hm1 _ _ (or_introl eq_refl) Hp) as (q & Hq & Nq).
      assert (HqO : In q (ob_pts O)) by (rewrite MP; apply in_flat_map; eauto).
      destruct (h_near Hh _ _ (or_introl eq_refl) HqO) as (r & Hr & Nr). exists r. split; auto. rewrite E2. eapply near_trans; eauto.
    - apply (h_valid Hh).
    - destruct stage1 as (k1 & l1 & P1 & F1 & L1). destruct (h_triangles Hh) as (k2 & l2 & P2 & F2 & L2).
      cbn [flat_map] in P2. rewrite app_nil_r, MT in P2.
      destruct (Forall2_perm F1 P2) as (k' & Pk & Fk). apply Forall2_app_inv_r in Fk as (ka & kb & Fa & Fb & ->).
      exists ka, (kb ++ l1). split; [|split].
      + rewrite P1, Pk. now rewrite <- app_assoc.
      + eapply Forall2_comp; [|exact Fa|exact F2]. intros a b c A B. cbn beta in *. eapply Forall2_comp; [|exact A|exact B].
        intros x y z X Y. cbn beta in *. rewrite E2. eapply near_trans; eauto.
      + intros t Ht. apply in_app_iff in Ht as [Ht|Ht].
        * destruct (Forall2_in_l _ Fb Ht) as (t' & Ht' & N). destruct (L2 _ Ht') as (o & q & [<-|[]] & Hq & (i & j & Hij & Ni & Nj)).
          destruct (back _ Hq) as (o & Ho & Hqo). exists o, q. split; auto. split; auto. exists i, j.
          pose proof (Forall2_len N) as Lt. rewrite Lt. split; auto. rewrite E2.
          split; (eapply near_trans; [| |apply (Forall2_nth_ (R := near h)); [exact N|lia]|eassumption]; auto).
        * destruct (L1 _ Ht) as (o & q & Ho & Hq & (i & j & Hij & Ni & Nj)). exists o, q. split; auto. split; auto. exists i, j. split; auto.
          split; (eapply near_mono; [|eassumption]; lra).
    - intros ND. apply (h_proper Hh). intros o f [<-|[]] Hf. apply merge_faces in Hf as [[]|(m & g & k & Hm & Hg & ->)].
      apply in_map_iff in Hm as ((p & fs) & <- & Hm). cbn [ob_faces as_obj snd] in Hg. apply in_map_iff in Hg as (f & <- & Hf).
      destruct (ms_in _ Hm) as (o & Ho & Hm1). cbn [fst snd] in Hm1.
      assert (N : NoDup f) by (apply (h_proper Hm1); auto; intros o' f' [<-|[]]; apply ND; auto).
      rewrite map_map. apply map_nodup_in; auto. intros x y _ _. lia.
  Qed.
End Several.

Lemma read_input_ok io ti need file (o : obj R) : read_obj io ti file = Ok o -> valid_faces o ->
  exists pts faces, read_input_obj_file io ti need file = Ok (pts, faces) /\ holds (1 / 10 ^ 8) [o] pts faces.
Proof.
  intros E V. unfold read_input_obj_file. rewrite E. cbn [bind]. rewrite faces_of_ok by auto. cbn [bind].
  apply weld_holds; auto. eapply read_shaped; eauto.
Qed.
Lemma read_all_ok io ti need files (os : list (obj R)) :
  Forall2 (fun file o => read_obj io ti file = Ok o /\ valid_faces o) files os ->
  exists ms, map_res (read_input_obj_file io ti need) files = Ok ms
    /\ Forall2 (fun o m => holds (1 / 10 ^ 8) [o] (fst m) (snd m)) os ms.
Proof.
  induction 1 as [|file o files os (E & V) F (ms & IH & G)]; cbn [map_res].
  - exists []. split; [reflexivity|constructor].
  - destruct (@read_input_ok io ti need file o E V) as (p & f & Er & Hh). rewrite Er, IH. cbn [bind].
    exists ((p, f) :: ms). split; auto.
Qed.
Lemma input_several io ti need files (os : list (obj R)) : 2 <= length files ->
  Forall2 (fun file o => read_obj io ti file = Ok o /\ valid_faces o) files os ->
  plain_io io -> reads_numbers io ti ->
  (Z.of_nat (length (flat_map (@ob_pts R) os)) < 2 ^ 53)%Z ->
  exists pts faces file, input_model io ti need files = Ok (pts, faces, Some file)
    /\ holds (2 / 10 ^ 8) os pts faces
    /\ read_obj io ti file = Ok (Obj (map (map (reread io)) pts) (map (map Z.of_nat) faces)).
Proof.
  intros L F P N B. destruct (@read_all_ok io ti need files os F) as (ms & Em & Hm).
  assert (Hos : forall o, In o os -> shaped o /\ valid_faces o).
  { intros o Ho. destruct (Forall2_in_r _ F Ho) as (file & _ & E & V). split; auto. eapply read_shaped; eauto. }
  destruct (@merged os ms Hos Hm) as (MP & MT & MV & MS).
  destruct (@weld_holds need (merge_models (map (@as_obj R) ms)) MS MV) as (pts & faces & Ew & Hw).
  pose proof (@several_holds os ms Hos Hm pts faces Hw) as Hh.
  assert (Lp : length pts <= length (flat_map (@ob_pts R) os)).
  { apply NoDup_incl_length.
    - apply (NoDup_nth pts []). intros i j Hi Hj E. destruct (Nat.eq_dec i j) as [|D]; auto. exfalso.
      pose proof (h_apart Hh Hi Hj D) as A. rewrite E, vdist_self in A. lra.
    - intros p Hp. destruct (h_points Hh _ Hp) as (o & Ho & Hpo). apply in_flat_map. eauto. }
  destruct (@obj_roundtrip R io ti (as_obj (pts, faces)) P N) as (file & Es & Er).
  { cbn [as_obj ob_pts fst]. intros p Hp. destruct (h_points Hh _ Hp) as (o & Ho & Hpo). now apply (proj1 (Hos o Ho)). }
  { cbn [as_obj ob_faces snd]. intros f Hf. apply in_map_iff in Hf as (g & <- & Hg). rewrite map_length.
    destruct (h_valid Hh _ Hg) as (A & C). split; auto. intros z Hz. apply in_map_iff in Hz as (c & <- & Hc). apply C in Hc. lia. }
  exists pts, faces, file. split; [|split; auto].
  destruct files as [|f1 [|f2 rest]]; try (simpl in L; lia). unfold input_model.
  rewrite Em. cbn [bind]. rewrite faces_of_ok by auto. cbn [bind]. rewrite Ew. cbn [bind]. rewrite Es. reflexivity.
Qed.
