(** Proofs about the object MeshingSmartTree (SmartTree.v). *)
From Verif Require Import Base Num MemoryHandler KdTree SamplingSpec SamplingProofs Vec KdSpec
  KdTreeProofs KdBuildProofs KdQueryProofs KdSpokeProofs KdReenumProofs SmartTree SmartTreeSpec.
From Coq Require Import Reals Lra.
Local Open Scope R_scope.

Definition rows (nd : nat) (pts : list (list R)) : Prop := forall p, In p pts -> (nd <= length p)%nat.

Lemma row_crd_ok nd pts i d : rows nd pts -> (i < length pts)%nat -> (d < nd)%nat ->
  row_crd pts i d = Ok (coord pts i d).
Proof.
  intros Hr Hi Hd. unfold row_crd, coord. destruct (nth_error_lt pts Hi) as [p Hp].
  rewrite (get_some Hp). cbn [bind]. rewrite (nth_error_nth pts i [] Hp).
  destruct (nth_error_lt p (i:=d)) as [a Ha].
  - specialize (Hr p (nth_error_In _ _ Hp)). lia.
  - rewrite (get_some Ha). now rewrite (nth_error_nth p d 0 Ha).
Qed.

Lemma zip_box_ok (f : R -> R -> R) b x : (length b <= length x)%nat -> exists r, zip_box f b x = Ok r
  /\ length r = length b /\ forall d, (d < length b)%nat -> nth d r 0 = f (nth d b 0) (nth d x 0).
Proof.
  revert x; induction b as [|b0 b IH]; destruct x as [|x0 x]; simpl; intros L; try lia.
  - exists []. split; auto. split; auto. intros; lia.
  - exists []. split; auto. split; auto. intros; lia.
  - destruct (IH x) as (r & E & L' & H'); [lia|]. rewrite E. cbn [bind]. eexists. split; [reflexivity|].
    split; [simpl; lia|]. intros [|d] Hd; simpl; auto. apply H'. lia.
Qed.

Lemma ordered_ext {F} (ltb : F -> F -> bool) P Q nd d t :
  (0 < nd)%nat ->
  (forall i k, In i (elements t) -> (k < nd)%nat -> P i k = Q i k) ->
  ordered ltb P nd d t -> ordered ltb Q nd d t.
Proof.
  intros nd_pos. revert d. induction t as [|i l IHl r IHr]; [simpl; auto|].
  cbn [ordered elements]. intros d H (Ol & Or & Tl & Tr).
  assert (Hd : (d mod nd < nd)%nat) by (apply Nat.mod_upper_bound; lia).
  split; [|split; [|split]].
  - intros j Hj. rewrite <- (H i), <- (H j); auto; [right; apply in_or_app; auto|left; auto].
  - intros j Hj. rewrite <- (H i), <- (H j); auto; [right; apply in_or_app; auto|left; auto].
  - apply IHl; auto. intros; apply H; auto. right; apply in_or_app; auto.
  - apply IHr; auto. intros; apply H; auto. right; apply in_or_app; auto.
Qed.

Lemma kd_tree_ext {F} (ltb : F -> F -> bool) P Q nd n lf rt root t :
  (0 < nd)%nat ->
  (forall i k, (i < n)%nat -> (k < nd)%nat -> P i k = Q i k) ->
  kd_tree ltb P nd n lf rt root t -> kd_tree ltb Q nd n lf rt root t.
Proof.
  intros nd_pos H (L1 & L2 & R & Rep & Perm & Ord).
  split; auto. split; auto. split; auto. split; auto. split; auto.
  eapply ordered_ext; [auto| |exact Ord]. intros i k Hi. apply H.
  apply (Permutation_in _ Perm), in_seq in Hi. lia.
Qed.

Lemma nth_map_lt {A B} (f : A -> B) l i da db : (i < length l)%nat -> nth i (map f l) db = f (nth i l da).
Proof. revert i; induction l as [|a l IH]; destruct i; simpl; intros; auto; try lia. apply IH. lia. Qed.

Lemma nth_repeat_lt {A} (a d : A) n i : (i < n)%nat -> nth i (repeat a n) d = a.
Proof. revert i; induction n as [|n IH]; destruct i; simpl; intros; auto; try lia. apply IH. lia. Qed.

Section Object.
  Variable nd : nat.
  Hypothesis nd_pos : (0 < nd)%nat.

  (** Everything but the bounding box. *)
  Record inv (s : stree R) (l : list item) : Prop := {
    inv_nd : st_nd s = nd;
    inv_holds : holds s l;
    inv_rows : rows nd (st_pts s);
    inv_cap : (length (st_pts s) < st_cap s)%nat;
    inv_tree : valid_tree s
  }.

  Lemma inv_len s l : holds s l -> length (st_pts s) = length l.
  Proof. intros (-> & _). apply map_length. Qed.

  Lemma st_build_ok s : rows nd (st_pts s) -> st_nd s = nd -> (0 < length (st_pts s))%nat ->
    exists lk o h, st_build s = Ok (ST nd (st_cap s) (st_pts s) (st_nrm s) (st_att s) lk o h (st_min s) (st_max s))
      /\ valid_tree (ST nd (st_cap s) (st_pts s) (st_nrm s) (st_att s) lk o h (st_min s) (st_max s)).
  Proof.
    intros Hr End Hn. unfold st_build, st_n. rewrite End.
    destruct (@build_ok R Rltb Rltb_sw (coord (st_pts s)) nd nd_pos (row_crd (st_pts s)) (length (st_pts s)))
      with (rf := false) as (lf & rt & root & h & t & E & K & Hh & _); auto.
    { intros. apply row_crd_ok with nd; auto. }
    change (@nltb R RNum) with Rltb. rewrite E. cbn [bind].
    exists (lf, rt), root, h. split; [reflexivity|]. exists t. split; auto.
  Qed.

  Lemma copy_normal_ok nv : (forall l, nv = Some l -> (nd <= length l)%nat) ->
    copy_normal nd nv = Ok (match nv with None => repeat 0 nd | Some l => firstn nd l end).
  Proof.
    intros H. unfold copy_normal. destruct nv as [l|]; auto.
    specialize (H l eq_refl). apply Nat.leb_le in H. now rewrite H.
  Qed.
  Lemma copy_attrib_ok (av : option (list nat)) : (forall l, av = Some l -> l <> [] /\ (hd 0 l <= length l)%nat) ->
    copy_attrib av = Ok (match av with None => None | Some l => Some (firstn (hd 0%nat l) l) end).
  Proof.
    intros H. unfold copy_attrib. destruct av as [l|]; auto.
    destruct (H l eq_refl) as [H1 H2]. destruct l as [|a l]; [congruence|].
    cbn [get nth_error bind hd] in *. apply Nat.leb_le in H2. unfold get. cbn [nth_error bind].
    now rewrite H2.
  Qed.

  Lemma partial_extend pts x lf rt root t : rows nd pts -> (nd <= length x)%nat ->
    kd_tree Rltb (coord pts) nd (length pts) lf rt root t ->
    partial Rltb (coord (pts ++ [x])) nd (S (length pts)) (lf ++ [length pts]) (rt ++ [length pts]) t.
  Proof.
    intros Hr Hx (L1 & L2 & _ & Rep & Perm & Ord).
    assert (Hin : forall i, In i (elements t) <-> (i < length pts)%nat).
    { intros i. split; intros Hi.
      - apply (Permutation_in _ Perm), in_seq in Hi. lia.
      - apply (Permutation_in _ (Permutation_sym Perm)), in_seq. lia. }
    split.
    - rewrite app_length; simpl; lia.
    - rewrite app_length; simpl; lia.
    - eapply represents_frame; [|exact Rep]. intros i Hi. apply Hin in Hi.
      rewrite !nth_error_app1 by lia. auto.
    - eapply Permutation_NoDup; [symmetry; exact Perm|apply seq_NoDup].
    - intros i Hi. apply Hin in Hi. lia.
    - intros i Hi Hn. assert (i = length pts) by (rewrite Hin in Hn; lia). subst i.
      rewrite !nth_error_app2 by lia. replace (length pts - length lf)%nat with 0%nat by lia.
      replace (length pts - length rt)%nat with 0%nat by lia. auto.
    - eapply ordered_ext; [exact nd_pos| |exact Ord]. intros i k Hi Hk. apply Hin in Hi.
      unfold coord. now rewrite app_nth1 by lia.
  Qed.

  Lemma add_first need x nv av s : st_nd s = nd -> st_pts s = [] -> length (st_min s) = nd -> length (st_max s) = nd ->
    good_args nd x nv av ->
    exists s', add_point need s x nv av = Ok s' /\ inv s' [item_of nd x nv av]
      /\ zip_box nmin (st_min s) x = Ok (st_min s') /\ zip_box nmax (st_max s) x = Ok (st_max s').
  Proof.
    intros End Ep Lm LM (Hx & Hnv & Hav). unfold add_point. rewrite End.
    destruct (@zip_box_ok nmin (st_min s) x) as (mn & E1 & _); [lia|].
    destruct (@zip_box_ok nmax (st_max s) x) as (mx & E2 & _); [lia|].
    rewrite E1, E2. cbn [bind]. rewrite (copy_normal_ok Hnv), (copy_attrib_ok Hav). cbn [bind].
    unfold st_n. rewrite Ep. cbn [length Nat.eqb]. eexists. split; [reflexivity|].
    split; [|split; auto].
    split; cbn [st_nd st_pts st_cap]; auto.
    - split; [|split]; reflexivity.
    - intros p [<-|[]]; auto.
    - simpl. lia.
    - exists (Node 0 Leaf Leaf). cbn [st_pts st_nd st_lk st_org st_h fst snd length]. split; [|reflexivity].
      split; auto. split; auto. split; [eauto|]. split; [simpl; auto|]. split; [simpl; auto|].
      cbn [ordered elements]. split; [intros j []|]. split; [intros j []|]. split; exact I.
  Qed.

  Lemma add_next need x nv av s l : inv s l -> l <> [] -> length (st_min s) = nd -> length (st_max s) = nd ->
    good_args nd x nv av ->
    exists s', add_point need s x nv av = Ok s' /\ inv s' (l ++ [item_of nd x nv av])
      /\ zip_box nmin (st_min s) x = Ok (st_min s') /\ zip_box nmax (st_max s) x = Ok (st_max s').
  Proof.
    intros [End Hh Hr Hc (t & K & Ht)] Hl Lm LM (Hx & Hnv & Hav). unfold add_point. rewrite End.
    destruct (@zip_box_ok nmin (st_min s) x) as (mn & E1 & _); [lia|].
    destruct (@zip_box_ok nmax (st_max s) x) as (mx & E2 & _); [lia|].
    rewrite E1, E2. cbn [bind]. rewrite (copy_normal_ok Hnv), (copy_attrib_ok Hav). cbn [bind].
    pose proof (inv_len Hh) as Ln. destruct Hh as (Hp & Hnr & Hat).
    unfold st_n. assert (Hpos : (0 < length (st_pts s))%nat) by (rewrite Ln; destruct l; simpl; [congruence|lia]).
    destruct (length (st_pts s) =? 0)%nat eqn:E0; [apply Nat.eqb_eq in E0; lia|].
    rewrite Hnr, Hat. destruct (length (st_pts s) <? st_cap s)%nat eqn:Ec; [|apply Nat.ltb_ge in Ec; lia].
    destruct (st_lk s) as [lf rt] eqn:Elk. cbn [fst snd] in K. rewrite End in K.
    set (n := length (st_pts s)) in *.
    pose proof (@partial_extend _ _ _ _ _ _ Hr Hx K) as Pt. fold n in Pt.
    destruct K as (L1 & L2 & (a & b & ->) & Rep & Perm & Ord).
    assert (Hnin : ~ In n (elements (Node (st_org s) a b))).
    { intros Hi. apply (Permutation_in _ Perm), in_seq in Hi. lia. }
    assert (Hr' : rows nd (st_pts s ++ [x])).
    { intros p Hp'. apply in_app_or in Hp' as [Hp'|[<-|[]]]; auto. }
    assert (Ln' : length (st_pts s ++ [x]) = S n) by (rewrite app_length; simpl; unfold n; lia).
    destruct (@kd_add_point_ok R Rltb (coord (st_pts s ++ [x])) nd nd_pos (row_crd (st_pts s ++ [x])) (S n))
      with (lf := lf ++ [n]) (rt := rt ++ [n]) (s := n) (i := st_org s) (l := a) (r := b) (height0 := st_h s)
      as (lf' & rt' & E & Pt'); auto.
    { intros i d Hi Hd. apply row_crd_ok with nd; auto. lia. }
    change (@nltb R RNum) with Rltb. rewrite E. cbn [bind].
    set (h' := Nat.max (st_h s) _).
    set (cap' := if (S n =? st_cap s)%nat then (st_cap s * 2)%nat else st_cap s).
    set (s1 := ST nd cap' (st_pts s ++ [x]) _ _ (lf', rt') (st_org s) h' mn mx).
    assert (Hcap : (S n < cap')%nat).
    { unfold cap'. apply Nat.ltb_lt in Ec. destruct (S n =? st_cap s)%nat eqn:E'.
      - apply Nat.eqb_eq in E'. lia.
      - apply Nat.eqb_neq in E'. lia. }
    assert (Hh1 : holds s1 (l ++ [item_of nd x nv av])).
    { unfold s1, holds. cbn [st_pts st_nrm st_att]. rewrite !map_app. rewrite Hp. auto. }
    assert (V1 : valid_tree s1).
    { exists (insert Rltb (coord (st_pts s ++ [x])) nd n 0 (Node (st_org s) a b)).
      unfold s1. cbn [st_pts st_nd st_lk st_org st_h fst snd]. rewrite Ln'. split.
      - destruct Pt' as [Q1 Q2 Q3 Q4 Q5 Q6 Q7]. split; auto. split; auto. split; [|split; auto; split; auto].
        + cbn [insert]. destruct (Rltb _ _); eauto.
        + rewrite insert_elements, Perm, seq_S. rewrite Nat.add_0_l. apply Permutation_cons_append.
      - rewrite insert_height by auto. unfold h'. rewrite <- Ht. lia. }
    destruct (need h' (S n)) eqn:En.
    - destruct (@st_build_ok s1) as (lk2 & o2 & h2 & E3 & V2); auto.
      { unfold s1. cbn [st_pts]. lia. }
      rewrite E3. eexists. split; [reflexivity|]. split; [|split; auto].
      split; auto. unfold s1. cbn [st_pts st_cap]. lia.
    - eexists. split; [reflexivity|]. split; [|split; auto].
      split; auto. unfold s1. cbn [st_pts st_cap]. lia.
  Qed.

  Lemma map_reindex {A B} (f : A -> B) (l : list A) (o : list nat) (da : A) (db : B) :
    (forall c, In c o -> (c < length l)%nat) ->
    map (fun c => nth c (map f l) db) o = map f (map (fun c => nth c l da) o).
  Proof.
    intros H. rewrite map_map. apply map_ext_in. intros c Hc.
    rewrite nth_indep with (d' := f da) by (rewrite map_length; auto). now rewrite map_nth.
  Qed.

  Lemma map_nth_seq {A} (l : list A) d : map (fun c => nth c l d) (seq 0 (length l)) = l.
  Proof.
    induction l as [|a l IH]; simpl; auto. f_equal. rewrite <- seq_shift, map_map.
    exact IH.
  Qed.

  Lemma reenumerate_ok s l : inv s l -> l <> [] ->
    exists s' l', st_reenumerate s = Ok s' /\ inv s' l' /\ Permutation l' l
      /\ st_min s' = st_min s /\ st_max s' = st_max s /\ st_org s' = 0%nat
      /\ (exists t', kd_tree Rltb (coord (st_pts s')) nd (length (st_pts s')) (fst (st_lk s')) (snd (st_lk s')) 0 t'
            /\ elements t' = seq 0 (length (st_pts s'))).
  Proof.
    intros [End Hh Hr Hc (t & K & Ht)] Hl. pose proof (inv_len Hh) as Ln. destruct Hh as (Hp & Hnr & Hat).
    unfold st_reenumerate, st_n. rewrite Hnr, Hat, End.
    destruct (st_lk s) as [lf rt] eqn:Elk. cbn [fst snd] in K. rewrite End in K.
    set (n := length (st_pts s)) in *.
    destruct (@re_enumerate_ok _ _ _ _ _ _ _ _ _ K) as (lf' & rt' & t' & E & K' & El & Eh).
    rewrite E. cbn [bind].
    assert (Perm : Permutation (elements t) (seq 0 n)) by apply K.
    pose proof (Permutation_length Perm) as Lo. rewrite seq_length in Lo.
    assert (Hin : forall c, In c (elements t) -> (c < n)%nat).
    { intros c Hi. apply (Permutation_in _ Perm), in_seq in Hi. lia. }
    rewrite firstn_all2 by lia.
    rewrite (@gather_ok _ (st_pts s) []) by auto. cbn [bind].
    rewrite (@gather_ok _ (map it_n l) []) by (rewrite map_length, <- Ln; auto). cbn [bind].
    rewrite (@gather_ok _ (map it_a l) None) by (rewrite map_length, <- Ln; auto). cbn [bind].
    set (l' := map (fun c => nth c l (It [] [] None)) (elements t)).
    assert (EP : map (fun c => nth c (st_pts s) []) (elements t) = map it_x l').
    { rewrite Hp. apply map_reindex. rewrite <- Ln. auto. }
    assert (Hl' : Permutation l' l).
    { unfold l'. rewrite Perm. rewrite Ln. now rewrite map_nth_seq. }
    assert (Ln' : length l' = n) by (unfold l'; rewrite map_length; auto).
    eexists. exists l'. split; [reflexivity|].
    assert (K2 : kd_tree Rltb (coord (map (fun c => nth c (st_pts s) []) (elements t))) nd n lf' rt' 0 t').
    { eapply kd_tree_ext; [auto| |exact K']. intros i k Hi Hk. unfold coord.
      rewrite (@nth_map_lt _ _ (fun c => nth c (st_pts s) []) (elements t) i 0%nat []) by lia. reflexivity. }
    assert (LP : length (map (fun c => nth c (st_pts s) []) (elements t)) = n) by (rewrite map_length; auto).
    split; [|split; [auto|split; [auto|split; [auto|split; [auto|]]]]].
    - split; cbn [st_nd st_pts st_cap]; auto.
      + split; [|split]; cbn [st_pts st_nrm st_att].
        * exact EP.
        * f_equal. apply map_reindex. rewrite <- Ln. auto.
        * f_equal. apply map_reindex. rewrite <- Ln. auto.
      + intros p Hp'. apply in_map_iff in Hp' as (c & <- & Hc'). apply Hr. apply nth_In. auto.
      + lia.
      + exists t'. cbn [st_pts st_nd st_lk st_org st_h fst snd]. rewrite LP. split; [exact K2|lia].
    - cbn [st_pts st_lk fst snd]. rewrite LP. exists t'. auto.
  Qed.

  (** The bounding box. *)
  Definition box_inv (s : stree R) (l : list item) : Prop :=
    length (st_min s) = nd /\ length (st_max s) = nd /\
    forall d, (d < nd)%nat ->
      (forall a, In a l -> nth d (st_min s) 0 <= nth d (it_x a) 0 <= nth d (st_max s) 0)
      /\ (nth d (st_min s) 0 = dbl_max \/ exists a, In a l /\ nth d (it_x a) 0 = nth d (st_min s) 0)
      /\ (nth d (st_max s) 0 = - dbl_max \/ exists a, In a l /\ nth d (it_x a) 0 = nth d (st_max s) 0).

  Lemma box_perm s s' l l' : st_min s' = st_min s -> st_max s' = st_max s -> Permutation l' l ->
    box_inv s l -> box_inv s' l'.
  Proof.
    intros E1 E2 Pm (L1 & L2 & H). unfold box_inv. rewrite E1, E2. split; auto. split; auto.
    intros d Hd. destruct (H d Hd) as (H1 & H2 & H3). split; [|split].
    - intros a Ha. apply H1. eapply Permutation_in; eauto.
    - destruct H2 as [|(a & Ha & ?)]; auto. right. exists a. split; auto.
      eapply Permutation_in; [symmetry|]; eauto.
    - destruct H3 as [|(a & Ha & ?)]; auto. right. exists a. split; auto.
      eapply Permutation_in; [symmetry|]; eauto.
  Qed.

  Lemma box_add s s' l it : (nd <= length (it_x it))%nat -> box_inv s l ->
    zip_box nmin (st_min s) (it_x it) = Ok (st_min s') -> zip_box nmax (st_max s) (it_x it) = Ok (st_max s') ->
    box_inv s' (l ++ [it]).
  Proof.
    intros Hx (L1 & L2 & H) E1 E2.
    destruct (@zip_box_ok nmin (st_min s) (it_x it)) as (mn & E1' & L1' & H1'); [lia|].
    destruct (@zip_box_ok nmax (st_max s) (it_x it)) as (mx & E2' & L2' & H2'); [lia|].
    assert (mn = st_min s') by congruence. assert (mx = st_max s') by congruence. subst mn mx.
    split; [lia|]. split; [lia|]. intros d Hd. destruct (H d Hd) as (Ha & Hb & Hc).
    rewrite (H1' d), (H2' d) by lia. rewrite nmin_R, nmax_R. split; [|split].
    - intros a Hi. apply in_app_or in Hi as [Hi|[<-|[]]].
      + specialize (Ha a Hi). split; [eapply Rle_trans; [apply Rmin_l|lra]|eapply Rle_trans; [|apply Rmax_l]; lra].
      + split; [apply Rmin_r|apply Rmax_r].
    - destruct (Rle_dec (nth d (st_min s) 0) (nth d (it_x it) 0)) as [Hle|Hle].
      + rewrite Rmin_left by auto. destruct Hb as [Hb|(a & Hi & ?)]; auto. right. exists a. split; auto. apply in_or_app; auto.
      + rewrite Rmin_right by lra. right. exists it. split; auto. apply in_or_app; simpl; auto.
    - destruct (Rle_dec (nth d (it_x it) 0) (nth d (st_max s) 0)) as [Hle|Hle].
      + rewrite Rmax_left by auto. destruct Hc as [Hc|(a & Hi & ?)]; auto. right. exists a. split; auto. apply in_or_app; auto.
      + rewrite Rmax_right by lra. right. exists it. split; auto. apply in_or_app; simpl; auto.
  Qed.

  Lemma box_exact s l d : l <> [] -> box_inv s l -> (d < nd)%nat ->
    (forall a, In a l -> Rabs (nth d (it_x a) 0) <= dbl_max) ->
    least (nth d (st_min s) 0) (fun a => nth d (it_x a) 0) l
    /\ greatest (nth d (st_max s) 0) (fun a => nth d (it_x a) 0) l.
  Proof.
    intros Hl (L1 & L2 & H) Hd Hb. destruct (H d Hd) as (Ha & Hmin & Hmax).
    assert (exists a0, In a0 l) as (a0 & H0) by (destruct l; [congruence|eexists; left; reflexivity]).
    assert (B : forall a, In a l -> - dbl_max <= nth d (it_x a) 0 <= dbl_max).
    { intros a Hi. specialize (Hb a Hi). unfold Rabs in Hb. destruct (Rcase_abs _) in Hb; lra. }
    specialize (Ha) as Ha'. split; (split; [intros a Hi; apply Ha; auto|]).
    - destruct Hmin as [Hm|?]; auto. exists a0. split; auto. specialize (B a0 H0). specialize (Ha a0 H0). lra.
    - destruct Hmax as [Hm|?]; auto. exists a0. split; auto. specialize (B a0 H0). specialize (Ha a0 H0). lra.
  Qed.

  Definition no_renumber (o : op R) : Prop := match o with OpReenumerate => False | _ => True end.

  Lemma run_ok need ops : forall s l, inv s l -> l <> [] -> box_inv s l -> Forall (good_op nd) ops ->
    exists s' l', run need s ops = Ok s' /\ inv s' l' /\ box_inv s' l'
      /\ Permutation l' (l ++ added nd ops)
      /\ (Forall no_renumber ops -> l' = l ++ added nd ops).
  Proof.
    induction ops as [|o ops IH]; intros s l Hs Hl Hb Hg.
    - exists s, l. simpl. rewrite app_nil_r. auto 10.
    - inversion Hg as [|? ? Ho Hg']; subst. cbn [run]. destruct o as [x nv av| |]; cbn [step added].
      + pose proof Hb as (Lm & LM & _).
        destruct (@add_next need x nv av s l Hs Hl Lm LM Ho) as (s1 & E & I1 & Z1 & Z2).
        rewrite E. cbn [bind].
        assert (B1 : box_inv s1 (l ++ [item_of nd x nv av])).
        { eapply box_add; eauto. simpl. exact (proj1 Ho). }
        destruct (IH s1 _ I1) as (s' & l' & E' & I' & B' & Pm & Ex); auto.
        { destruct l; discriminate. }
        exists s', l'. split; auto. split; auto. split; auto.
        rewrite <- app_assoc in Pm, Ex. simpl in Pm, Ex. split; auto.
        intros Hf. inversion Hf; subst. auto.
      + destruct Hs as [End Hh Hr Hc Ht].
        destruct (@st_build_ok s Hr End) as (lk & o & h & E & V).
        { rewrite (inv_len Hh). destruct l; simpl; [congruence|lia]. }
        rewrite E. cbn [bind].
        destruct (IH (ST nd (st_cap s) (st_pts s) (st_nrm s) (st_att s) lk o h (st_min s) (st_max s)) l)
          as (s' & l' & E' & I' & B' & Pm & Ex); auto.
        { split; auto. }
        exists s', l'. split; auto. split; auto. split; auto. split; auto.
        intros Hf. inversion Hf; subst. auto.
      + destruct (@reenumerate_ok s l Hs Hl) as (s1 & l1 & E & I1 & P1 & M1 & M2 & _).
        rewrite E. cbn [bind].
        destruct (IH s1 l1) as (s' & l' & E' & I' & B' & Pm & Ex); auto.
        { intros ->. apply Permutation_nil in P1. congruence. }
        { eapply box_perm; eauto. }
        exists s', l'. split; auto. split; auto. split; auto. split.
        * rewrite Pm. now rewrite P1.
        * intros Hf. inversion Hf; subst. contradiction.
  Qed.

  (** From a new object: any first insertion, then anything. *)
  Lemma history_ok need x nv av ops :
    good_args nd x nv av -> Forall (good_op nd) ops ->
    exists s l, run need (st_new nd) (OpAdd x nv av :: ops) = Ok s /\ inv s l /\ box_inv s l
      /\ Permutation l (added nd (OpAdd x nv av :: ops))
      /\ (Forall no_renumber ops -> l = added nd (OpAdd x nv av :: ops)).
  Proof.
    intros Hg Hops. cbn [run step].
    destruct (@add_first need x nv av (st_new nd)) as (s1 & E & I1 & Z1 & Z2);
      try apply repeat_length; auto.
    rewrite E. cbn [bind].
    assert (B0 : box_inv (st_new nd) []).
    { split; [apply repeat_length|]. split; [apply repeat_length|]. intros d Hd.
      split; [intros a []|]. cbn [st_min st_max st_new]. rewrite !nth_repeat_lt by auto. auto. }
    destruct (@run_ok need ops s1 [item_of nd x nv av] I1) as (s' & l' & E' & I' & B' & Pm & Ex); auto.
    - discriminate.
    - change [item_of nd x nv av] with ([] ++ [item_of nd x nv av]). eapply box_add; eauto. exact (proj1 Hg).
    - exists s', l'. auto 10.
  Qed.

  (** Constructor from an array of points. *)
  Lemma of_points_ok pts : rows nd pts -> pts <> [] ->
    exists s, st_of_points nd pts = Ok s /\ st_nd s = nd /\ st_pts s = pts /\ valid_tree s
      /\ box_inv s (map (fun p => It p [] None) pts).
  Proof.
    intros Hr Hp. unfold st_of_points.
    assert (G : forall (f : R -> R -> R) ps b, length b = nd -> rows nd ps ->
      exists r, (fix go b l := match l with [] => Ok b | p :: t => b1 <- zip_box f b p ;; go b1 t end) b ps = Ok r
        /\ length r = nd).
    { induction ps as [|p ps IH]; intros b Lb Hrp.
      - exists b. auto.
      - destruct (@zip_box_ok f b p) as (b1 & E & L1 & _); [specialize (Hrp p (or_introl eq_refl)); lia|].
        rewrite E. cbn [bind]. apply IH; [lia|]. intros q Hq. apply Hrp. right; auto. }
    assert (B : forall ps l s, rows nd ps -> box_inv s l ->
       forall mn mx, (fix go b l := match l with [] => Ok b | p :: t => b1 <- zip_box nmin b p ;; go b1 t end) (st_min s) ps = Ok mn ->
        (fix go b l := match l with [] => Ok b | p :: t => b1 <- zip_box nmax b p ;; go b1 t end) (st_max s) ps = Ok mx ->
        box_inv (ST nd 0 [] None None ([], []) 0 0 mn mx) (l ++ map (fun p => It p [] None) ps)).
    { induction ps as [|p ps IH]; intros l s Hrp Hb mn mx E1 E2.
      - injection E1 as <-. injection E2 as <-. simpl. rewrite app_nil_r. exact Hb.
      - destruct Hb as (L1 & L2 & H).
        destruct (@zip_box_ok nmin (st_min s) p) as (b1 & F1 & _); [specialize (Hrp p (or_introl eq_refl)); lia|].
        destruct (@zip_box_ok nmax (st_max s) p) as (b2 & F2 & _); [specialize (Hrp p (or_introl eq_refl)); lia|].
        rewrite F1 in E1. rewrite F2 in E2. cbn [bind] in E1, E2.
        specialize (IH (l ++ [It p [] None]) (ST nd 0 [] None None ([], []) 0 0 b1 b2)).
        rewrite <- app_assoc in IH. apply IH; auto.
        { intros q Hq. apply Hrp. right; auto. }
        eapply (@box_add s); auto.
        { apply Hrp. left; auto. } { split; auto. } }
    destruct (G nmin pts (repeat dbl_max nd)) as (mn & E1 & L1); auto using repeat_length.
    destruct (G nmax pts (repeat (- dbl_max)%num nd)) as (mx & E2 & L2); auto using repeat_length.
    rewrite E1. cbn [bind]. rewrite E2. cbn [bind].
    destruct (@st_build_ok (ST nd (length pts) pts None None ([], []) 0 0 mn mx)) as (lk & o & h & E & V); auto.
    { cbn [st_pts]. destruct pts; simpl; [congruence|lia]. }
    rewrite E. eexists. split; [reflexivity|]. split; auto. split; auto. split; auto.
    cbn [st_min st_max].
    assert (B0 : box_inv (st_new nd) []).
    { split; [apply repeat_length|]. split; [apply repeat_length|]. intros d Hd.
      split; [intros a []|]. cbn [st_min st_max st_new]. rewrite !nth_repeat_lt by auto. auto. }
    exact (B pts [] (st_new nd) Hr B0 mn mx E1 E2).
  Qed.
End Object.
