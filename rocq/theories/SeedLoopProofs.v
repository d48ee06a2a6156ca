(** Proofs about the generation of the surface seeds: all triples, slivers. *)
From Coq Require Import Reals Lra.
From Verif Require Import Base Num Vec KdTree SmartTree KdSpec SmartTreeSpec SmartQueryProofs SmartTreeProofs TreeGrow DenseQR Geometry GeometrySpec GeometryProofs
  Spheres SpheresSpec SpheresProofs SpheresOverlapProofs PropsGeometry SeedPairs SeedPairsSpec SeedPairsProofs SeedCoverProofs SeedRunProofs.
Local Open Scope R_scope.

(** Entries of the sliver list. *)
Lemma record_sliver_in i (r : R) l j q : NoDup (map fst l) ->
  In (j, q) (record_sliver i r l) -> (j <> i /\ In (j, q) l) \/ (j = i /\ q <= r /\ ((q = r) \/ In (j, q) l)).
Proof.
  induction l as [|(j', q') t IH]; intros ND; cbn [record_sliver].
  - intros [[= <- <-]|[]]. right. repeat split; auto; lra.
  - cbn [map fst] in ND. inversion ND; subst. destruct (Nat.eqb_spec j' i) as [->|N]; intros [E|H].
    + injection E as <- <-. right. split; auto. change nltb with Rltb. destruct (Rltb r q') eqn:Er; [apply Rltb_true in Er|apply Rltb_false in Er].
      * split; [lra|auto].
      * split; [lra|right; left; auto].
    + left. split; [|right; auto]. intros ->. apply H1. apply (in_map fst) in H. exact H.
    + injection E as <- <-. left. split; auto. left; auto.
    + destruct (IH H2 H) as [(A & B)|(A & B & [C|C])]; [left; split; auto; right; auto|right; auto|right; repeat split; auto; right; right; auto].
Qed.
Lemma record_sliver_has i (r : R) l : exists q, In (i, q) (record_sliver i r l) /\ q <= r.
Proof.
  induction l as [|(j, q) t (q' & I1 & H)]; cbn [record_sliver]; [exists r; split; [left; auto|lra]|].
  destruct (Nat.eqb_spec j i) as [->|N]; [|exists q'; split; [right; auto|auto]].
  eexists. split; [left; reflexivity|]. change nltb with Rltb. destruct (Rltb r q) eqn:Er; [apply Rltb_true in Er|apply Rltb_false in Er]; lra.
Qed.
Lemma record_sliver_keeps i (r : R) l j q : In (j, q) l -> exists q', In (j, q') (record_sliver i r l) /\ q' <= q.
Proof.
  induction l as [|(j', q0) t IH]; [intros []|]; cbn [record_sliver]. intros [[= -> ->]|H].
  - destruct (Nat.eqb_spec j i) as [->|N]; eexists; (split; [left; reflexivity|]); [|lra].
    change nltb with Rltb. destruct (Rltb r q) eqn:Er; [apply Rltb_true in Er|apply Rltb_false in Er]; lra.
  - destruct (Nat.eqb_spec j' i) as [->|N]; [exists q; split; [right; auto|lra]|].
    destruct (IH H) as (q' & I1 & H'). exists q'. split; [right; auto|auto].
Qed.
Lemma record_sliver_fst i (r : R) l : map fst (record_sliver i r l) = if in_dec Nat.eq_dec i (map fst l) then map fst l else map fst l ++ [i].
Proof.
  induction l as [|(j, q) t IH]; cbn [record_sliver map fst].
  - destruct (in_dec Nat.eq_dec i []) as [[]|_]. reflexivity.
  - destruct (Nat.eqb_spec j i) as [->|N]; cbn [map fst].
    + destruct (in_dec _ i (i :: map fst t)) as [_|X]; [reflexivity|elim X; left; auto].
    + rewrite IH. destruct (in_dec Nat.eq_dec i (map fst t)) as [X|X]; destruct (in_dec Nat.eq_dec i (j :: map fst t)) as [Y|Y]; auto.
      * elim Y. right; auto.
      * destruct Y as [Y|Y]; [congruence|contradiction].
Qed.
Lemma NoDup_snoc {A} (l : list A) x : NoDup l -> ~ In x l -> NoDup (l ++ [x]).
Proof.
  induction l as [|y t IH]; intros ND Hx; [constructor; [intros []|constructor]|]. inversion ND; subst. simpl. constructor.
  - rewrite in_app_iff. simpl. intros [H|[H|[]]]; [contradiction|subst; apply Hx; left; auto].
  - apply IH; auto. intros H. apply Hx. right; auto.
Qed.
Lemma record_sliver_nodup i (r : R) l : NoDup (map fst l) -> NoDup (map fst (record_sliver i r l)).
Proof. intros ND. rewrite record_sliver_fst. destruct (in_dec _ _ _); auto. apply NoDup_snoc; auto. Qed.

Section Run.
  Variable o : oracle R.
  Variables ss es cs : stree R.
  Variable L : R.
  Hypothesis Hss : sphere_set L ss.
  Hypothesis Hes : sphere_set L es.
  Hypothesis Hcs : sphere_set L cs.
  Let all := all_spheres ss es cs.
  Hypothesis Hmod : moderate all.
  Hypothesis HL : 0 <= L < 1.
  Hypothesis Huse : usable all (o_darts o).
  Hypothesis HLe : lipschitz L es.
  Hypothesis HLc : lipschitz L cs.
  Let acc := fun i j k p => accepted ss es cs (o_face o) i j k p
    /\ meeting_pair ss es cs (o_darts o i j k) (o_stale o i j k) (o_face o i) i j k = Ok (Some p).

  (** ** Slivers *)
  Definition good_slivers (l : list (nat * R)) : Prop :=
    NoDup (map fst l) /\ forall m r, In (m, r) l -> (m < count ss)%nat /\ 0 <= r < rad all m.
  Definition weaker (l l' : list (nat * R)) : Prop := forall m r, In (m, r) l -> exists r', In (m, r') l' /\ r' <= r.
  Lemma weaker_refl l : weaker l l. Proof. intros m r H. exists r. split; auto; lra. Qed.
  Lemma weaker_trans a b c : weaker a b -> weaker b c -> weaker a c.
  Proof. intros H1 H2 m r H. destruct (H1 m r H) as (r1 & A & B). destruct (H2 m r1 A) as (r2 & C & D). exists r2. split; auto; lra. Qed.
  Definition res_of (c : list nat) := resolvable all (count ss) (o_pv o c) (o_nrm o c) c.
  Definition rr_of (c : list nat) := resolved_radius all (o_pv o c) (o_nrm o c) c.

  Lemma spheres_at_ok c : (forall m, In m c -> (m < length all)%nat) -> spheres_at ss es cs c = Ok (map (fun m => nth m all []) c).
  Proof.
    induction c as [|m t IH]; intros H; cbn [spheres_at map]; auto. rewrite (@sphere_at_ok ss es cs L) by (auto; apply H; left; auto).
    cbn [bind]. rewrite IH by (intros; apply H; right; auto). reflexivity.
  Qed.
  Lemma one_sliver_ok c l : (forall m, In m c -> (m < length all)%nat) -> good_slivers l ->
    exists l', one_sliver o ss es cs c l = Ok l' /\ good_slivers l' /\ weaker l l'
      /\ ((l' = l /\ forall a b d q, ~ res_of c a b d q)
          \/ (exists a b d q r', res_of c a b d q /\ In (nth q c 0%nat, r') l' /\ r' <= rr_of c a b d q)).
  Proof.
    intros Hc (ND & Hl). unfold one_sliver. rewrite (@spheres_at_ok c Hc). cbn [bind].
    set (sp := fun m => gv (nth m (map (fun m => nth m all []) c) [])).
    set (fx := fun m => negb (Nat.ltb (nth m c 0%nat) (st_n ss))).
    assert (Esp : forall m, (m < length c)%nat -> sp m = sphere_of all c m).
    { intros m Hm. unfold sp, sphere_of, centre. rewrite (nth_indep _ [] (nth 0 all [])) by (rewrite map_length; auto).
      rewrite (map_nth (fun m => nth m all []) c 0%nat). reflexivity. }
    pose proof (@resolve_sliver_ok (length c) sp fx (o_pv o c) (o_nrm o c)) as HB.
    destruct (resolve_sliver (length c) sp fx (o_pv o c) (o_nrm o c)) as ((w, r), d0). destruct HB as (HB & Hall).
    assert (Eres : forall a b d q, (a < b < d)%nat -> (d < length c)%nat -> cand (length c) sp fx (o_pv o c) (o_nrm o c) a b d q <-> res_of c a b d q).
    { intros a b d q H1 H2. unfold cand, res_of, resolvable, half_covered, up_pt, lo_pt, nearer. change (st_n ss) with (count ss) in fx. fold fx.
      rewrite (Esp a) by lia. split.
      - intros (C1 & C2 & C3 & C4 & C5 & C6). rewrite (Esp q) in C6 by auto. auto 10.
      - intros (_ & _ & C1 & C2 & C3 & C4 & C5 & C6). rewrite (Esp q) by auto. auto 10. }
    assert (Erad : forall q, (q < length c)%nat -> 0 < sp q 3%nat <= dbl_max / 4).
    { intros q Hq. rewrite (Esp q Hq). apply (@Hmod (nth q c 0%nat) (nth q c 0%nat)); apply Hc, nth_In; auto. }
    assert (Enear : forall a b d q, 0 <= nearer sp (up_pt sp (o_pv o c) (o_nrm o c) a b d) (lo_pt sp (o_pv o c) (o_nrm o c) a b d) q).
    { intros. unfold nearer. apply Rmin_glb; apply vdist_nonneg. }
    destruct HB as [(-> & Hd)|(a & b & d & Hs & Hcand & Hd & Hr & Hlt)].
    - rewrite Nat.ltb_irrefl. exists l. split; auto. split; [split; auto|]. split; [apply weaker_refl|]. left. split; auto.
      intros a b d q Hq. destruct Hq as (Q1 & Q2 & Q3 & Q4).
      assert (Hcand : cand (length c) sp fx (o_pv o c) (o_nrm o c) a b d q) by (apply Eres; auto; unfold res_of, resolvable, half_covered; auto).
      destruct (Hall a b d q (conj Q1 (conj Q2 Q3)) Hcand) as [X|X].
      + rewrite Hd in X. unfold shrinkage in X. pose proof (Enear a b d q). pose proof (Erad q Q3) as (Y1 & Y2). pose proof dbl_max_pos.
        assert (dbl_max <= dbl_max / 4) by lra. lra.
      + unfold shrinkage in X. pose proof (Enear a b d q). pose proof (Erad q Q3) as (Y1 & Y2). pose proof dbl_max_pos.
        assert (dbl_max <= dbl_max / 4) by lra. lra.
    - destruct Hs as (S1 & S2 & S3). apply Nat.ltb_lt in S3 as S3'. rewrite S3'. pose proof (proj1 (Eres a b d w S1 S2) Hcand) as Hres.
      destruct (nth_error_lt c S3) as (m & Em). rewrite (get_some Em). cbn [bind].
      assert (Enm : nth w c 0%nat = m) by (apply nth_error_nth; auto).
      assert (Err : r = rr_of c a b d w).
      { rewrite Hr. unfold rr_of, resolved_radius, nearer, up_pt, lo_pt. rewrite (Esp a) by lia. rewrite (Esp w) by auto. reflexivity. }
      assert (Hm : (m < count ss)%nat).
      { destruct Hcand as (_ & Hf & _). unfold fx in Hf. rewrite Enm in Hf. apply Bool.negb_false_iff, Nat.ltb_lt in Hf. exact Hf. }
      assert (Hrm : 0 <= r < rad all m).
      { rewrite Hr. destruct Hcand as (_ & _ & _ & _ & _ & Hn). pose proof (Enear a b d w). pose proof (Erad w S3) as (Y1 & _). pose proof ten_pos.
        assert (E3 : sp w 3%nat = rad all m) by (rewrite (Esp w S3); unfold sphere_of; rewrite Enm; reflexivity).
        rewrite E3 in *. split; [apply Rmult_le_pos; lra|lra]. }
      exists (record_sliver m r l). split; auto. split; [|split].
      + split; [apply record_sliver_nodup; auto|]. intros m' r' H'. destruct (@record_sliver_in m r l m' r' ND H') as [(A & B)|(-> & B & [->|C])]; auto.
      + intros m' r' H'. apply record_sliver_keeps. auto.
      + right. destruct (record_sliver_has m r l) as (q & I1 & Hq). exists a, b, d, w, q. rewrite Enm, <- Err. auto.
  Qed.

  (** ** One triple *)
  Definition P (g : seeding R) : Prop := seeds_inv acc (g_up g) (g_lo g) /\ good_slivers (g_sliver g).
  Definition Rel (g g' : seeding R) : Prop :=
    extends (g_up g) (g_up g') /\ extends (g_lo g) (g_lo g') /\ weaker (g_sliver g) (g_sliver g') /\ (g_sliver g <> [] -> g_sliver g' <> []).
  Definition outcome (i j k : nat) (g : seeding R) : Prop :=
    forall p, meeting_pair ss es cs (o_darts o i j k) (o_stale o i j k) (o_face o i) i j k = Ok (Some p) ->
      (buried all i j k (vec (p_up p)) (1 / 10 ^ 10) /\ buried all i j k (vec (p_lo p)) (1 / 10 ^ 10))
      \/ (acc i j k p /\ (g_sliver g <> [] \/ (exists a, seed_near (g_up g) (vec (p_up p)) a) /\ (exists b, seed_near (g_lo g) (vec (p_lo p)) b)))
      \/ (exists c, involved all i j k p c
            /\ (((forall a b d q, ~ res_of c a b d q)
                 /\ ((buried all i j k (vec (p_up p)) (1 / 10 ^ 10) /\ ~ buried all i j k (vec (p_lo p)) 0)
                     \/ (buried all i j k (vec (p_lo p)) (1 / 10 ^ 10) /\ ~ buried all i j k (vec (p_up p)) 0)))
                \/ (exists a b d q r', res_of c a b d q /\ In (nth q c 0%nat, r') (g_sliver g) /\ r' <= rr_of c a b d q))).
  Lemma Rel_refl g : Rel g g.
  Proof. repeat split; auto using extends_refl, weaker_refl. Qed.
  Lemma Rel_trans a b c : Rel a b -> Rel b c -> Rel a c.
  Proof. intros (A1 & A2 & A3 & A4) (B1 & B2 & B3 & B4). split; [eapply extends_trans; eauto|]. split; [eapply extends_trans; eauto|]. split; [eapply weaker_trans; eauto|auto]. Qed.
  Lemma outcome_stable i j k g g' : outcome i j k g -> Rel g g' -> outcome i j k g'.
  Proof.
    intros H (R1 & R2 & R3 & R4) p Hp. destruct (H p Hp) as [A|[(A & [B|((a & B1) & (b & B2))])|(c & C1 & [C2|(a & b & d & q & r' & C2 & C3 & C4)])]].
    - left; auto.
    - right; left. auto.
    - right; left. split; auto. right. split; [exists a; apply (extends_near R1 B1)|exists b; apply (extends_near R2 B2)].
    - right; right. exists c. auto.
    - right; right. exists c. split; auto. right. destruct (R3 _ _ C3) as (r2 & I1 & H2). exists a, b, d, q, r2. repeat split; auto; try apply C2. lra.
  Qed.
  Lemma one_triple_ok i j k g : (i < j < k)%nat -> (k < length all)%nat -> (i < count ss)%nat -> P g ->
    exists g', one_triple o ss es cs L i j k g = Ok g' /\ P g' /\ Rel g g' /\ outcome i j k g'.
  Proof.
    intros Hijk Hk His (Hinv & Hsl). unfold one_triple.
    destruct (@meeting_pair_ok ss es cs L Hss Hes Hcs Hmod (o_darts o i j k) (o_stale o i j k) (o_face o i) i j k) as (m & Em & Hm); fold all; try lia.
    { apply Huse; auto. }
    rewrite Em. cbn [bind]. destruct m as [p|].
    2:{ exists g. split; auto. split; [split; auto|]. split; [apply Rel_refl|]. intros p Hp. rewrite Em in Hp. discriminate. }
    destruct Hm as (T1 & T2 & T3 & Gp & _). pose proof Gp as (L1 & L2 & L3 & On1 & On2 & Mi & Sd & (x & y & Eatt & _) & _).
    destruct (@coverage_ok ss es cs L Hss Hes Hcs Hmod HL i j k (p_up p) (p_lo p)) as (cu & cl & cover & -> & Hcov & Hcu & Hcl & Fu & Fl); fold all; try lia; [apply On1|apply On2|].
    cbn [bind]. fold all in Hcov, Hcu, Hcl, Fu, Fl.
    assert (Bu : cu = true -> buried all i j k (vec (p_up p)) (1 / 10 ^ 10)) by (intros E; destruct (Hcu E) as (q & _ & Hq); exists q; exact Hq).
    assert (Bl : cl = true -> buried all i j k (vec (p_lo p)) (1 / 10 ^ 10)) by (intros E; destruct (Hcl E) as (q & _ & Hq); exists q; exact Hq).
    destruct (negb (Bool.eqb cu cl)) eqn:Ediff.
    - assert (Hc : forall m, In m (cover ++ [i; j; k]) -> (m < length all)%nat).
      { intros m Hm. apply in_app_or in Hm as [Hm|[<-|[<-|[<-|[]]]]]; try lia. destruct (Hcov m Hm) as [((Q & _) & _)|((Q & _) & _)]; auto. }
      destruct (@one_sliver_ok (cover ++ [i; j; k]) (g_sliver g) Hc Hsl) as (l' & -> & Gl & Wl & Hcase). cbn [bind].
      exists (MkSeeding (g_up g) (g_lo g) l'). split; auto. split; [split; auto|].
      split; [split; [apply extends_refl|]; split; [apply extends_refl|]; split; [exact Wl|]; cbn [g_sliver]|].
      { intros N. destruct (g_sliver g) as [|(m, r) t]; [congruence|]. destruct (Wl m r (or_introl eq_refl)) as (r' & Ir & _). intros ->. exact Ir. }
      intros p' Hp'. rewrite Em in Hp'. injection Hp' as <-. right; right. exists (cover ++ [i; j; k]). split.
      + split; [apply in_or_app; right; left; auto|]. split; [apply in_or_app; right; right; left; auto|]. split; [apply in_or_app; right; right; right; left; auto|].
        split.
        * destruct cu, cl; try discriminate; [destruct (Hcu eq_refl) as (q & Iq & Hq & _)|destruct (Hcl eq_refl) as (q & Iq & Hq & _)]; exists q; split; auto; apply in_or_app; left; auto.
        * intros q Hq. apply in_app_or in Hq as [Hq|[<-|[<-|[<-|[]]]]]; auto. right; right; right. destruct (Hcov q Hq) as [(A & B)|(A & B)]; auto.
      + cbn [g_sliver]. destruct Hcase as [(-> & Hno)|Hyes]; [left; split; auto|right; exact Hyes].
        destruct cu, cl; try discriminate; [left|right]; auto.
    - apply Bool.negb_false_iff, Bool.eqb_prop in Ediff. subst cl.
      destruct cu.
      { rewrite Bool.andb_false_r. exists g. split; auto. split; [split; auto|]. split; [apply Rel_refl|].
        intros p' Hp'. rewrite Em in Hp'. injection Hp' as <-. left. auto. }
      assert (Hacc : acc i j k p).
      { unfold acc, accepted. fold all. auto 15. }
      assert (Hdet : forall i j k p p', acc i j k p -> acc i j k p' -> p = p').
      { intros i1 j1 k1 p1 p2 (_ & E1) (_ & E2). rewrite E1 in E2. injection E2 as ->. reflexivity. }
      destruct (g_sliver g) as [|e t] eqn:Es; cbn [negb andb].
      + destruct (@add_pair_ok acc (o_need o) (g_up g) (g_lo g) i j k p Hdet Hinv Hacc L1 L2 L3) as (u & lo & -> & Hinv' & E1 & E2 & N1 & N2); [eauto|].
        cbn [bind]. exists (MkSeeding u lo []). split; auto. split; [split; auto; rewrite <- Es; auto|].
        split; [split; auto; split; auto; cbn [g_sliver]; rewrite Es; split; [apply weaker_refl|auto]|].
        intros p' Hp'. rewrite Em in Hp'. injection Hp' as <-. right; left. split; auto.
      + exists g. split; auto. split; [split; auto; rewrite Es; auto|]. split; [apply Rel_refl|].
        intros p' Hp'. rewrite Em in Hp'. injection Hp' as <-. right; left. split; auto. left. rewrite Es. discriminate.
  Qed.

  (** ** The spheres near sphere i *)
  Lemma reach_from s off f i : layer ss es cs s off f -> (i < length all)%nat -> reachable s (centre all i).
  Proof.
    intros Hl Hi. destruct (st_pts s) eqn:Es; [left; auto|right]. exists 0%nat. unfold count. rewrite Es. split; [simpl; lia|].
    assert (H0 : (0 < count s)%nat) by (unfold count; rewrite Es; simpl; lia).
    destruct (@layer_row ss es cs s off f 0 Hl H0) as (Hr & E). fold all in Hr, E.
    assert (center s 0 = centre all (off + 0)) as -> by (unfold center, centre, coord; rewrite E; reflexivity).
    destruct (Hmod Hi Hr) as (_ & H). pose proof dbl_max_pos. assert (dbl_max / 4 < dbl_max) by lra. lra.
  Qed.
  Lemma near_layer s off f i : layer ss es cs s off f -> (i < length all)%nat -> (i < count ss)%nat ->
    exists l, get_overlapping_spheres (nth i all []) s L = Ok l
      /\ (forall q, In q l -> (q < count s)%nat)
      /\ (forall q, (q < count s)%nat -> touching all i (off + q) -> In q l).
  Proof.
    intros Hl Hi His. pose proof (@all_four ss es cs L Hss Hes Hcs i Hi) as H4. fold all in H4.
    pose proof (@layer_set ss es cs L Hss Hes Hcs s off f Hl) as (_ & Hsp & Hlip & _).
    destruct (@reach_from s off f i Hl Hi) as [E|Hr].
    { exists []. split; [unfold get_overlapping_spheres, st_n; rewrite E; reflexivity|]. split; [intros q []|]. unfold count. rewrite E. simpl. lia. }
    destruct Hsp as [E|Hsp]; [destruct Hr as (q & Hq & _); unfold count in Hq; rewrite E in Hq; simpl in Hq; lia|].
    destruct (@get_overlapping_ok s (nth i all []) L Hsp) as (out & E & _ & H1 & H2 & H3); [lia|exact Hr|].
    assert (H2' : forall j, (j < count s)%nat -> overlap s (vec (nth i all [])) j -> In j out).
    { destruct Hl; auto. apply H3; auto. exists i. split; auto. intros d _. destruct (@layer_row ss es cs _ _ _ i (layer_s ss es cs) His) as (_ & E1). cbn [Nat.add] in E1. fold all in E1.
      rewrite E1. reflexivity. }
    exists out. split; auto. split; [intros q Hq; apply (H1 q Hq)|]. intros q Hq Ht. apply H2'; auto. unfold overlap.
    destruct (@layer_row ss es cs s off f q Hl Hq) as (_ & Eq). fold all in Eq. unfold touching in Ht.
    assert (center s q = centre all (off + q)) as -> by (unfold center, centre, coord; rewrite Eq; reflexivity).
    assert (radius s q = rad all (off + q)) as -> by (unfold radius, rad, coord; rewrite Eq; reflexivity).
    change (vec (nth i all [])) with (centre all i). change (centre all i 3%nat) with (rad all i). pose proof ten_pos. lra.
  Qed.
  Lemma near_by_ok i : (i < count ss)%nat ->
    exists near, near_by ss es cs L (nth i all []) = Ok near /\ (forall m, In m near -> (m < length all)%nat)
      /\ forall m, (m < length all)%nat -> touching all i m -> In m near.
  Proof.
    intros His. assert (Hi : (i < length all)%nat) by (unfold all; rewrite all_len; unfold count, st_n in *; lia).
    unfold near_by.
    destruct (@near_layer _ _ _ i (layer_s ss es cs) Hi His) as (l1 & -> & A1 & B1). cbn [bind].
    destruct (@near_layer _ _ _ i (layer_e ss es cs) Hi His) as (l2 & -> & A2 & B2). cbn [bind].
    destruct (@near_layer _ _ _ i (layer_c ss es cs) Hi His) as (l3 & -> & A3 & B3). cbn [bind].
    eexists. split; [reflexivity|]. split.
    - intros m Hm. apply in_app_or in Hm as [Hm|Hm]; [|apply in_app_or in Hm as [Hm|Hm]; apply in_map_iff in Hm as (q & <- & Hq)].
      + apply (@layer_row ss es cs _ _ _ m (layer_s ss es cs) (A1 m Hm)).
      + apply (@layer_row ss es cs _ _ _ q (layer_e ss es cs) (A2 q Hq)).
      + apply (@layer_row ss es cs _ _ _ q (layer_c ss es cs) (A3 q Hq)).
    - intros m Hm Ht. destruct (@layer_of ss es cs m Hm) as (s & off & f & q & Hl & Hq & ->). destruct Hl.
      + apply in_or_app. left. apply B1; auto.
      + apply in_or_app. right. apply in_or_app. left. apply in_map. apply B2; auto.
      + apply in_or_app. right. apply in_or_app. right. apply in_map. apply B3; auto.
  Qed.

  (** ** All triples *)
  Lemma all_triples_ok g : P g ->
    exists g', all_triples o ss es cs L g = Ok g' /\ P g'
      /\ forall i j k, (i < j < k)%nat -> (k < length all)%nat -> (i < count ss)%nat -> outcome i j k g'.
  Proof.
    intros Hg. unfold all_triples. change (st_n ss) with (count ss).
    assert (Hlen : (count ss <= length all)%nat) by (unfold all; rewrite all_len; unfold count, st_n in *; lia).
    set (body := fun i g => _).
    destruct (@for_res_inv _ (fun n g => P g /\ forall i j k, (i < j < k)%nat -> (k < length all)%nat -> (i < n)%nat -> outcome i j k g) (count ss) 0%nat body g) as (g' & E & Pg & Q).
    - split; auto. intros; lia.
    - intros i g1 Hi (Pg1 & Q1). unfold body. rewrite (set_row Hss) by (unfold st_n; unfold count in *; lia). cbn [bind].
      assert (nth i (st_pts ss) [] = nth i all []) as -> by (symmetry; apply all_nth_s; unfold st_n; unfold count in *; lia).
      destruct (@near_by_ok i ltac:(lia)) as (near & -> & N1 & N2). cbn [bind].
      destruct (@each_ok _ _ P Rel (fun j g => (i < j)%nat -> forall k, In k near -> (j < k)%nat -> outcome i j k g)
        (fun j g => if Nat.leb j i then Ok g else
          each (fun k g => if Nat.leb k i || Nat.leb k j then Ok g else one_triple o ss es cs L i j k g) near g)) with (l := near) (s := g1) as (g2 & E2 & P2 & R2 & Q2).
      + apply Rel_refl.
      + apply Rel_trans.
      + intros j s s' _ _ H HR Hj k Hk Hjk. eapply outcome_stable; eauto.
      + intros j s Hj Ps. destruct (Nat.leb_spec j i) as [Hle|Hlt]; [exists s; split; auto; split; auto; split; [apply Rel_refl|]; intros; lia|].
        destruct (@each_ok _ _ P Rel (fun k g => (j < k)%nat -> outcome i j k g)
          (fun k g => if Nat.leb k i || Nat.leb k j then Ok g else one_triple o ss es cs L i j k g)) with (l := near) (s := s) as (s2 & E3 & P3 & R3 & Q3).
        * apply Rel_refl.
        * apply Rel_trans.
        * intros k s1 s1' _ _ H HR Hk. eapply outcome_stable; eauto.
        * intros k s1 Hk Ps1. destruct (Nat.leb_spec k i) as [H1|H1]; cbn [orb]; [exists s1; split; auto; split; auto; split; [apply Rel_refl|intros; lia]|].
          destruct (Nat.leb_spec k j) as [H2|H2]; [exists s1; split; auto; split; auto; split; [apply Rel_refl|intros; lia]|].
          destruct (@one_triple_ok i j k s1) as (s3 & E4 & P4 & R4 & O4); auto; [lia|]. exists s3. auto.
        * exact Ps.
        * exists s2. split; auto.
      + exact Pg1.
      + exists g2. split; [exact E2|]. split; auto. intros i' j k Hijk Hk Hi'. destruct (Nat.eq_dec i' i) as [->|Ni].
        2:{ eapply outcome_stable; [|exact R2]. apply Q1; auto; lia. }
        intros p Hp.
        destruct (@meeting_pair_ok ss es cs L Hss Hes Hcs Hmod (o_darts o i j k) (o_stale o i j k) (o_face o i) i j k) as (m & Em & Hm); fold all; try lia.
        { apply Huse; auto. }
        rewrite Hp in Em. injection Em as <-. destruct Hm as (T1 & T2 & _). fold all in T1, T2.
        apply (Q2 j); auto; [apply N2; auto; lia|lia|lia].
    - exists g'. split; [exact E|]. split; [exact Pg|]. intros i j k H1 H2 H3. apply Q; auto.
  Qed.
End Run.
