(** Proof that trimming a spoke with the tree takes every seed into account
    (KdTree.v: trim). *)
From Verif Require Import Base Num MemoryHandler KdTree SamplingSpec SamplingProofs Vec KdSpec KdTreeProofs KdQueryProofs.
From Coq Require Import Reals Lra.
Local Open Scope R_scope.

Section Trim.
  Variable P : nat -> nat -> R.
  Variable nd : nat.
  Hypothesis nd_pos : (0 < nd)%nat.
  Variable crd : nat -> nat -> res R.
  Variable n : nat.
  Hypothesis crd_ok : forall i d, (i < n)%nat -> (d < nd)%nat -> crd i d = Ok (P i d).
  Variables lf rt : list nat.
  Let lk : links := (lf, rt).
  Variables c o dir : list R.
  Hypothesis Hc : (nd <= length c)%nat.
  Hypothesis Ho : (nd <= length o)%nat.
  Hypothesis Hdir : (nd <= length dir)%nat.
  Hypothesis unit_dir : norm nd (vec dir) = 1.
  Variable odst : R.
  Hypothesis Hodst : odst = vdist nd (vec o) (vec c).
  Variable elig : nat -> res bool.
  Variable e : nat -> bool.
  Hypothesis elig_ok : forall i, (i < n)%nat -> elig i = Ok (e i).
  Let E (j : nat) : Prop := e j = true /\ heads_to nd P c dir j.
  Let D := cut nd P c o dir.

  Lemma getv (x : list R) d : (nd <= length x)%nat -> (d < nd)%nat -> get x d = Ok (vec x d).
  Proof.
    intros Hx Hd. destruct (nth_error_lt x (i:=d)) as [a Ha]; [lia|].
    rewrite (get_some Ha). unfold vec. now rewrite (nth_error_nth x d 0 Ha).
  Qed.

  Lemma spoke_dots_ok i : (i < n)%nat ->
    spoke_dots crd c o dir i 0 nd (n0, n0)
    = Ok (dot nd (fun k => (P i k + vec c k) / 2 - vec o k) (fun k => P i k - vec c k),
          dot nd (vec dir) (fun k => P i k - vec c k)).
  Proof.
    intros Hi.
    assert (G : forall m k s, (k + m = nd)%nat ->
      spoke_dots crd c o dir i k m s
      = Ok (fst s + rsum (map (fun k => ((P i k + vec c k) / 2 - vec o k) * (P i k - vec c k)) (seq k m)),
            snd s + rsum (map (fun k => vec dir k * (P i k - vec c k)) (seq k m)))).
    { induction m as [|m IH]; intros k s Hk; cbn [spoke_dots].
      - simpl. rewrite rsum_nil. destruct s as [s1 s2]. simpl. f_equal. f_equal; lra.
      - rewrite crd_ok by (auto; lia). cbn [bind]. rewrite !getv by (auto; lia). cbn [bind].
        rewrite IH by lia. simpl map. rewrite !rsum_cons. unfold n1, n2. cbn. f_equal. f_equal; lra. }
    rewrite G by lia. unfold n0. cbn [fst snd nofZ RNum].
    f_equal. f_equal; unfold dot, sumn; lra.
  Qed.

  Lemma heads_pos j : heads_to nd P c dir j -> 0 < dot nd (vec dir) (fun k => P j k - vec c k).
  Proof. unfold heads_to. assert (0 < 1 / 10 ^ 8) by (apply Rdiv_lt_0_compat; [lra|apply pow_lt; lra]). lra. Qed.

  Lemma cut_nonneg j : heads_to nd P c dir j -> 0 <= D j.
  Proof.
    intros H. apply heads_pos in H. unfold D, cut. apply Rmult_le_pos; [apply Rmax_l|].
    left. apply Rinv_0_lt_compat. exact H.
  Qed.

  Lemma nlit8 : nlit 1 8 = 1 / 10 ^ 8.
  Proof. unfold nlit. cbn [ndiv nofZ RNum]. replace (10 ^ 8)%Z with 100000000%Z by reflexivity. field_simplify; try lra. Qed.
  Lemma nlit10 : 0 < (nlit 1 10 : R).
  Proof. unfold nlit. cbn [ndiv nofZ RNum]. replace (10 ^ 10)%Z with 10000000000%Z by reflexivity. lra. Qed.
  Lemma nlit8_pos : 0 < (nlit 1 8 : R).
  Proof. unfold nlit. cbn [ndiv nofZ RNum]. replace (10 ^ 8)%Z with 100000000%Z by reflexivity. lra. Qed.

  Lemma spoke_visit_ok i best : (i < n)%nat -> 0 <= snd best ->
    exists b, spoke_visit crd nd elig c o dir i best = Ok b /\ nearest D E [i] best b /\ 0 <= snd b.
  Proof.
    intros Hi Hb. unfold spoke_visit. rewrite elig_ok by auto. cbn [bind].
    destruct (e i) eqn:Ee.
    2:{ exists best. split; auto. split; auto. left. split; auto. intros j [<-|[]] [Hj _]. congruence. }
    rewrite spoke_dots_ok by auto. cbn [bind].
    set (do := dot nd (fun k => (P i k + vec c k) / 2 - vec o k) (fun k => P i k - vec c k)).
    set (de := dot nd (vec dir) (fun k => P i k - vec c k)).
    cbn [nltb nabs nopp ndiv RNum]. unfold n0. cbn [nofZ RNum].
    replace (if Rltb do 0 then 0 else do) with (Rmax 0 do).
    2:{ unfold Rltb, Rmax. destruct (Rlt_dec do 0), (Rle_dec 0 do); lra. }
    rewrite nlit8. pose proof nlit8_pos as Hp8. rewrite nlit8 in Hp8.
    destruct (Rltb (1 / 10 ^ 8) (Rabs de) && Rltb 0 de) eqn:Eb.
    - apply andb_prop in Eb. destruct Eb as [E1 E2]. apply Rltb_true in E1. apply Rltb_true in E2.
      rewrite Rabs_right in E1 by lra.
      assert (Hh : heads_to nd P c dir i) by exact E1.
      pose proof (cut_nonneg Hh) as Hn. fold (D i).
      change (Rmax 0 do / de) with (D i).
      destruct (Rltb (- (1 / 10 ^ 8)) (D i)) eqn:E3; [|apply Rltb_false in E3; lra].
      cbn [andb]. destruct (Rltb (D i) (snd best)) eqn:E4.
      + apply Rltb_true in E4. exists (i, D i). split; auto. split; auto.
        right. exists i. split; [left; auto|]. split; [split; auto|]. split; auto. split; auto.
        intros j [<-|[]] _. lra.
      + apply Rltb_false in E4. exists best. split; auto. split; auto. left. split; auto.
        intros j [<-|[]] _. exact E4.
    - exists best. split; auto. split; auto. left. split; auto.
      intros j [<-|[]] [_ Hj]. exfalso. pose proof (heads_pos Hj) as Hp. fold de in Hp.
      unfold heads_to in Hj. fold de in Hj.
      rewrite Rabs_right in Eb by lra.
      apply andb_false_elim in Eb. destruct Eb as [Eb|Eb]; apply Rltb_false in Eb; lra.
  Qed.

  (** A seed far from the origin cannot cut the spoke early. *)
  Lemma cut_far j L : heads_to nd P c dir j ->
    2 * (L + odst) <= vdist nd (vec o) (P j) -> 0 <= L -> L <= D j.
  Proof.
    intros Hh Hd HL. pose proof (heads_pos Hh) as Hp.
    set (u := fun k => P j k - vec o k). set (v := fun k => vec c k - vec o k).
    assert (Eu : vdist nd (vec o) (P j) = norm nd u) by (rewrite vdist_sym; reflexivity).
    assert (Ev : odst = norm nd v) by (rewrite Hodst, vdist_sym; reflexivity).
    rewrite Eu, Ev in Hd.
    set (de := dot nd (vec dir) (fun k => P j k - vec c k)) in *.
    set (do := dot nd (fun k => (P j k + vec c k) / 2 - vec o k) (fun k => P j k - vec c k)).
    assert (Ede : de = dot nd (vec dir) u - dot nd (vec dir) v).
    { unfold de. rewrite <- dot_minus_r. apply dot_ext; intros; unfold u, v; lra. }
    assert (Edo : 2 * do = dot nd u u - dot nd v v).
    { unfold do. rewrite <- dot_scal_l.
      transitivity (dot nd (fun k => u k + v k) (fun k => u k - v k)).
      - apply dot_ext; intros; unfold u, v; lra.
      - rewrite dot_plus_l, !dot_minus_r, (dot_comm nd v u). lra. }
    pose proof (norm_nonneg nd u) as Nu. pose proof (norm_nonneg nd v) as Nv.
    assert (D1 : dot nd (vec dir) u <= norm nd u).
    { pose proof (dot_le_norm nd (vec dir) u). rewrite unit_dir in H. lra. }
    assert (D2 : - dot nd (vec dir) v <= norm nd v).
    { pose proof (dot_le_norm nd (vec dir) (fun k => (-1) * v k)) as H.
      rewrite dot_scal_r, unit_dir in H.
      assert (E2 : norm nd (fun k => -1 * v k) = norm nd v).
      { unfold norm. f_equal. rewrite dot_scal_l, dot_scal_r. lra. }
      rewrite E2 in H. lra. }
    assert (Hde : de <= norm nd u + norm nd v) by lra.
    rewrite <- (norm_sq nd u), <- (norm_sq nd v) in Edo.
    assert (Hdo : L * de <= do).
    { assert (2 * (L * de) <= 2 * do); [|lra]. rewrite Edo.
      replace (norm nd u * norm nd u - norm nd v * norm nd v)
        with ((norm nd u + norm nd v) * (norm nd u - norm nd v)) by ring.
      assert (2 * L <= norm nd u - norm nd v) by lra.
      assert (L * de <= L * (norm nd u + norm nd v)) by (apply Rmult_le_compat_l; lra).
      assert ((norm nd u + norm nd v) * (2 * L) <= (norm nd u + norm nd v) * (norm nd u - norm nd v))
        by (apply Rmult_le_compat_l; lra).
      lra. }
    unfold D, cut. fold de do.
    apply Rmult_le_reg_r with de; [exact Hp|].
    unfold Rdiv. rewrite Rmult_assoc, Rinv_l by lra. rewrite Rmult_1_r.
    eapply Rle_trans; [exact Hdo|apply Rmax_r].
  Qed.

  Lemma trim_ok fuel d k i l r best :
    sub P nd n lf rt (Node i l r) k -> dim_at nd d k -> (height (Node i l r) <= fuel)%nat -> 0 <= snd best ->
    exists b, trim crd nd lk fuel elig c o dir odst d i best = Ok b
      /\ nearest D E (elements (Node i l r)) best b /\ 0 <= snd b.
  Proof.
    revert d k i l r best.
    induction fuel as [|f IH]; intros d k i l r best Hs Hd Hf Hb; [cbn [height] in Hf; lia|].
    cbn [trim]. cbn zeta. rewrite Hd.
    pose proof Hs as [(Rl & Rr & _ & _) N I O].
    assert (Hi : (i < n)%nat) by (apply I; left; auto).
    destruct (nodup_node N) as (Nil & Nir & _).
    assert (Hmod : (k mod nd < nd)%nat) by (apply Nat.mod_upper_bound; lia).
    destruct (spoke_visit_ok best Hi Hb) as (b1 & E1 & N1 & P1). rewrite E1. cbn [bind].
    unfold lk at 1 2. cbn [fst snd]. rewrite (get_some Rr), (get_some Rl). cbn [bind].
    rewrite getv by auto. cbn [bind]. rewrite crd_ok by auto. cbn [bind].
    set (od := vec o (k mod nd)). set (p := P i (k mod nd)).
    change (nabs (nsub p od)) with (Rabs (p - od)). set (h := Rabs (p - od)).
    assert (Hods : 0 <= odst) by (rewrite Hodst; apply vdist_nonneg).
    (* each branch *)
    assert (HL : l <> Leaf -> forall b, 0 <= snd b -> exists b',
       trim crd nd lk f elig c o dir odst (S (k mod nd)) (root_or i l) b = Ok b'
       /\ nearest D E (elements l) b b' /\ 0 <= snd b').
    { intros Hl b Hb'. destruct l as [|i' l' r']; [congruence|]. cbn [root_or].
      apply IH with (k := S k); auto; [eapply sub_left; eauto|apply dim_at_S; auto|cbn [height] in *; lia]. }
    assert (HR : r <> Leaf -> forall b, 0 <= snd b -> exists b',
       trim crd nd lk f elig c o dir odst (S (k mod nd)) (root_or i r) b = Ok b'
       /\ nearest D E (elements r) b b' /\ 0 <= snd b').
    { intros Hl b Hb'. destruct r as [|i' l' r']; [congruence|]. cbn [root_or].
      apply IH with (k := S k); auto; [eapply sub_right; eauto|apply dim_at_S; auto|cbn [height] in *; lia]. }
    assert (Skip : forall S (b : nat * R), 0 <= snd b -> (forall j, In j S -> h <= vdist nd (vec o) (P j)) ->
              2 * (snd b + odst) <= h -> nearest D E S b b).
    { intros S b Hb' HS Hh. left. split; auto. intros j Hj [_ He]. apply cut_far; auto.
      specialize (HS j Hj). lra. }
    assert (FR : od <= p -> forall j, In j (elements r) -> h <= vdist nd (vec o) (P j)).
    { intros Hop j Hj. destruct O as (_ & O2 & _). specialize (O2 j Hj). apply Rltb_true in O2.
      pose proof (@coord_le_vdist nd (vec o) (P j) _ Hmod) as Hcd. fold od in Hcd. fold p in O2.
      unfold h. rewrite Rabs_right by lra. rewrite Rabs_left1 in Hcd by lra. lra. }
    assert (FL : p <= od -> forall j, In j (elements l) -> h <= vdist nd (vec o) (P j)).
    { intros Hop j Hj. destruct O as (O2 & _ & _). specialize (O2 j Hj). apply Rltb_false in O2.
      pose proof (@coord_le_vdist nd (vec o) (P j) _ Hmod) as Hcd. fold od in Hcd. fold p in O2.
      unfold h. rewrite Rabs_left1 by lra. rewrite Rabs_right in Hcd by lra. lra. }
    assert (Fin : forall b2 b3, (nearest D E (elements r) b1 b2 /\ nearest D E (elements l) b2 b3)
                   \/ (nearest D E (elements l) b1 b2 /\ nearest D E (elements r) b2 b3) ->
                   nearest D E (elements (Node i l r)) best b3).
    { intros b2 b3 [[H1 H2]|[H1 H2]].
      - change (elements (Node i l r)) with ([i] ++ (elements r ++ elements l)).
        eapply nearest_app; [exact N1|]. eapply nearest_app; eauto.
      - apply nearest_perm with (S := [i] ++ (elements l ++ elements r)).
        { intros y. simpl. rewrite !in_app_iff. tauto. }
        eapply nearest_app; [exact N1|]. eapply nearest_app; eauto. }
    assert (Lleaf : l = Leaf -> forall b, nearest D E (elements l) b b).
    { intros -> b. apply nearest_skip. intros j []. }
    assert (Rleaf : r = Leaf -> forall b, nearest D E (elements r) b b).
    { intros -> b. apply nearest_skip. intros j []. }
    pose proof nlit10 as T10. pose proof nlit8_pos as T8.
    set (cond := nltb h (nadd (nmul n2 (nadd (snd b1) odst)) (nlit 1 8))).
    set (cr := if cond then negb (root_or i r =? i)%nat
               else negb (root_or i r =? i)%nat && nltb p od).
    set (cl := if cond then negb (root_or i l =? i)%nat
               else negb (root_or i l =? i)%nat && nltb od p).
    replace (if cond
             then (negb (root_or i r =? i)%nat, negb (root_or i l =? i)%nat)
             else (negb (root_or i r =? i)%nat && nltb p od,
                   negb (root_or i l =? i)%nat && nltb od p))
      with (cr, cl) by (unfold cr, cl; destruct cond; reflexivity).
    assert (Hcond : cond = false -> 2 * (snd b1 + odst) + nlit 1 8 <= h).
    { intros Hq. unfold cond, n2 in Hq. cbn [nltb nadd nmul nofZ RNum] in Hq. apply Rltb_false in Hq. lra. }
    assert (Cr : cr = true -> r <> Leaf).
    { intros Hq ->. unfold cr in Hq. simpl in Hq. rewrite Nat.eqb_refl in Hq. destruct cond; discriminate. }
    assert (Cl : cl = true -> l <> Leaf).
    { intros Hq ->. unfold cl in Hq. simpl in Hq. rewrite Nat.eqb_refl in Hq. destruct cond; discriminate. }
    assert (Cr' : cr = false -> nearest D E (elements r) b1 b1).
    { intros Hq. unfold cr in Hq. destruct (root_or i r =? i)%nat eqn:Er.
      - apply Rleaf. apply root_or_eq in Er; auto.
      - destruct cond; [discriminate|]. cbn in Hq. apply Rltb_false in Hq.
        specialize (Hcond eq_refl). apply Skip; auto; lra. }
    assert (Cl' : cl = false -> nearest D E (elements l) b1 b1).
    { intros Hq. unfold cl in Hq. destruct (root_or i l =? i)%nat eqn:Er.
      - apply Lleaf. apply root_or_eq in Er; auto.
      - destruct cond; [discriminate|]. cbn in Hq. apply Rltb_false in Hq.
        specialize (Hcond eq_refl). apply Skip; auto; lra. }
    clearbody cr cl. unfold n2. cbn [nltb nadd nmul nofZ RNum].
    destruct cr, cl; cbn [andb].
    - destruct (Rltb p od) eqn:Epx.
      + apply Rltb_true in Epx.
        destruct (HR (Cr eq_refl) b1 P1) as (b2 & E2 & N2 & P2). rewrite E2. cbn [bind].
        destruct (Rltb h (2 * (snd b2 + odst) + nlit 1 10)) eqn:Ec.
        * destruct (HL (Cl eq_refl) b2 P2) as (b3 & E3 & N3 & P3). exists b3. split; [exact E3|]. split; [|auto]. eauto.
        * apply Rltb_false in Ec. exists b2. split; [auto|]. split; [|auto]. eapply Fin. left; split; eauto.
          apply Skip; auto; try lra. apply FL. lra.
      + apply Rltb_false in Epx.
        destruct (HL (Cl eq_refl) b1 P1) as (b2 & E2 & N2 & P2). rewrite E2. cbn [bind].
        destruct (Rltb h (2 * (snd b2 + odst) + nlit 1 10)) eqn:Ec.
        * destruct (HR (Cr eq_refl) b2 P2) as (b3 & E3 & N3 & P3). exists b3. split; [exact E3|]. split; [|auto]. eauto.
        * apply Rltb_false in Ec. exists b2. split; [auto|]. split; [|auto]. eapply Fin. right; split; eauto.
          apply Skip; auto; lra.
    - destruct (HR (Cr eq_refl) b1 P1) as (b2 & E2 & N2 & P2). exists b2. split; [exact E2|]. split; [|auto].
      eapply Fin. right. split; [apply Cl'; auto|auto].
    - destruct (HL (Cl eq_refl) b1 P1) as (b2 & E2 & N2 & P2). exists b2. split; [exact E2|]. split; [|auto].
      eapply Fin. left. split; [apply Cr'; auto|auto].
    - exists b1. split; [auto|]. split; [|auto]. eapply Fin. left. split; [apply Cr'|apply Cl']; auto.
  Qed.
End Trim.
