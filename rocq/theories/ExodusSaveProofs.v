(** Proofs about save_exodus_file. *)
From Coq Require Import String.
From Verif Require Import Base PolyMesh Exodus ExodusSave ExodusSaveSpec.
Local Open Scope Z_scope.

Lemma for_res_go {St} (Inv : nat -> St -> Prop) body n : forall lo s,
  (forall i s, (lo <= i < lo + n)%nat -> Inv i s -> exists s', body i s = Ok s' /\ Inv (S i) s') ->
  Inv lo s -> exists s', for_res n lo body s = Ok s' /\ Inv (lo + n)%nat s'.
Proof.
  induction n as [| n IH]; cbn; intros lo s Hb H0.
  - exists s. rewrite Nat.add_0_r. auto.
  - destruct (Hb lo s ltac:(lia) H0) as (s1 & E1 & H1). rewrite E1. cbn.
    destruct (IH (S lo) s1) as (s2 & E2 & H2); auto.
    + intros i s0 Hi. apply Hb. lia.
    + exists s2. split; auto. rewrite <- Nat.add_succ_comm. exact H2.
Qed.

Lemma set_mid {A} (pre post : list A) x e :
  set (pre ++ x :: post) (List.length pre) e = Ok (pre ++ e :: post).
Proof.
  unfold set. rewrite app_length. cbn [List.length].
  replace (List.length pre <? List.length pre + S (List.length post))%nat with true by lia.
  f_equal. induction pre; cbn; congruence.
Qed.

Lemma set_mid_at {A} (pre post : list A) x e n :
  n = List.length pre -> set (pre ++ x :: post) n e = Ok (pre ++ e :: post).
Proof. intros ->. apply set_mid. Qed.

Lemma int_of_size_small n : Z.of_nat n < 2 ^ 31 -> int_of_size n = Z.of_nat n.
Proof.
  intros H. unfold int_of_size. change (2 ^ 32) with 4294967296. change (2 ^ 31) with 2147483648 in *.
  rewrite Z.mod_small by lia. lia.
Qed.

Lemma int_succ_small n : Z.of_nat n < 2 ^ 31 - 1 -> int_succ n = Ok (Z.of_nat n + 1).
Proof.
  intros H. unfold int_succ. rewrite int_of_size_small by (change (2 ^ 31) with 2147483648 in *; lia).
  destruct (Z.eqb_spec (Z.of_nat n) (2 ^ 31 - 1)); [lia | reflexivity].
Qed.

Definition succs (l : list nat) : list Z := map (fun v => Z.of_nat v + 1) l.

Lemma succs_app a b : succs (a ++ b) = succs a ++ succs b.
Proof. apply map_app. Qed.

Lemma succs_length a : List.length (succs a) = List.length a.
Proof. apply map_length. Qed.

Lemma push_entries_go ids vs : forall lo pre post,
  (forall k v, nth_error vs k = Some v -> ids (lo + k)%nat = Ok v) ->
  (forall v, In v vs -> Z.of_nat v < 2 ^ 31 - 1) ->
  (List.length vs <= List.length post)%nat ->
  push_entries ids lo (List.length vs) (pre ++ post, List.length pre) =
  Ok ((pre ++ succs vs) ++ skipn (List.length vs) post, List.length (pre ++ succs vs)).
Proof.
  unfold push_entries. induction vs as [| v t IH]; intros lo pre post Hi Hb Hl.
  - cbn. rewrite app_nil_r. reflexivity.
  - destruct post as [| x post]; [cbn in Hl; lia |]. cbn [List.length for_res].
    pose proof (Hi 0%nat v eq_refl) as H0. rewrite Nat.add_0_r in H0. rewrite H0. cbn [bind].
    rewrite (@int_succ_small v) by (apply Hb; left; auto). cbn [bind].
    rewrite set_mid. cbn [bind].
    specialize (IH (S lo) (pre ++ [Z.of_nat v + 1]) post).
    rewrite <- app_assoc in IH. cbn [app] in IH. rewrite app_length in IH. cbn [List.length] in IH.
    rewrite Nat.add_1_r in IH. rewrite IH.
    + cbn [skipn succs map]. rewrite <- !app_assoc. cbn [app]. reflexivity.
    + intros k w Hk. rewrite Nat.add_succ_comm. apply Hi. exact Hk.
    + intros w Hw. apply Hb. right. exact Hw.
    + cbn in Hl. lia.
Qed.

Lemma decode_encode ls :
  decode (map (fun l => Z.of_nat (List.length l)) ls) (succs (concat ls)) = map (map Z.of_nat) ls.
Proof.
  induction ls as [| l t IH]; cbn [map concat decode]; auto.
  rewrite succs_app, Nat2Z.id. f_equal.
  - rewrite firstn_app, succs_length, Nat.sub_diag, firstn_O, app_nil_r.
    rewrite firstn_all2 by (rewrite succs_length; lia). unfold succs. rewrite map_map.
    apply map_ext. intros a. lia.
  - rewrite skipn_app, succs_length, Nat.sub_diag, skipn_O, skipn_all2 by (rewrite succs_length; lia).
    exact IH.
Qed.

Lemma repeat_cons_of n : (0 < n)%nat -> exists t, repeat 0 n = 0 :: t /\ List.length t = (n - 1)%nat.
Proof. destruct n; [lia |]. intros _. exists (repeat 0 n). split; auto. rewrite repeat_length. lia. Qed.

Lemma list_cons_of {A} (l : list A) : (0 < List.length l)%nat -> exists x t, l = x :: t.
Proof. destruct l; cbn; [lia | eauto]. Qed.

Section Mesh.
Context {D F : Type}.
Variable tofloat : D -> F.
Variable m : mesh (D := D).
Hypothesis ok : fits_in_file m.

Lemma coordinate_array_go c : (c < 3)%nat ->
  exists l, coordinate_array tofloat m c = Ok l /\ holds_coordinate tofloat m c l.
Proof.
  intros Hc. unfold coordinate_array.
  rewrite int_of_size_small by apply (ff_num_vertices ok). rewrite Z.eqb_refl.
  destruct (@for_res_go _ (fun i l => List.length l = i /\
      forall j v, (j < i)%nat -> nth_error (m_vertices m) (3 * j + c) = Some v ->
        nth_error l j = Some (tofloat v))
    (fun i acc => v <- get (m_vertices m) (i * 3 + c) ;; Ok (acc ++ [tofloat v]))%nat
    (m_num_vertices m) 0%nat []) as (l & E & HL & HI).
  - intros i l Hi [HL HI]. pose proof (ff_vertices ok) as HV.
    destruct (nth_error (m_vertices m) (i * 3 + c)) as [v |] eqn:Ev.
    2:{ apply nth_error_None in Ev. lia. }
    rewrite (get_some Ev). cbn. eexists. split; [reflexivity |]. split.
    + rewrite app_length. cbn. lia.
    + intros j w Hj Hw. destruct (Nat.eq_dec j i) as [-> | Hne].
      * rewrite nth_error_app2 by lia. rewrite HL, Nat.sub_diag. cbn.
        assert (Some w = Some v) by (rewrite <- Hw, <- Ev; f_equal; lia). congruence.
      * rewrite nth_error_app1 by lia. apply HI; [lia | exact Hw].
  - split; auto. intros; lia.
  - exists l. cbn [Nat.add] in *. split; [exact E |]. split; auto.
Qed.

Lemma face_at i : (i < m_num_faces m)%nat ->
  exists t, nth_error (m_faces m) i = Some (List.length (corners_of m i) :: t) /\
    corners_of m i = firstn (List.length (corners_of m i)) t /\
    (List.length (corners_of m i) <= List.length t)%nat.
Proof.
  intros Hi. destruct (ff_faces ok Hi) as (k & t & E & Hk). exists t.
  unfold corners_of. rewrite E. rewrite firstn_length_le by exact Hk. auto.
Qed.

Definition ents (l : list nat) (g : nat -> list nat) := flat_map g l.

Lemma total_corners_go :
  total_corners m = Ok (List.length (flat_map (corners_of m) (seq 0 (m_num_faces m)))).
Proof.
  unfold total_corners.
  destruct (@for_res_go _ (fun i n => n = List.length (flat_map (corners_of m) (seq 0 i)))
    (fun i n => f <- get (m_faces m) i ;; k <- get f 0 ;; Ok (n + k)%nat) (m_num_faces m) 0%nat 0%nat)
    as (n & E & Hn); auto.
  - intros i n Hi ->. destruct (face_at (i := i) ltac:(lia)) as (t & Ef & _).
    rewrite (get_some Ef). cbn [bind get nth_error]. eexists. split; [reflexivity |].
    rewrite seq_S, flat_map_app, app_length. cbn [flat_map Nat.add].
    rewrite app_nil_r. reflexivity.
  - rewrite E. cbn in Hn. congruence.
Qed.

Lemma seq_split i n : (i < n)%nat -> seq 0 n = seq 0 i ++ i :: seq (S i) (n - S i).
Proof.
  intros H. replace n with (i + S (n - S i))%nat at 1 by lia. rewrite seq_app. reflexivity.
Qed.

Lemma face_arrays_go :
  face_arrays m =
  Ok (map (fun i => Z.of_nat (List.length (corners_of m i))) (seq 0 (m_num_faces m)),
      succs (flat_map (corners_of m) (seq 0 (m_num_faces m)))).
Proof.
  unfold face_arrays. rewrite total_corners_go. cbn [bind].
  set (total := List.length (flat_map (corners_of m) (seq 0 (m_num_faces m)))).
  set (cnt := fun i => Z.of_nat (List.length (corners_of m i))).
  match goal with |- context [for_res ?n ?lo ?b ?s] =>
    destruct (@for_res_go _ (fun i (st : list Z * (list Z * nat)) =>
      exists pad1 pad2,
        fst st = map cnt (seq 0 i) ++ pad1 /\ List.length pad1 = (m_num_faces m - i)%nat /\
        snd st = (succs (flat_map (corners_of m) (seq 0 i)) ++ pad2,
                  List.length (succs (flat_map (corners_of m) (seq 0 i)))) /\
        (List.length (succs (flat_map (corners_of m) (seq 0 i))) + List.length pad2)%nat = total)
      b n lo s) as (st & E & Hst)
  end.
  - intros i [cs s] Hi (p1 & p2 & H1 & L1 & H2 & L2). cbn [fst snd] in *. subst cs s.
    destruct (face_at (i := i) ltac:(lia)) as (t & Ef & Et & Ht). rewrite (get_some Ef). cbn [bind get nth_error].
    destruct (@list_cons_of _ p1 ltac:(lia)) as (x & p1' & ->).
    rewrite set_mid_at by (rewrite map_length, seq_length; reflexivity). cbn [bind].
    assert (Hlen : (List.length (corners_of m i) <= List.length p2)%nat).
    { rewrite succs_length in L2. unfold total in L2. rewrite (@seq_split i (m_num_faces m)) in L2 by lia.
      rewrite flat_map_app, app_length in L2. cbn [flat_map] in L2. rewrite app_length in L2. lia. }
    rewrite push_entries_go; auto.
    + cbn [bind]. eexists. split; [reflexivity |]. cbn [fst snd].
      exists p1', (skipn (List.length (corners_of m i)) p2).
      rewrite seq_S, map_app, flat_map_app, succs_app. cbn [map flat_map Nat.add]. rewrite app_nil_r.
      rewrite int_of_size_small.
      2:{ pose proof (ff_total_corners ok) as HT. rewrite (@seq_split i (m_num_faces m)) in HT by lia.
          rewrite flat_map_app, app_length in HT. cbn [flat_map] in HT. rewrite app_length in HT. lia. }
      split; [rewrite <- app_assoc; reflexivity |]. split; [cbn in L1; lia |].
      split; [reflexivity |].
      rewrite app_length, succs_length, skipn_length. rewrite succs_length in *. lia.
    + intros k v Hk. cbn. apply get_some. rewrite Et in Hk.
      assert (Hk' : (k < List.length (corners_of m i))%nat).
      { assert (nth_error (firstn (List.length (corners_of m i)) t) k <> None) as HN by congruence.
        apply nth_error_Some in HN. rewrite firstn_length in HN. lia. }
      cbn [nth_error]. clear -Hk Hk'. revert k t Hk Hk'. generalize (List.length (corners_of m i)).
      induction n as [| n IH]; intros k t Hk Hk'; [lia |].
      destruct t, k; cbn in *; auto; try discriminate. apply (IH k t); auto. lia.
    + intros v Hv. refine (@ff_corners _ _ ok i v _ Hv). lia.
  - exists (repeat 0 (m_num_faces m)), (repeat 0 total). cbn. rewrite !repeat_length, Nat.sub_0_r. auto.
  - rewrite E. cbn [bind]. destruct st as [cs s]. cbn [fst snd Nat.add] in *.
    destruct Hst as (p1 & p2 & -> & L1 & -> & L2). cbn [fst].
    rewrite succs_length in L2. fold total in L2.
    destruct p1; [| cbn in L1; lia]. destruct p2; [| cbn in L2; lia].
    rewrite !app_nil_r. reflexivity.
Qed.

Definition livep (i : nat) : bool := negb (nth i (m_region m) 0 =? 0)%nat.

Lemma region_at i : (i < m_num_seeds m)%nat -> nth_error (m_region m) i = Some (nth i (m_region m) 0%nat).
Proof. intros Hi. apply nth_error_nth'. pose proof (ff_region ok). lia. Qed.

Lemma cell_at i : (i < m_num_seeds m)%nat -> livep i = true ->
  exists fs, nth_error (m_cell_num_faces m) i = Some (List.length (faces_of_cell m i)) /\
    nth_error (m_cell_faces m) i = Some fs /\
    faces_of_cell m i = firstn (List.length (faces_of_cell m i)) fs.
Proof.
  intros Hi Hp. assert (HI : In i (live_cells m)).
  { apply filter_In. split; [apply in_seq; lia | exact Hp]. }
  destruct (@ff_cells _ _ ok i HI) as (k & fs & E1 & E2 & Hk). exists fs.
  assert (EQ : faces_of_cell m i = firstn k fs).
  { unfold faces_of_cell. rewrite (@nth_error_nth _ _ _ _ 0%nat E1), (@nth_error_nth _ _ _ _ [] E2). reflexivity. }
  rewrite EQ, firstn_length_le by exact Hk. auto.
Qed.

Lemma filter_S i : filter livep (seq 0 (S i)) = filter livep (seq 0 i) ++ (if livep i then [i] else []).
Proof. rewrite seq_S, filter_app. reflexivity. Qed.

Lemma filter_split i : (i < m_num_seeds m)%nat -> livep i = true ->
  exists rest, live_cells m = filter livep (seq 0 i) ++ i :: rest.
Proof.
  intros Hi Hp. unfold live_cells. fold livep. rewrite (@seq_split i (m_num_seeds m)) by exact Hi.
  rewrite filter_app. cbn [filter]. change (negb (nth i (m_region m) 0 =? 0)%nat) with (livep i). rewrite Hp.
  eexists. reflexivity.
Qed.

Lemma total_cells_go :
  total_cells m = Ok (List.length (live_cells m), List.length (flat_map (faces_of_cell m) (live_cells m))).
Proof.
  unfold total_cells.
  match goal with |- context [for_res ?n ?lo ?b ?s] =>
    destruct (@for_res_go _ (fun i (st : nat * nat) =>
      st = (List.length (filter livep (seq 0 i)), List.length (flat_map (faces_of_cell m) (filter livep (seq 0 i)))))
      b n lo s) as (st & E & Hst)
  end; auto.
  - intros i st Hi ->. rewrite (get_some (region_at (i := i) ltac:(lia))). cbn [bind].
    rewrite filter_S. destruct (nth i (m_region m) 0 =? 0)%nat eqn:Er.
    + replace (livep i) with false by (unfold livep; rewrite Er; reflexivity). rewrite app_nil_r.
      eexists. split; reflexivity.
    + assert (Hp : livep i = true) by (unfold livep; rewrite Er; reflexivity). rewrite Hp.
      destruct (cell_at (i := i) ltac:(lia) Hp) as (fs & E1 & _ & _). rewrite (get_some E1). cbn [bind].
      eexists. split; [reflexivity |]. rewrite flat_map_app, !app_length. cbn [flat_map].
      rewrite app_nil_r. cbn [List.length]. rewrite Nat.add_1_r. reflexivity.
  - rewrite E. cbn [Nat.add] in Hst. rewrite Hst. reflexivity.
Qed.

Lemma cell_arrays_go :
  cell_arrays m =
  Ok (map (fun i => Z.of_nat (List.length (faces_of_cell m i))) (live_cells m),
      succs (flat_map (faces_of_cell m) (live_cells m))).
Proof.
  unfold cell_arrays. rewrite total_cells_go. cbn [bind].
  set (cnt := fun i => Z.of_nat (List.length (faces_of_cell m i))).
  match goal with |- context [for_res ?n ?lo ?b ?s] =>
    destruct (@for_res_go _ (fun i (st : list Z * nat * (list Z * nat)) =>
      exists pad1 pad2,
        fst st = (map cnt (filter livep (seq 0 i)) ++ pad1, List.length (map cnt (filter livep (seq 0 i)))) /\
        (List.length (filter livep (seq 0 i)) + List.length pad1)%nat = List.length (live_cells m) /\
        snd st = (succs (flat_map (faces_of_cell m) (filter livep (seq 0 i))) ++ pad2,
                  List.length (succs (flat_map (faces_of_cell m) (filter livep (seq 0 i))))) /\
        (List.length (flat_map (faces_of_cell m) (filter livep (seq 0 i))) + List.length pad2)%nat =
          List.length (flat_map (faces_of_cell m) (live_cells m)))
      b n lo s) as (st & E & Hst)
  end.
  - intros i [[cs nv] s] Hi (p1 & p2 & H1 & L1 & H2 & L2). cbn [fst snd] in *. inversion H1; subst cs nv. clear H1. subst s.
    rewrite (get_some (region_at (i := i) ltac:(lia))). cbn [bind].
    rewrite filter_S. destruct (nth i (m_region m) 0 =? 0)%nat eqn:Er.
    + replace (livep i) with false by (unfold livep; rewrite Er; reflexivity). rewrite app_nil_r.
      eexists. split; [reflexivity |]. exists p1, p2. cbn [fst snd]. auto.
    + assert (Hp : livep i = true) by (unfold livep; rewrite Er; reflexivity). rewrite Hp.
      destruct (cell_at (i := i) ltac:(lia) Hp) as (fs & E1 & E2 & Efs). rewrite (get_some E1). cbn [bind].
      destruct (filter_split (i := i) ltac:(lia) Hp) as (rest & EL).
      assert (Ll : (List.length p1 = S (List.length rest))%nat).
      { rewrite EL, app_length in L1. cbn [List.length] in L1. lia. }
      destruct (@list_cons_of _ p1 ltac:(lia)) as (x & p1' & ->).
      assert (Hlen : (List.length (faces_of_cell m i) <= List.length p2)%nat).
      { rewrite EL, flat_map_app, app_length in L2. cbn [flat_map] in L2. rewrite app_length in L2. lia. }
      rewrite push_entries_go; auto.
      * cbn [bind]. rewrite set_mid. cbn [bind]. eexists. split; [reflexivity |]. cbn [fst snd].
        exists p1', (skipn (List.length (faces_of_cell m i)) p2).
        rewrite map_app, flat_map_app, succs_app, !app_length. cbn [map flat_map]. rewrite app_nil_r.
        rewrite int_of_size_small.
        2:{ pose proof (ff_total_cells ok) as HT. rewrite EL, flat_map_app, app_length in HT.
            cbn [flat_map] in HT. rewrite app_length in HT. lia. }
        split; [rewrite <- app_assoc; cbn [List.length]; rewrite Nat.add_1_r; reflexivity |].
        split; [cbn [List.length] in *; lia |]. split; [reflexivity |].
        rewrite skipn_length. lia.
      * intros k v Hk. cbn. rewrite (get_some E2). cbn [bind]. apply get_some. rewrite Efs in Hk.
        assert (Hk' : (k < List.length (faces_of_cell m i))%nat).
        { assert (nth_error (firstn (List.length (faces_of_cell m i)) fs) k <> None) as HN by congruence.
          apply nth_error_Some in HN. rewrite firstn_length in HN. lia. }
        clear -Hk Hk'. revert k fs Hk Hk'. generalize (List.length (faces_of_cell m i)).
        induction n as [| n IH]; intros k fs Hk Hk'; [lia |].
        destruct fs, k; cbn in *; auto; try discriminate. apply (IH k fs); auto. lia.
      * intros v Hv. refine (@ff_cell_ids _ _ ok i v _ Hv). rewrite EL. apply in_or_app. right. left. reflexivity.
  - exists (repeat 0 (List.length (live_cells m))),
      (repeat 0 (List.length (flat_map (faces_of_cell m) (live_cells m)))).
    cbn. rewrite !repeat_length. auto.
  - rewrite E. cbn [bind]. destruct st as [[cs nv] s]. cbn [fst snd Nat.add] in *.
    destruct Hst as (p1 & p2 & H1 & L1 & H2 & L2). inversion H1; subst cs nv. subst s. cbn [fst].
    change (filter livep (seq 0 (m_num_seeds m))) with (live_cells m) in *.
    destruct p1; [| cbn in L1; lia]. destruct p2; [| cbn in L2; lia].
    rewrite !app_nil_r. reflexivity.
Qed.

End Mesh.

(** The calls when nothing fails, and how a run ends in any case. *)
Lemma steps_all_ok {F} (lib : list (@scall F * Z) -> scall -> Z) id cs : forall h,
  (forall h c, In c cs -> lib h c = 0) ->
  steps lib id cs h = (Saved, rev (map (fun c => (c, 0)) cs) ++ h).
Proof.
  induction cs as [| c t IH]; cbn [steps map rev]; intros h H; auto.
  rewrite (H h c (or_introl eq_refl)). rewrite Z.eqb_refl, IH.
  - rewrite <- app_assoc. reflexivity.
  - intros h0 c0 Hc. apply H. right. exact Hc.
Qed.

Lemma steps_end {F} (lib : list (@scall F * Z) -> scall -> Z) id cs : forall h v h',
  steps lib id (cs ++ [SClose id]) h = (v, h') ->
  exists t r, h' = (SClose id, r) :: t.
Proof.
  induction cs as [| c t IH]; cbn [app steps]; intros h v h' E.
  - destruct (_ =? 0); inversion E; subst; eauto.
  - destruct (_ =? 0); [exact (IH _ _ _ E) | inversion E; subst; eauto].
Qed.

Lemma steps_saved {F} (lib : list (@scall F * Z) -> scall -> Z) id cs : forall h h',
  steps lib id cs h = (Saved, h') -> h' = rev (map (fun c => (c, 0)) cs) ++ h.
Proof.
  induction cs as [| c t IH]; cbn [steps map rev]; intros h h' E.
  - inversion E; subst. reflexivity.
  - destruct (lib h c =? 0) eqn:Er; [| inversion E]. apply Z.eqb_eq in Er. rewrite Er in E.
    rewrite (IH _ _ E), <- app_assoc. reflexivity.
Qed.

Lemma steps_exited {F} (lib : list (@scall F * Z) -> scall -> Z) id cs : forall h h',
  steps lib id cs h = (Exited, h') ->
  exists done c r rc todo, cs = done ++ c :: todo /\ r <> 0 /\
    h' = (SClose id, rc) :: (c, r) :: rev (map (fun c => (c, 0)) done) ++ h.
Proof.
  induction cs as [| c t IH]; cbn [steps]; intros h h' E; [inversion E |].
  destruct (lib h c =? 0) eqn:Er.
  - apply Z.eqb_eq in Er. rewrite Er in E. destruct (IH _ _ E) as (dn & c1 & r & rc & td & -> & Hr & ->).
    exists (c :: dn), c1, r, rc, td. split; [reflexivity|]. split; auto. cbn [map rev].
    rewrite <- app_assoc. reflexivity.
  - inversion E; subst. apply Z.eqb_neq in Er. exists [], c. do 3 eexists. split; [reflexivity|].
    split; [exact Er|]. reflexivity.
Qed.
