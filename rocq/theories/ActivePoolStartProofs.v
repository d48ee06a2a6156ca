(** Proofs about the active pool: the patches, and the pool of edges. *)
From Verif Require Import Base Num MemoryHandler KdTree SmartTree DenseQR Geometry Spheres Sampling PolyMesh PolyMeshProofs
  ActivePool ActivePoolSpec ActivePoolThreadProofs ActivePoolProofs.

(** ** The table of sizes never fails *)
Section Cdf.
  Context {F : Type} `{Num F}.
  Lemma get_len (l : list F) i : i < length l -> exists a, get l i = Ok a.
  Proof. apply get_lt. Qed.
  Lemma make_cdf_total (l : list F) : exists c, make_cdf l = Ok c /\ length c = length l.
  Proof.
    unfold make_cdf. assert (H1 : exists c, cumulate l = Ok c /\ length c = length l).
    { unfold cumulate. destruct (@for_res_inv (list F) (fun _ c => length c = length l) (length l - 1) 1
        (fun i c => a <- get c i ;; b <- get c (i - 1) ;; set c i (nadd a b)) l) as (c & Ec & Hc); eauto.
      intros k st Hk Hst. destruct (@get_len st k ltac:(lia)) as (a & ->). destruct (@get_len st (k - 1) ltac:(lia)) as (b & ->).
      cbn [bind]. rewrite set_Ok by lia. eexists; split; eauto. now rewrite upd_length. }
    destruct H1 as (c & -> & Hc). cbn [bind]. unfold normalise.
    destruct (@for_res_inv (list F) (fun _ d => length d = length c) (length c) 0
        (fun i d => a <- get d i ;; b <- get d (length c - 1) ;; set d i (ndiv a b)) c) as (d & Ed & Hd); eauto.
    - intros k st Hk Hst. destruct (@get_len st k ltac:(lia)) as (a & ->). destruct (@get_len st (length c - 1) ltac:(lia)) as (b & ->).
      cbn [bind]. rewrite set_Ok by lia. eexists; split; eauto. now rewrite upd_length.
    - exists d. split; auto. lia.
  Qed.
End Cdf.

Section Start.
  Context {F : Type} `{Num F}.
  Variable points : list (list F).
  Variable faces : list (list nat).
  Hypothesis Hpts : good_points points.
  Hypothesis Hfaces : good_faces points faces.

  Definition first_elems (lo n : nat) : list felem := map (fun f => (f, [])) (seq lo n).
  Definition fentry (f : nat) : nat * F := (f, farea points faces (f, [])).

  Lemma fill_faces_ok lo hi : lo <= hi <= length faces ->
    fill_faces points faces lo hi = Ok (map fentry (seq lo (hi - lo))).
  Proof.
    intros Hlh. unfold fill_faces.
    destruct (@for_res_inv (list (nat * F)) (fun k l => l = map fentry (seq lo (Nat.min k hi - lo))) (length faces) 0
      (fun iface l =>
      if Nat.leb lo iface && Nat.ltb iface hi then
        f <- get faces iface ;;
        i0 <- get f 1 ;; a <- corner points i0 ;;
        i1 <- get f 2 ;; b <- corner points i1 ;;
        i2 <- get f 3 ;; c <- corner points i2 ;;
        if Nat.ltb (length l) (hi - lo) then Ok (l ++ [(iface, area3 a b c)]) else UB
      else Ok l) []) as (l & El & Hl).
    - replace (Nat.min 0 hi - lo) with 0 by lia. reflexivity.
    - intros k l Hk ->. destruct (Nat.leb_spec lo k), (Nat.ltb_spec k hi); cbn [andb].
      + destruct (@face_row _ points faces Hfaces k ltac:(lia)) as (row & Hr & Er & Hlen & Hids).
        rewrite (get_some Hr). cbn [bind].
        rewrite (@get_in row 1), (@get_in row 2), (@get_in row 3) by lia. cbn [bind].
        rewrite !(corner_ok Hpts) by (apply Hids; lia). cbn [bind].
        rewrite map_length, seq_length. replace (Nat.min k hi - lo) with (k - lo) by lia.
        rewrite (proj2 (Nat.ltb_lt _ _)) by lia. eexists; split; eauto.
        replace (Nat.min (S k) hi - lo) with (S (k - lo)) by lia. rewrite seq_S, map_app. cbn [map].
        replace (lo + (k - lo)) with k by lia. do 2 f_equal. unfold fentry, farea, shape, fbase, abc. cbn [snd fst decode fold_left with_mids].
        subst row. reflexivity.
      + eexists; split; eauto. do 2 f_equal. lia.
      + eexists; split; eauto. do 2 f_equal. lia.
      + eexists; split; eauto. do 2 f_equal. lia.
    - rewrite El, Hl. do 3 f_equal. lia.
  Qed.

  Lemma start_faces_ok ip np np' lo hi : patch_range (length faces) ip np = Ok (np', lo, hi) -> lo <= hi <= length faces ->
    exists p, start_faces points faces ip np = Ok (p, np') /\ denotes points faces p (first_elems lo (hi - lo)) /\ p_level p = 0.
  Proof.
    intros Hr Hlh. unfold start_faces. rewrite Hr. cbn [bind]. rewrite fill_faces_ok by auto. cbn [bind].
    rewrite map_length, seq_length, Nat.eqb_refl.
    destruct (make_cdf_total (map snd (map fentry (seq lo (hi - lo))))) as (c & Ec & Lc). rewrite Ec. cbn [bind].
    eexists. split; [reflexivity|]. split; [|reflexivity]. unfold denotes, first_elems. cbn [p_parent p_child p_cdf p_level].
    rewrite !map_map in *. cbn [fst snd fentry] in *. rewrite repeat_length, map_length, seq_length.
    split; [reflexivity|]. split; [reflexivity|]. split; [exact Ec|].
    intros i e Hi. pose proof (nth_error_In _ _ Hi) as Hin. apply in_map_iff in Hin. destruct Hin as (f & <- & Hf).
    apply in_seq in Hf. cbn [fst snd length]. split; [lia|]. split; auto. lia.
  Qed.
  (** Conversely only these ranges succeed. *)
  Lemma patch_range_ok n np ip : 1 <= np ->
    exists np' bin lo hi, patch_range n ip np = Ok (np', lo, hi) /\ 1 <= np' <= np /\ lo = ip * bin /\ np' * bin <= n
      /\ (ip < np' -> lo <= hi <= n)
      /\ hi = (if ip =? np' - 1 then n else S ip * bin)
      /\ (np' = np /\ bin = n / np /\ 1 <= bin \/ np' = 1 /\ bin = n /\ n < np).
  Proof.
    intros Hnp. unfold patch_range. destruct np as [|m]; [lia|]. set (np := S m) in *.
    pose proof (Nat.div_mod n np ltac:(lia)) as Hdm. pose proof (Nat.mod_upper_bound n np ltac:(lia)) as Hmu.
    destruct (Nat.eqb_spec (n / np) 0) as [E|E].
    - exists 1, n. eexists _, _. split; [reflexivity|]. split; [lia|]. split; [reflexivity|]. split; [lia|]. split.
      + intros Hip. replace ip with 0 by lia. change (1 - 1) with 0. rewrite Nat.eqb_refl. lia.
      + split; [change (1 - 1) with 0; destruct (ip =? 0); lia|]. right. split; [reflexivity|]. split; [reflexivity|]. nia.
    - exists np, (n / np). eexists _, _. split; [reflexivity|]. split; [lia|]. split; [reflexivity|]. split; [lia|]. split.
      + intros Hip. destruct (Nat.eqb_spec ip (np - 1)); nia.
      + split; [destruct (ip =? np - 1); nia|]. left. split; [reflexivity|]. split; [reflexivity|]. now apply Nat.neq_0_lt_0.
  Qed.

  (** All patches: every face once, in order. *)
  Definition faces_of (ps : list (pool F)) : list nat := concat (map (fun p => p_parent p) ps).
  Lemma parents_first p lo n : denotes points faces p (first_elems lo n) -> p_parent p = seq lo n.
  Proof. intros (Hp & _). rewrite Hp. unfold first_elems. rewrite map_map. cbn. apply map_id. Qed.

  Lemma patches_S f ip np : patches (S f) points faces ip np =
    if ip <? np then ' pn <- start_faces points faces ip np ;; (let '(p, np') := pn in
       r <- patches f points faces (S ip) np' ;; Ok (p :: r)) else Ok [].
  Proof. reflexivity. Qed.
  Lemma patches_from np bin : 1 <= np -> np * bin <= length faces -> 
    (forall ip, ip < np -> patch_range (length faces) ip np = Ok (np, ip * bin, if ip =? np - 1 then length faces else S ip * bin)) ->
    forall m ip, ip + m = np -> exists ps, patches (S m) points faces ip np = Ok ps
      /\ faces_of ps = (if m =? 0 then [] else seq (ip * bin) (length faces - ip * bin))
      /\ (1 <= bin -> Forall (fun p => p_parent p <> []) ps)
      /\ Forall (fun p => exists lo n, denotes points faces p (first_elems lo n)) ps.
  Proof.
    intros Hnp Hb Hr. induction m as [|m IH]; intros ip Hip; rewrite patches_S.
    - rewrite (proj2 (Nat.ltb_ge _ _)) by lia. exists []. cbn. auto.
    - rewrite (proj2 (Nat.ltb_lt _ _)) by lia.
      assert (Hlh : ip * bin <= (if ip =? np - 1 then length faces else S ip * bin) <= length faces).
      { destruct (Nat.eqb_spec ip (np - 1)); nia. }
      assert (Hr' := Hr ip ltac:(lia)). destruct (@start_faces_ok ip np np _ _ Hr' Hlh) as (p & Ep & Dp & _). rewrite Ep. cbn [bind].
      destruct (IH (S ip) ltac:(lia)) as (ps & Eps & Hps & Hne & Hd). rewrite Eps. cbn [bind]. exists (p :: ps). split; [reflexivity|].
      pose proof (@parents_first _ _ _ Dp) as Hpp. split; [|split].
      + unfold faces_of in *. cbn [map concat]. rewrite Hpp, Hps. cbn [Nat.eqb].
        destruct (Nat.eqb_spec m 0).
        * rewrite app_nil_r. rewrite (proj2 (Nat.eqb_eq _ _)) by lia. reflexivity.
        * rewrite (proj2 (Nat.eqb_neq _ _)) by lia. replace (S ip * bin - ip * bin) with bin by lia.
          replace (length faces - ip * bin) with (bin + (length faces - S ip * bin)) by nia.
          rewrite seq_app. do 2 f_equal; lia.
      + intros Hb1. constructor; [|apply Hne; auto]. rewrite Hpp.
        assert ((if ip =? np - 1 then length faces else S ip * bin) - ip * bin <> 0).
        { destruct (Nat.eqb_spec ip (np - 1)); nia. }
        destruct ((if ip =? np - 1 then length faces else S ip * bin) - ip * bin); [congruence|discriminate].
      + constructor; eauto.
  Qed.
End Start.

Lemma patches_ok {F} `{Num F} (points : list (list F)) faces np : good_points points -> good_faces points faces -> 1 <= np ->
  exists ps, patches (S np) points faces 0 np = Ok ps
    /\ faces_of ps = seq 0 (length faces)
    /\ (faces <> [] -> Forall (fun p => p_parent p <> []) ps)
    /\ Forall (fun p => exists lo n, denotes points faces p (first_elems lo n)) ps.
Proof.
  intros Hp Hf Hnp. destruct (@patch_range_ok (length faces) np 0 Hnp) as (np' & bin & lo & hi & _ & Hnp' & _ & Hb & _ & _ & Hcase).
  destruct Hcase as [(-> & Hbin & Hb1)|(-> & -> & Hlt)].
  - destruct (@patches_from F _ points faces Hp Hf np bin Hnp Hb) with (m := np) (ip := 0) as (ps & Eps & Hps & Hne & Hd); auto.
    + intros ip Hip. destruct (@patch_range_ok (length faces) np ip Hnp) as (np2 & bin2 & lo2 & hi2 & E2 & _ & -> & _ & _ & -> & Hc).
      destruct Hc as [(-> & -> & _)|(-> & -> & Hlt)].
      * rewrite E2. rewrite Hbin. reflexivity.
      * exfalso. rewrite Nat.div_small in Hbin; lia.
    + exists ps. split; auto. split; [|split; auto]. rewrite Hps. destruct (Nat.eqb_spec np 0); [lia|]. cbn [Nat.mul]. now rewrite Nat.sub_0_r.
  - (* one patch *)
    rewrite patches_S. rewrite (proj2 (Nat.ltb_lt _ _)) by lia.
    assert (Er : patch_range (length faces) 0 np = Ok (1, 0, length faces)).
    { unfold patch_range. destruct np as [|m]; [lia|]. rewrite Nat.div_small by lia. reflexivity. }
    destruct (@start_faces_ok F _ points faces Hp Hf 0 np 1 0 (length faces) Er ltac:(lia)) as (p & Ep & Dp & _).
    rewrite Ep. cbn [bind]. destruct np as [|m]; [lia|]. rewrite patches_S. cbn [Nat.ltb Nat.leb bind].
    exists [p]. split; [reflexivity|]. rewrite Nat.sub_0_r in Dp. pose proof (@parents_first _ _ _ _ _ _ _ Dp) as Hpp.
    split; [|split].
    + unfold faces_of. cbn. now rewrite Hpp, app_nil_r.
    + intros Hne. constructor; auto. rewrite Hpp. destruct faces; [congruence|discriminate].
    + constructor; eauto.
Qed.

Lemma start_faces_inv {F} `{Num F} (points : list (list F)) faces ip n p n' : start_faces points faces ip n = Ok (p, n') ->
  exists lo hi, patch_range (length faces) ip n = Ok (n', lo, hi) /\ p_level p = 0.
Proof.
  unfold start_faces. destruct (patch_range (length faces) ip n) as [[[n4 lo4] hi4]| |]; cbn [bind]; try discriminate.
  intros E. apply bind_Ok_inv in E. destruct E as (l & _ & E).
  destruct (length l =? hi4 - lo4); [|discriminate].
  apply bind_Ok_inv in E. destruct E as (c & _ & E). injection E as <- <-. eauto.
Qed.
