(** Proofs about the generation of the surface seeds: shrinking and the final state. *)
From Coq Require Import Reals Lra.
From Verif Require Import Base Num Vec KdTree SmartTree KdSpec SmartTreeSpec SmartQueryProofs SmartTreeProofs TreeGrow DenseQR Geometry GeometrySpec GeometryProofs
  Spheres SpheresSpec SpheresProofs SpheresOverlapProofs PropsGeometry SeedPairs SeedPairsSpec SeedPairsProofs SeedCoverProofs SeedRunProofs SeedLoopProofs.
Local Open Scope R_scope.

Lemma nlit2 : @nlit R RNum 1 2 = 1 / 100.
Proof. cbn. lra. Qed.

Section End.
  Variable ss : stree R.
  Hypothesis Hss : st_pts ss = [] \/ spheres ss.
  Hypothesis Hpos : forall i, (i < count ss)%nat -> 0 < radius ss i <= dbl_max / 4.
  Hypothesis H4 : forall p, In p (st_pts ss) -> length p = 4%nat.

  Lemma nonempty_spheres m : (m < count ss)%nat -> spheres ss.
  Proof. intros Hm. destruct Hss as [E|]; auto. unfold count in Hm. rewrite E in Hm. simpl in Hm. lia. Qed.

  Lemma shrink_slivers_ok l : NoDup (map fst l) -> (forall m r, In (m, r) l -> (m < count ss)%nat) ->
    exists s', shrink_slivers ss l = Ok (s', match l with [] => false | _ => true end) /\ only_radii ss s'
      /\ (forall m r, In (m, r) l -> radius s' m = r) /\ (forall m, ~ In m (map fst l) -> radius s' m = radius ss m).
  Proof.
    intros ND Hl. unfold shrink_slivers. set (f := fun (e : nat * R) (st : stree R * bool) => _).
    assert (G : forall l s b, NoDup (map fst l) -> (forall m r, In (m, r) l -> (m < count ss)%nat) -> only_radii ss s ->
      exists s', each f l (s, b) = Ok (s', match l with [] => b | _ => true end) /\ only_radii ss s'
        /\ (forall m r, In (m, r) l -> radius s' m = r) /\ (forall m, ~ In m (map fst l) -> radius s' m = radius s m)).
    { clear ND Hl l. induction l as [|(m, r) t IH]; intros s b ND Hl Ho.
      - exists s. split; [reflexivity|]. split; auto. split; [intros m r []|auto].
      - assert (Hm : (m < count ss)%nat) by (apply (Hl m r); left; auto).
        pose proof (only_radii_spheres Ho (nonempty_spheres Hm)) as Hsp.
        destruct (@set_radius_ok s Hsp m r) as (s1 & E1 & O1 & R1 & K1); [rewrite (only_radii_count Ho); auto|].
        inversion ND as [|? ? N1 N2]; subst.
        destruct (IH s1 true N2) as (s2 & E2 & O2 & R2 & K2); [intros m0 r0 H0; apply (Hl m0 r0); right; auto|eapply only_radii_trans; eauto|].
        exists s2. split.
        { unfold each in *. cbn [fold_left bind]. unfold f at 2. change (st_n ss) with (count ss).
          apply Nat.ltb_lt in Hm. rewrite Hm. cbn [fst]. rewrite E1. cbn [bind]. rewrite E2. destruct t; reflexivity. }
        split; auto. split.
        + intros m' r' [[= <- <-]|H]; [rewrite K2 by auto; auto|auto].
        + intros m' Hm'. cbn [map fst] in Hm'. rewrite K2 by (intros H; apply Hm'; right; auto). apply K1. intros ->. apply Hm'. left; auto. }
    destruct (G l ss false ND Hl (only_radii_refl ss)) as (s' & E & R). exists s'. split; auto.
  Qed.

  Lemma get_row m : (m < count ss)%nat -> exists sp, get_sphere ss m = Ok sp /\ gv sp 3%nat = radius ss m.
  Proof.
    intros Hm. destruct (@get_sphere_ok ss (nonempty_spheres Hm) m Hm) as (sp & E & _ & H). exists sp. split; auto. rewrite H by lia. reflexivity.
  Qed.
  (** least_radius of the two first spheres. *)
  Lemma least_radius_ok i x : (i < count ss)%nat ->
    exists r, least_radius ss [i; x; x] = Ok r /\ r = small_radius ss i x /\ 0 < r <= dbl_max / 4.
  Proof.
    intros Hi. destruct (get_row Hi) as (si & Ei & Ri). destruct (Hpos Hi) as (P1 & P2). pose proof dbl_max_pos as Pd.
    unfold least_radius, each. cbn [fold_left bind]. change (st_n ss) with (count ss). apply Nat.ltb_lt in Hi as Hi'. rewrite Hi', Ei. cbn [bind]. rewrite Ri.
    change nltb with Rltb. assert (Rltb (radius ss i) (@dbl_max R RNum) = true) as ->.
    { apply Rltb_true. eapply Rle_lt_trans; [exact P2|]. lra. }
    unfold small_radius. destruct (Nat.ltb_spec x (count ss)) as [Hx|Hx]; cbn [bind].
    - destruct (get_row Hx) as (sx & Ex & Rx). rewrite Ex. cbn [bind]. rewrite Rx. destruct (Hpos Hx) as (Q1 & Q2).
      destruct (Rltb (radius ss x) (radius ss i)) eqn:E; [apply Rltb_true in E|apply Rltb_false in E].
      + assert (Rltb (radius ss x) (radius ss x) = false) as -> by (apply Rltb_false; lra). eexists. split; [reflexivity|].
        rewrite Rmin_right by lra. auto.
      + assert (Rltb (radius ss x) (radius ss i) = false) as -> by (apply Rltb_false; auto). eexists. split; [reflexivity|].
        rewrite Rmin_left by lra. auto.
    - eexists. split; [reflexivity|]. auto.
  Qed.

  (** Marks. *)
  Definition marks (f : list bool) (sh : bool) : Prop :=
    length f = count ss /\ (sh = true -> exists m, (m < count ss)%nat /\ nth m f false = true).
  Lemma mark_spheres_ok i x f : (i < count ss)%nat -> length f = count ss ->
    exists f', mark_spheres ss [i; x; x] f = Ok f' /\ marks f' true.
  Proof.
    intros Hi Hf. unfold mark_spheres, each. cbn [fold_left bind]. change (st_n ss) with (count ss). apply Nat.ltb_lt in Hi as Hi'. rewrite Hi'.
    rewrite (@set_Ok _ f i true) by lia. cbn [bind].
    assert (K : forall g, nth i (upd (upd f i true) g true) false = true).
    { intros g. destruct (Nat.eq_dec i g) as [->|N].
      - destruct (Nat.lt_ge_cases g (length f)); [|lia]. apply nth_error_nth. rewrite upd_nth_same; auto. rewrite upd_length; auto.
      - apply nth_error_nth. rewrite upd_nth_other by auto. rewrite upd_nth_same; auto. lia. }
    destruct (Nat.ltb_spec x (count ss)) as [Hx|Hx]; cbn [bind].
    - rewrite (@set_Ok _ (upd f i true) x true) by (rewrite upd_length; lia). cbn [bind].
      rewrite (@set_Ok _ (upd (upd f i true) x true) x true) by (rewrite !upd_length; lia).
      eexists. split; [reflexivity|]. split; [rewrite !upd_length; auto|]. intros _. exists i. split; auto.
      destruct (Nat.eq_dec i x) as [->|N].
      + apply nth_error_nth. rewrite upd_nth_same; auto. rewrite !upd_length; lia.
      + apply nth_error_nth. rewrite upd_nth_other by auto. rewrite upd_nth_other by auto. rewrite upd_nth_same; auto; lia.
    - eexists. split; [reflexivity|]. split; [rewrite !upd_length; auto|]. intros _. exists i. split; auto.
      apply nth_error_nth. rewrite upd_nth_same; auto; lia.
  Qed.

  Lemma close_seeds_ok (acc : nat -> nat -> nat -> pair R -> Prop) this other t u f sh : tree3 t ->
    (forall i j k p, acc i j k p -> (i < count ss)%nat) -> (forall i j k p, acc i j k p -> exists x y, p_att p = (i, x, y)) ->
    seeds_of acc this other t u -> marks f sh ->
    exists f' sh', close_seeds ss t (f, sh) = Ok (f', sh') /\ marks f' sh' /\ (sh = true -> sh' = true) /\ (sh' = false -> spaced ss t).
  Proof.
    intros (l & G) Hacc Hatt Hs Hm. unfold close_seeds. change (st_n t) with (count t). set (body := fun q st => _).
    destruct (@for_res_inv _ (fun n (st : list bool * bool) => marks (fst st) (snd st) /\ (sh = true -> snd st = true)
        /\ (snd st = false -> forall a b q i x y, (a < n)%nat -> (b < count t)%nat -> a <> b ->
               record t a = Some [6; q; i; x; y; 0]%nat -> small_radius ss i x / 100 <= vdist 3 (center t a) (center t b)))
      (count t) 0%nat body (f, sh)) as ((f', sh') & E & M & K & S).
    - split; auto. split; auto. intros; lia.
    - intros a (f1, sh1) Ha (M1 & K1 & S1). cbn [fst snd] in *. assert (Ha' : (a < count t)%nat) by lia.
      destruct (Hs a Ha') as (i & j & k & p & b & x & y & A1 & A2 & A3 & A4 & A5 & A6).
      assert (Hl : l <> []) by (intros ->; unfold count in Ha'; rewrite (grown_pts G) in Ha'; simpl in Ha'; lia).
      unfold body. unfold record in A5. rewrite (grown_att G Hl) in A5 |- *.
      assert (Hget : get (map it_a l) a = Ok (Some [6; b; i; x; y; 0]%nat)).
      { rewrite <- A5. destruct (nth_error (map it_a l) a) eqn:En; [rewrite (get_some En); f_equal; symmetry; apply nth_error_nth; auto|].
        apply nth_error_None in En. rewrite map_length in En. unfold count in Ha'. rewrite (grown_pts G), map_length in Ha'. lia. }
      rewrite Hget. cbn [bind]. change (get [6; b; i; x; y; 0]%nat 2) with (Ok i). change (get [6; b; i; x; y; 0]%nat 3) with (Ok x). cbn [bind].
      assert (Hi : (i < count ss)%nat) by (eapply Hacc; eauto).
      destruct (@least_radius_ok i x Hi) as (r & -> & Er & Hr). cbn [bind].
      pose proof (@grown_ready 3 t l ltac:(lia) G Hl) as Rd. pose proof (proj1 G) as End. pose proof dbl_max_pos as Pd.
      destruct (@closest_to_ok t Rd any a dbl_max) as (q & -> & N); [exact Ha'|left; exact Pd|]. cbn [bind]. destruct q as (c, h).
      assert (Hfar : Rltb (h / r) (1 / 100) = false -> forall b', (b' < count t)%nat -> a <> b' -> r / 100 <= vdist 3 (center t a) (center t b')).
      { intros Ef b' Hb' Nab. apply Rltb_false in Ef.
        assert (Hh : r / 100 <= h).
        { apply Rmult_le_reg_r with (/ r); [apply Rinv_0_lt_compat; lra|]. unfold Rdiv in *. replace (r * / 100 * / r) with (1 * / 100) by (field; lra). exact Ef. }
        assert (Ib : In b' (all_points t)) by (apply in_seq; unfold count in Hb'; lia).
        assert (Eb : dist_to t (nth a (st_pts t) []) b' = vdist 3 (center t a) (center t b')) by (rewrite dist_to_vdist by auto; reflexivity).
        rewrite <- Eb. destruct N as [(Eq & N)|(i' & _ & _ & Eq & _ & N)].
        - specialize (N b' Ib (conj eq_refl (not_eq_sym Nab))). cbn [snd] in N. assert (dbl_max / 4 <= dbl_max) by lra. lra.
        - specialize (N b' Ib (conj eq_refl (not_eq_sym Nab))). assert (h = dist_to t (nth a (st_pts t) []) i') by (exact (f_equal snd Eq)). lra. }
      rewrite nlit2. change ndiv with Rdiv. change nltb with Rltb.
      destruct (Rltb (h / r) (1 / 100)) eqn:Eh.
      + destruct (@mark_spheres_ok i x f1 Hi (proj1 M1)) as (f2 & Ef2 & M2). cbn [fst]. rewrite Ef2. cbn [bind]. eexists. split; [reflexivity|]. cbn [fst snd].
        split; auto. split; auto. discriminate.
      + eexists. split; [reflexivity|]. cbn [fst snd]. split; auto. split; auto.
        intros Esh a' b' q' i' x' y' Ha2 Hb' Nab Er'. destruct (Nat.eq_dec a' a) as [->|Na]; [|eapply S1; eauto; lia].
        unfold record in Er'. rewrite (grown_att G Hl) in Er'. rewrite A5 in Er'. injection Er' as <- <- <- <-. rewrite <- Er. auto.
    - exists f', sh'. split; [exact E|]. auto.
  Qed.

  Lemma shrink_marked_ok f : length f = count ss ->
    exists s', shrink_marked ss f = Ok s' /\ only_radii ss s'
      /\ forall m, radius s' m = if nth m f false then 95 / 100 * radius ss m else radius ss m.
  Proof.
    intros Hf. unfold shrink_marked. change (st_n ss) with (count ss). set (body := fun i s => _).
    destruct (@for_res_inv _ (fun n s => only_radii ss s /\ forall m, radius s m = if Nat.ltb m n then (if nth m f false then 95 / 100 * radius ss m else radius ss m) else radius ss m)
      (count ss) 0%nat body ss) as (s' & E & O & K).
    - split; [apply only_radii_refl|]. intros m. reflexivity.
    - intros i s Hi (O1 & K1). unfold body. destruct (nth_error_lt f (i := i)) as (b & Eb); [lia|]. rewrite (get_some Eb). cbn [bind].
      pose proof (nth_error_nth _ _ false Eb) as Enb.
      assert (Hi' : (i < count ss)%nat) by lia. pose proof (only_radii_spheres O1 (nonempty_spheres Hi')) as Hsp.
      destruct b.
      + destruct (@get_sphere_ok s Hsp i) as (sp & -> & _ & Hsp2); [rewrite (only_radii_count O1); auto|]. cbn [bind].
        rewrite (Hsp2 3%nat) by lia. change (coord (st_pts s) i 3%nat) with (radius s i). rewrite nlit95. change nmul with Rmult.
        destruct (@set_radius_ok s Hsp i (radius s i * (95 / 100))) as (s2 & E2 & O2 & R2 & K2); [rewrite (only_radii_count O1); auto|].
        exists s2. split; auto. split; [eapply only_radii_trans; eauto|]. intros m. destruct (Nat.eq_dec m i) as [->|N].
        * rewrite R2, K1. rewrite Nat.ltb_irrefl. assert (Nat.ltb i (Datatypes.S i) = true) as -> by (apply Nat.ltb_lt; lia). rewrite Enb. ring.
        * rewrite K2, K1 by auto. destruct (Nat.ltb_spec m i), (Nat.ltb_spec m (Datatypes.S i)); auto; lia.
      + exists s. split; auto. split; auto. intros m. rewrite K1. destruct (Nat.eq_dec m i) as [->|N].
        * rewrite Nat.ltb_irrefl. rewrite Enb. destruct (Nat.ltb _ _); auto.
        * destruct (Nat.ltb_spec m i), (Nat.ltb_spec m (Datatypes.S i)); auto; lia.
    - exists s'. split; [exact E|]. split; auto. intros m. rewrite K. cbn [Nat.add]. destruct (Nat.ltb_spec m (count ss)); auto.
      rewrite nth_overflow by lia. auto.
  Qed.
End End.

Section Main.
  Variable o : oracle R.
  Variables ss es cs : stree R.
  Variable L : R.
  Hypothesis Hss : sphere_set L ss.
  Hypothesis Hes : sphere_set L es.
  Hypothesis Hcs : sphere_set L cs.
  Let all := all_spheres ss es cs.
  Hypothesis Hmod : moderate all.
  Hypothesis HL : 0 <= L < 1.
  Hypothesis Huse : usable all (o_darts o).
  Hypothesis HLe : lipschitz L es.
  Hypothesis HLc : lipschitz L cs.
  Definition accepted_by (i j k : nat) (p : pair R) : Prop := accepted ss es cs (o_face o) i j k p
    /\ meeting_pair ss es cs (o_darts o i j k) (o_stale o i j k) (o_face o i) i j k = Ok (Some p).
  Let acc := accepted_by.

  Lemma rad_surface m : (m < count ss)%nat -> (m < length all)%nat /\ rad all m = radius ss m.
  Proof.
    intros Hm. split; [unfold all; rewrite all_len; unfold count, st_n in *; lia|]. unfold rad, radius, coord, all. rewrite all_nth_s; auto.
  Qed.
  Lemma generate_ok ups los : st_nd ups = 3%nat -> st_nd los = 3%nat ->
    exists ss' u l sh, generate_surface_seeds o ss es cs L ups los = Ok (ss', u, l, sh)
      /\ only_radii ss ss'
      /\ (sh = false -> ss' = ss /\ seeds_inv acc u l /\ spaced ss u /\ spaced ss l)
      /\ (sh = true -> st_pts u = [] /\ st_pts l = []
            /\ (forall m, (m < count ss)%nat -> 0 <= radius ss' m <= radius ss m) /\ (exists m, (m < count ss)%nat /\ radius ss' m < radius ss m))
      /\ forall i j k p, (i < j < k)%nat -> (k < length all)%nat -> (i < count ss)%nat ->
           meeting_pair ss es cs (o_darts o i j k) (o_stale o i j k) (o_face o i) i j k = Ok (Some p) ->
           settled ss es cs (o_face o) (o_pv o) (o_nrm o) ss' u l sh i j k p.
  Proof.
    intros Nu Nl. unfold generate_surface_seeds, clear_tree at 1 2. rewrite Nu, Nl.
    assert (P0 : P o ss es cs (MkSeeding (st_new 3) (st_new 3) [])).
    { split; [|split; [constructor|intros m r []]]. cbn [g_up g_lo]. split; [apply tree3_new|]. split; [apply tree3_new|].
      repeat split; try (intros a; unfold count; simpl; lia). }
    destruct (@all_triples_ok o ss es cs L Hss Hes Hcs Hmod HL Huse HLe HLc _ P0) as (g & -> & (Hinv & ND & Hsl) & Hout). cbn [bind].
    pose proof Hss as (_ & Hsp & _ & H4).
    assert (Hpos : forall i, (i < count ss)%nat -> 0 < radius ss i <= dbl_max / 4).
    { intros i Hi. destruct (rad_surface Hi) as (Hi' & <-). apply (Hmod Hi' Hi'). }
    destruct (g_sliver g) as [|e t] eqn:Es.
    - pose proof Hinv as (Tu & Tl & Su & Sl & Du & Dl).
      assert (A1 : forall i j k p, acc i j k p -> (i < count ss)%nat) by (intros i j k p (A & _); apply A).
      assert (A2 : forall i j k p, acc i j k p -> exists x y, p_att p = (i, x, y)).
      { intros i j k p ((_ & _ & _ & _ & _ & _ & (_ & _ & _ & _ & _ & _ & _ & (x & y & E & _) & _) & _) & _). eauto. }
      destruct (@close_seeds_ok ss Hsp Hpos H4 acc p_up p_lo (g_up g) (g_lo g) (repeat false (st_n ss)) false Tu A1 A2 Su) as (f1 & sh1 & -> & M1 & _ & S1).
      { split; [apply repeat_length|discriminate]. }
      cbn [bind].
      destruct (@close_seeds_ok ss Hsp Hpos H4 acc p_lo p_up (g_lo g) (g_up g) f1 sh1 Tl A1 A2 Sl M1) as (f2 & sh2 & -> & M2 & K2 & S2).
      cbn [bind]. destruct sh2.
      + destruct (@shrink_marked_ok ss Hsp Hpos H4 f2 (proj1 M2)) as (s' & -> & O & K). cbn [bind]. eexists s', _, _, true. split; [reflexivity|].
        split; auto. split; [discriminate|]. split.
        * intros _. split; [reflexivity|]. split; [reflexivity|]. split.
          -- intros m Hm. rewrite K. pose proof (Hpos m Hm) as (Pm & _). destruct (nth m f2 false); lra.
          -- destruct M2 as (_ & M2). destruct (M2 eq_refl) as (m & Hm & Em). exists m. split; auto. rewrite K, Em. pose proof (Hpos m Hm) as (Pm & _). lra.
        * intros i j k p H1 H2 H3 Hp. destruct (Hout i j k H1 H2 H3 p Hp) as [A|[(A & _)|(c & C1 & [C2|(a & b & d & q & r' & _ & Ir & _)])]].
          -- left. auto.
          -- right; left. split; [apply A|auto].
          -- right; right. exists c. split; auto.
          -- rewrite Es in Ir. destruct Ir.
      + exists ss, (g_up g), (g_lo g), false. split; auto. split; [apply only_radii_refl|]. split.
        { intros _. split; auto. split; auto. split; auto. apply S1. destruct sh1; auto. symmetry. apply K2. auto. }
        split; [discriminate|]. intros i j k p H1 H2 H3 Hp. destruct (Hout i j k H1 H2 H3 p Hp) as [A|[(A & [B|B])|(c & C1 & [C2|(a & b & d & q & r' & _ & Ir & _)])]].
        * left. auto.
        * rewrite Es in B. congruence.
        * right; left. split; [apply A|auto].
        * right; right. exists c. split; auto.
        * rewrite Es in Ir. destruct Ir.
    - destruct (@shrink_slivers_ok ss Hsp Hpos (e :: t) ND) as (s' & -> & O & R1 & R2).
      { intros m r H. apply (Hsl m r H). }
      cbn [bind]. eexists s', _, _, true. split; [reflexivity|]. split; auto. split; [discriminate|]. split.
      + intros _. split; [reflexivity|]. split; [reflexivity|].
        assert (Q : forall m r, In (m, r) (e :: t) -> 0 <= radius s' m < radius ss m).
        { intros m r H. rewrite (R1 m r H). destruct (Hsl m r H) as (Hm & H0). destruct (rad_surface Hm) as (_ & Er). fold all in H0. rewrite Er in H0. auto. }
        split.
        * intros m Hm. destruct (in_dec Nat.eq_dec m (map fst (e :: t))) as [I1|I1].
          -- apply in_map_iff in I1 as ((m', r) & Em & I2). cbn [fst] in Em. subst m'. pose proof (Q m r I2). lra.
          -- rewrite R2 by auto. pose proof (Hpos m Hm). lra.
        * destruct e as (m, r). exists m. split; [apply (Hsl m r); left; auto|apply (Q m r); left; auto].
      + intros i j k p H1 H2 H3 Hp. destruct (Hout i j k H1 H2 H3 p Hp) as [A|[(A & _)|(c & C1 & [C2|(a & b & d & q & r' & C2 & Ir & Hr)])]].
        * left. auto.
        * right; left. split; [apply A|auto].
        * right; right. exists c. split; auto.
        * right; right. exists c. split; auto. right. split; auto. exists a, b, d, q. split; [exact C2|]. rewrite Es in Ir.
          split; [apply (Hsl _ _ Ir)|]. rewrite (R1 _ _ Ir). exact Hr.
  Qed.
End Main.

(** * Merging *)
Section Merge.
  Variable acc : nat -> nat -> nat -> pair R -> Prop.
  Hypothesis Hacc : forall i j k p, acc i j k p -> length (p_up p) = 4%nat /\ length (p_lo p) = 4%nat /\ length (p_nrm p) = 3%nat.
  Variable need : nat -> nat -> bool.

  Lemma copy_seed_ok this other t u sh i s : (forall i j k p, acc i j k p -> (3 <= length (this p))%nat) ->
    tree3 t -> seeds_of acc this other t u -> tree3 s -> (i < count t)%nat ->
    exists s', copy_seed need t sh i s = Ok s' /\ tree3 s' /\ st_pts s' = st_pts s ++ [nth i (st_pts t) []]
      /\ record s' (count s) = shifted sh (record t i) /\ normal_of s' (count s) = normal_of t i
      /\ forall a, (a < count s)%nat -> record s' a = record s a /\ normal_of s' a = normal_of s a.
  Proof.
    intros Hth (l & G) Hs Ts Hi. destruct (Hs i Hi) as (i0 & j0 & k0 & p & b & x & y & A & E1 & E2 & E3 & E4 & _).
    assert (Hl : l <> []) by (intros ->; unfold count in Hi; rewrite (grown_pts G) in Hi; simpl in Hi; lia).
    assert (Hil : (i < length l)%nat) by (unfold count in Hi; rewrite (grown_pts G), map_length in Hi; auto).
    unfold copy_seed. rewrite (grown_nrm G Hl), (grown_att G Hl).
    destruct (nth_error_lt (st_pts t) (i := i) Hi) as (row & Er). rewrite (get_some Er). cbn [bind]. rewrite (nth_error_nth _ _ [] Er) in E1 |- *.
    destruct (nth_error_lt (map it_n l) (i := i)) as (nv & En); [rewrite map_length; auto|]. rewrite (get_some En). cbn [bind].
    destruct (nth_error_lt (map it_a l) (i := i)) as (av & Ea); [rewrite map_length; auto|]. rewrite (get_some Ea). cbn [bind].
    unfold normal_of in E2. rewrite (grown_nrm G Hl), (nth_error_nth _ _ [] En) in E2.
    unfold record in E4. rewrite (grown_att G Hl), (nth_error_nth _ _ None Ea) in E4. subst av nv row.
    change (get [6; b; i0; x; y; 0]%nat 1) with (Ok b). cbn [bind].
    change (Base.set [6; b; i0; x; y; 0]%nat 1 (b + sh)%nat) with (Ok [6; b + sh; i0; x; y; 0]%nat). cbn [bind].
    destruct (@add_seed need s (this p) (p_nrm p) [6; b + sh; i0; x; y; 0]%nat) as (s' & Es & Ts' & Ep & Er' & En' & Hold); auto.
    - eapply Hth; eauto.
    - apply (Hacc A).
    - discriminate.
    - exists s'. split; auto. split; auto. split; auto. split; [|split; auto].
      + rewrite Er'. unfold record. rewrite (grown_att G Hl), (nth_error_nth _ _ None Ea). reflexivity.
      + rewrite En'. unfold normal_of. rewrite (grown_nrm G Hl), (nth_error_nth _ _ [] En). reflexivity.
  Qed.
  Lemma firstn_snoc {A} (l : list A) i d : (i < length l)%nat -> firstn (S i) l = firstn i l ++ [nth i l d].
  Proof. revert i. induction l as [|x t IH]; intros [|i] H; simpl in *; try lia; auto. f_equal. apply IH. lia. Qed.
  Lemma copy_all_ok this other t u sh s : (forall i j k p, acc i j k p -> (3 <= length (this p))%nat) ->
    tree3 t -> seeds_of acc this other t u -> tree3 s ->
    exists s', for_res (count t) 0 (copy_seed need t sh) s = Ok s' /\ tree3 s' /\ st_pts s' = st_pts s ++ st_pts t
      /\ (forall a, (a < count s)%nat -> record s' a = record s a /\ normal_of s' a = normal_of s a)
      /\ (forall a, (a < count t)%nat -> record s' (count s + a) = shifted sh (record t a) /\ normal_of s' (count s + a) = normal_of t a).
  Proof.
    intros Hth Tt Hs Ts.
    destruct (@for_res_inv _ (fun n s' => tree3 s' /\ st_pts s' = st_pts s ++ firstn n (st_pts t)
        /\ (forall a, (a < count s)%nat -> record s' a = record s a /\ normal_of s' a = normal_of s a)
        /\ (forall a, (a < n)%nat -> record s' (count s + a) = shifted sh (record t a) /\ normal_of s' (count s + a) = normal_of t a))
      (count t) 0%nat (copy_seed need t sh) s) as (s' & E & T' & P' & K1 & K2).
    - split; auto. split; [rewrite app_nil_r; auto|]. split; auto. intros; lia.
    - intros i s1 Hi (T1 & P1 & K1 & K2). assert (Hit : (i < count t)%nat) by lia.
      destruct (@copy_seed_ok this other t u sh i s1 Hth Tt Hs T1 Hit) as (s2 & E2 & T2 & P2 & R2 & N2 & O2).
      assert (Ec : count s1 = (count s + i)%nat) by (unfold count in *; rewrite P1, app_length, firstn_length; lia).
      exists s2. split; auto. split; auto. split; [rewrite P2, P1, <- app_assoc; f_equal; symmetry; apply firstn_snoc; exact Hit|].
      split.
      + intros a Ha. destruct (O2 a ltac:(lia)) as (-> & ->). auto.
      + intros a Ha. destruct (Nat.eq_dec a i) as [->|Na]; [rewrite <- Ec; auto|]. destruct (O2 (count s + a)%nat ltac:(lia)) as (-> & ->). apply K2. lia.
    - exists s'. split; auto. split; auto. split; [rewrite P'; cbn [Nat.add]; unfold count; rewrite firstn_all; auto|]. auto.
  Qed.
  Lemma merge_ok u l : tree3 u -> tree3 l -> seeds_of acc p_up p_lo u l -> seeds_of acc p_lo p_up l u ->
    exists s, merge_seeds need u l (st_new 3) = Ok s /\ tree3 s /\ merged u l s.
  Proof.
    intros Tu Tl Su Sl. unfold merge_seeds. change (st_n u) with (count u). change (st_n l) with (count l).
    destruct (@copy_all_ok p_up p_lo u l (count u) (st_new 3)) as (s1 & -> & T1 & P1 & K1 & R1); auto; [|apply tree3_new|].
    { intros i j k p A. destruct (Hacc A) as (-> & _). lia. }
    cbn [bind].
    destruct (@copy_all_ok p_lo p_up l u 0%nat s1) as (s2 & -> & T2 & P2 & K2 & R2); auto.
    { intros i j k p A. destruct (Hacc A) as (_ & -> & _). lia. }
    assert (Ec : count s1 = count u) by (unfold count; rewrite P1; reflexivity).
    exists s2. split; auto. split; auto. split; [rewrite P2, P1; reflexivity|]. split.
    - intros a Ha. destruct (K2 a ltac:(lia)) as (-> & ->). apply (R1 a Ha).
    - intros b Hb. rewrite <- Ec. destruct (R2 b Hb) as (-> & ->). split; auto.
      destruct (Sl b Hb) as (i & j & k & p & q & x & y & _ & _ & _ & _ & -> & _). cbn [shifted]. rewrite Nat.add_0_r. reflexivity.
  Qed.
End Merge.
