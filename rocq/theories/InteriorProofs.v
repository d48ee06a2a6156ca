(** Proofs about Interior.v: imposed points, the active front, the darts and the rounds. *)
From Coq Require Import Reals Lra.
From Verif Require Import Base Num SamplingSpec Vec KdSpec KdTree SmartTree DenseQR Geometry GeometryProofs Spheres
  PolyMesh PolyMeshProofs Regions RegionsProofs MonitorProofs KdQueryProofs SpokeFlatProofs Interior InteriorSpec InteriorTreeProofs SurfaceShrinkProofs.
Local Open Scope R_scope.

Lemma tol_pos : 0 < 1 / 10 ^ 10.
Proof. apply Rdiv_lt_0_compat; [lra|apply pow_lt; lra]. Qed.

Lemma mapr_Ok {A B} (f : A -> res B) : forall l out, mapr f l = Ok out -> Forall2 (fun a b => f a = Ok b) l out.
Proof.
  induction l as [|a l IH]; intros out E; cbn [mapr] in E; [injection E as <-; constructor|].
  apply bind_Ok_inv in E. destruct E as (b & Eb & E). apply bind_Ok_inv in E. destruct E as (r & Er & E).
  injection E as <-. constructor; auto.
Qed.
Lemma mapr_total {A B} (f : A -> res B) (P : A -> B -> Prop) l : (forall a, In a l -> exists b, f a = Ok b /\ P a b) ->
  exists out, mapr f l = Ok out /\ Forall2 P l out.
Proof.
  induction l as [|a l IH]; intros H; [exists []; split; [reflexivity|constructor]|].
  destruct (H a (or_introl eq_refl)) as (b & Eb & Pb). destruct IH as (out & E & F); [intros; apply H; now right|].
  exists (b :: out). cbn [mapr]. rewrite Eb. cbn [bind]. rewrite E. cbn [bind]. split; auto.
Qed.
Lemma Forall2_In_l {A B} (P : A -> B -> Prop) l l' a : Forall2 P l l' -> In a l -> exists b, In b l' /\ P a b.
Proof. intros H. induction H; intros []; subst; [eexists; split; [left|]; eauto|]. destruct IHForall2 as (b & ? & ?); auto. exists b. split; [right|]; auto. Qed.
Lemma Forall2_In_r {A B} (P : A -> B -> Prop) l l' b : Forall2 P l l' -> In b l' -> exists a, In a l /\ P a b.
Proof. intros H. induction H; intros []; subst; [eexists; split; [left|]; eauto|]. destruct IHForall2 as (a & ? & ?); auto. exists a. split; [right|]; auto. Qed.

(** ** Families *)
Definition family_ok (l : list (list R)) (fam : @family R) : Prop :=
  fst fam = l /\ match snd fam with None => l = [] | Some t => l <> [] /\ indexes l t end.
Lemma make_family_ok l : exists fam, make_family l = Ok fam /\ family_ok l fam.
Proof.
  destruct l as [|a l]; [exists ([], None); split; [reflexivity|split; reflexivity]|].
  destruct (@index_tree_ok (a :: l)) as (t & E & HI); [discriminate|]. exists (a :: l, Some t).
  unfold make_family. rewrite E. cbn [bind]. split; auto. split; auto. split; [discriminate|auto].
Qed.
Lemma make_family_Ok l fam : make_family l = Ok fam -> family_ok l fam.
Proof. destruct (make_family_ok l) as (fam' & E & H). intros E'. congruence. Qed.

(** A query that succeeds gives the nearest sphere. *)
Lemma tree_closest_Ok l t x i h : indexes l t -> (3 <= length x)%nat -> tree_closest (length l) t x = Ok (i, h) ->
  nearest_sphere x l i /\ h = cdist x (nth i l []).
Proof.
  destruct t as [[[lk root] old] sorted]. intros H Hx E. pose proof H as H'.
  destruct H' as (lf & rt & tr & -> & P & Ls & C & K).
  unfold tree_closest in E.
  destruct (@flat_closest_ok 3 (length l) sorted ltac:(lia) ltac:(lia) lf rt root tr K x dbl_max Hx) as (b & E' & N).
  rewrite E' in E. cbn [bind] in E.
  assert (Ed : forall i, (i < length l)%nat -> edist 3 (flat_coord 3 sorted) x i = cdist x (nth (nth i old 0%nat) l [])).
  { intros k Hk. apply edist_cdist. intros. now rewrite C. }
  assert (Hl : length old = length l) by (rewrite (Permutation_length P), seq_length; auto).
  destruct N as [(-> & N)|(k & Hk & _ & -> & Hd & N)].
  - exfalso. unfold get in E. rewrite (proj2 (nth_error_None old (length l))) in E by lia. discriminate.
  - apply in_seq in Hk. pose proof (@indexes_old l ((lf, rt), root, old, sorted) k H ltac:(lia)) as G. cbn beta iota in G.
    destruct G as (k' & Ek & Hk' & Ek'). rewrite Ek in E. cbn [bind] in E. injection E as <- <-.
    rewrite Ed by lia. rewrite <- Ek'. split; auto. split; auto.
    intros j Hj. destruct (indexes_surj H Hj) as (j' & Hj' & <-).
    rewrite <- (Ed j') by auto. rewrite Ek', <- Ed by lia. apply N; [apply in_seq; lia|auto].
Qed.

Lemma far_outside L (l : list (list R)) x s c : 0 <= L < 1 -> slope L l -> In s l -> In c l ->
  (rad c + L * cdist x c) / (1 - L) <= cdist x s -> rad s <= cdist x s.
Proof.
  intros HL Hs Hin Hc HR. pose proof (Hs s c Hin Hc) as H. pose proof (cdist_triangle s x c) as T.
  rewrite (cdist_sym s x) in T.
  assert (E : rad c + L * cdist x c <= cdist x s * (1 - L)).
  { apply (Rmult_le_compat_r (1 - L)) in HR; [|lra]. unfold Rdiv in HR. rewrite Rmult_assoc, Rinv_l, Rmult_1_r in HR by lra. lra. }
  assert (L * cdist s c <= L * (cdist x s + cdist x c)) by (apply Rmult_le_compat_l; lra). lra.
Qed.

Lemma outside_family_ok L l fam x : 0 <= L < 1 -> family_ok l fam -> slope L l -> (3 <= length x)%nat -> in_range x l ->
  exists b, outside_family L fam x = Ok b /\ (b = true <-> outside (1 / 10 ^ 10) x l).
Proof.
  intros HL (<- & Hf) Hs Hx Hr. unfold outside_family. destruct fam as [l [t|]]; cbn [fst snd] in *.
  2:{ subst l. exists true. split; auto. split; auto. intros _ s []. }
  destruct Hf as (Hne & HI).
  destruct (@tree_closest_ok l t x HI Hx Hne Hr) as (c & E & Hc & Hmin). rewrite E. cbn [bind].
  rewrite (get_nth _ []) by auto. cbn [bind].
  destruct (@tree_in_sphere_ok l t x ((rad (nth c l []) + L * cdist x (nth c l [])) / (1 - L)) HI Hx) as (out & Eo & Ho & Hall).
  change (tree_in_sphere (length l) t x _) with (tree_in_sphere (length l) t x ((rad (nth c l []) + L * cdist x (nth c l [])) / (1 - L))).
  rewrite Eo. cbn [bind].
  rewrite (@mapr_ok _ _ _ (fun i => negb (Rltb (cdist x (nth i l [])) (rad (nth i l []) - 1 / 10 ^ 10)))).
  2:{ intros i Hi. rewrite (get_nth _ []) by auto. cbn [bind]. rewrite sqrt_distance, tol_eq. reflexivity. }
  cbn [bind]. eexists. split; [reflexivity|]. rewrite forallb_forall. split.
  - intros H s Hin. apply In_nth with (d := []) in Hin. destruct Hin as (i & Hi & <-).
    destruct (Rlt_le_dec (cdist x (nth i l [])) ((rad (nth c l []) + L * cdist x (nth c l [])) / (1 - L))) as [Hd|Hd].
    + pose proof (H _ (in_map _ _ _ (Hall i Hi Hd))) as Hb. cbn beta in Hb. apply negb_true_iff, Rltb_false in Hb. lra.
    + pose proof tol_pos. pose proof (@far_outside L l x (nth i l []) (nth c l []) HL Hs (nth_In _ _ Hi) (nth_In _ _ Hc) Hd). lra.
  - intros H b Hb. apply in_map_iff in Hb. destruct Hb as (i & <- & Hi). apply negb_true_iff, Rltb_false.
    pose proof (H (nth i l []) (nth_In _ _ (Ho i Hi))). lra.
Qed.

(** ** Imposed points *)
Lemma imposed_region_ok L seeds t regs surf edge corner sf ef cf q : 0 <= L < 1 ->
  indexes seeds t -> seeds <> [] -> length regs = length seeds ->
  family_ok surf sf -> family_ok edge ef -> family_ok corner cf -> slope L surf -> slope L edge -> slope L corner ->
  (3 <= length q)%nat -> in_range q seeds -> in_range q surf -> in_range q edge -> in_range q corner ->
  exists o, imposed_region L (length seeds) t regs sf ef cf q = Ok o
    /\ match o with Some r => survives seeds regs surf edge corner q r | None => is_dropped seeds regs surf edge corner q end.
Proof.
  intros HL HI Hne Hlr Fs Fe Fc Ss Se Sc Hq R0 R1 R2 R3. unfold imposed_region.
  destruct (@tree_closest_ok seeds t q HI Hq Hne R0) as (c & E & Hc). rewrite E. cbn [bind].
  rewrite (get_nth _ 0%nat) by (rewrite Hlr; apply Hc). cbn [bind].
  assert (En : nth_error regs c = Some (nth c regs 0%nat)) by (apply nth_error_nth'; rewrite Hlr; apply Hc).
  destruct (Nat.eqb_spec (nth c regs 0%nat) 0) as [E0|E0].
  { eexists. split; [reflexivity|]. exists c. split; auto. left. congruence. }
  destruct (@outside_family_ok L surf sf q HL Fs Ss Hq R1) as (a & Ea & Ha). rewrite Ea. cbn [bind]. destruct a; cbn [negb].
  2:{ eexists. split; [reflexivity|]. exists c. split; auto. right; left. intros H. apply Ha in H. discriminate. }
  destruct (@outside_family_ok L edge ef q HL Fe Se Hq R2) as (a & Ea' & Ha'). rewrite Ea'. cbn [bind]. destruct a; cbn [negb].
  2:{ eexists. split; [reflexivity|]. exists c. split; auto. right; right; left. intros H. apply Ha' in H. discriminate. }
  destruct (@outside_family_ok L corner cf q HL Fc Sc Hq R3) as (a & Ea'' & Ha''). rewrite Ea''. cbn [bind].
  eexists. split; [reflexivity|]. destruct a.
  - exists c. split; auto. split; auto. split; auto. split; [apply Ha; auto|]. split; [apply Ha'; auto|apply Ha''; auto].
  - exists c. split; auto. right; right; right. intros H. apply Ha'' in H. discriminate.
Qed.

Lemma undersized_ok surf l : (length l <= length surf)%nat -> exists fam, undersized_family surf l = Ok fam /\ family_ok l fam.
Proof.
  intros H. unfold undersized_family. destruct (Nat.ltb_spec (length surf) (length l)); [lia|]. apply make_family_ok.
Qed.

Lemma kept_of_ids seeds regs surf edge corner : forall imposed ids, Forall (fun q => length q = 4%nat) imposed ->
  Forall2 (fun q o => match o with Some r => survives seeds regs surf edge corner q r | None => is_dropped seeds regs surf edge corner q end) imposed ids ->
  kept_of seeds regs surf edge corner imposed (kept_points imposed ids).
Proof.
  intros imposed ids Hl H. induction H as [|q o imposed ids Ho H IH]; [constructor|].
  inversion Hl as [|? ? Hq Hl']; subst. unfold kept_points. cbn [combine flat_map]. fold (kept_points imposed ids).
  destruct o as [r|]; cbn [app].
  - rewrite firstn_all2 by lia. constructor; auto.
  - constructor; auto.
Qed.

Theorem impose_ok L seeds regs surf edge corner sizing imposed : 0 <= L < 1 ->
  seeds <> [] -> length regs = length seeds -> Forall sphere seeds ->
  slope L surf -> slope L edge -> slope L corner -> (length corner <= length surf)%nat -> (length sizing <= length surf)%nat ->
  Forall (fun q => length q = 4%nat /\ in_range q seeds /\ in_range q surf /\ in_range q edge /\ in_range q corner) imposed ->
  exists m, forall fuel, (m <= fuel)%nat -> exists seeds' kept,
    impose_interior_seeds fuel L seeds regs surf edge corner sizing imposed = Ok (seeds' ++ map fst kept, regs ++ map snd kept)
    /\ smoothed L seeds seeds' /\ kept_of seeds regs surf edge corner imposed kept.
Proof.
  intros HL Hne Hlr Hs Ss Se Sc Hc Hz Hq.
  destruct (index_tree_ok Hne) as (t & Et & HI).
  destruct (@lip_seeds_ok L seeds t ltac:(lra) HI Hs) as (m & Hm). exists m. intros fuel Hf.
  destruct (Hm fuel Hf) as (seeds' & El & Hsm). unfold impose_interior_seeds. rewrite Et. cbn [bind]. rewrite El. cbn [bind].
  destruct (make_family_ok surf) as (sf & Esf & Fs). rewrite Esf. cbn [bind].
  destruct (make_family_ok edge) as (ef & Eef & Fe). rewrite Eef. cbn [bind].
  destruct (@undersized_ok surf corner Hc) as (cf & Ecf & Fc). rewrite Ecf. cbn [bind].
  destruct (@undersized_ok surf sizing Hz) as (zf & Ezf & _). rewrite Ezf. cbn [bind].
  destruct Hsm as (Hshr & Hsm'). pose proof Hshr as (Hl' & Hc').
  assert (HI' : indexes seeds' t). { apply (@indexes_ext seeds); auto. intros i d Hi Hd. apply Hc'; auto. }
  rewrite Hl'.
  destruct (@mapr_total _ _ (imposed_region L (length seeds) t regs sf ef cf)
    (fun q o => match o with Some r => survives seeds regs surf edge corner q r | None => is_dropped seeds regs surf edge corner q end) imposed)
    as (ids & Ei & Fi).
  { intros q Hin. rewrite Forall_forall in Hq. destruct (Hq q Hin) as (Q1 & Q2 & Q3 & Q4 & Q5).
    apply (@imposed_region_ok L seeds t regs surf edge corner sf ef cf q); auto. lia. }
  rewrite Ei. cbn [bind]. exists seeds', (kept_points imposed ids). split; [|split; [split; auto|apply kept_of_ids; auto]].
  - unfold append_imposed. destruct (Nat.eqb_spec (length (kept_points imposed ids)) 0) as [E0|E0].
    + destruct (kept_points imposed ids); [|discriminate]. cbn [map]. now rewrite !app_nil_r.
    + rewrite Nat.leb_refl. reflexivity.
  - rewrite Forall_forall in *. intros q Hin. apply Hq; auto.
Qed.

(** ** The counter *)
Lemma run_counter_seq ts : run_counter (flat_map (fun t => [Fetch t; Put t]) ts) = length ts.
Proof.
  unfold run_counter. assert (G : forall ts c f, fst (fold_left (fun s e => counter_step e s) (flat_map (fun t => [Fetch t; Put t]) ts) (c, f)) = (c + length ts)%nat).
  { induction ts0 as [|t ts0 IH]; intros c f; [cbn; lia|]. cbn [flat_map app fold_left counter_step fst snd]. rewrite Nat.eqb_refl, IH. cbn. lia. }
  now rewrite G.
Qed.

(** ** The front *)
Lemma conflict_R L a b : conflict L a b = true <-> ~ far_apart L a b.
Proof.
  unfold conflict, far_apart. rewrite sqrt_distance, tol_eq. cbn [nltb RNum nadd nsub nmul nofZ].
  change (gv a 3%nat) with (rad a). change (gv b 3%nat) with (rad b). change (@n2 R _) with 2. rewrite Rltb_true. lra.
Qed.

Definition front_ok (L : R) (fs : list (list R)) (k : nat) (act : list bool) : Prop :=
  length act = length fs
  /\ (forall a b, (a < length fs)%nat -> (S b < a)%nat -> nth a act false = true -> nth b act false = true -> far_apart L (nth a fs []) (nth b fs []))
  /\ (forall a, (a < k)%nat -> nth a act false = false -> exists b, (S b < a)%nat /\ nth b act false = true /\ ~ far_apart L (nth a fs []) (nth b fs []))
  /\ (forall a, (k <= a)%nat -> nth a act false = false).
Definition trues (act : list bool) : nat := count_occ Bool.bool_dec act true.

Lemma trues_upd act i : (i < length act)%nat -> nth i act false = false -> trues (upd act i true) = S (trues act).
Proof.
  unfold trues. revert i. induction act as [|a act IH]; intros [|i] Hi E; cbn in Hi; try lia.
  - cbn in E. subst a. reflexivity.
  - cbn [upd nth] in *. cbn [count_occ]. rewrite IH by (auto; lia). destruct (Bool.bool_dec a true); auto.
Qed.

Lemma select_ok L cap fs : forall m i good act, (i + m = length fs)%nat -> (1 <= i)%nat -> front_ok L fs i act ->
  trues act = good -> (good < cap)%nat ->
  exists act' k, select L cap fs m i good act = Ok act' /\ (k <= length fs)%nat /\ front_ok L fs k act'
    /\ (forall a, nth a act false = true -> nth a act' false = true)
    /\ (trues act' <= cap)%nat /\ (k = length fs \/ trues act' = cap).
Proof.
  induction m as [|m IH]; intros i good act Him Hi Hf Ht Hg; cbn [select].
  { exists act, i. split; auto. split; [lia|]. split; auto. split; auto. split; [lia|left; lia]. }
  destruct Hf as (F1 & F2 & F3 & F4).
  assert (Hgood : good_front L fs act i = true <-> forall j, (S j < i)%nat -> nth j act false = true -> far_apart L (nth i fs []) (nth j fs [])).
  { unfold good_front. rewrite forallb_forall. split.
    - intros H j Hj Ej. specialize (H j ltac:(apply in_seq; lia)). rewrite Ej in H. cbn [andb] in H. apply negb_true_iff in H.
      destruct (Rle_dec ((3 + 2 * L) * (rad (nth i fs []) + rad (nth j fs [])) - 1 / 10 ^ 10) (cdist (nth i fs []) (nth j fs []))) as [D|D]; auto.
      apply conflict_R in D. congruence.
    - intros H j Hj. apply in_seq in Hj. apply negb_true_iff. destruct (nth j act false) eqn:Ej; auto. cbn [andb].
      destruct (conflict L (nth i fs []) (nth j fs [])) eqn:Ec; auto. apply conflict_R in Ec. exfalso. apply Ec, H; auto. lia. }
  destruct (good_front L fs act i) eqn:Eg.
  - pose proof (proj1 Hgood eq_refl) as G.
    assert (Hi' : (i < length act)%nat) by lia. rewrite set_Ok by auto. cbn [bind].
    assert (N : forall a, nth a (upd act i true) false = if (a =? i)%nat then true else nth a act false).
    { intros a. rewrite nth_upd by lia. auto. }
    assert (F' : front_ok L fs (S i) (upd act i true)).
    { split; [rewrite upd_length; auto|]. split; [|split].
      - intros a b Ha Hb Ea Eb. rewrite N in Ea, Eb.
        destruct (Nat.eqb_spec a i) as [->|Hai].
        + destruct (Nat.eqb_spec b i); [lia|]. apply G; auto.
        + destruct (Nat.eqb_spec b i) as [->|]; [|apply F2; auto]. exfalso. rewrite F4 in Ea by lia. discriminate.
      - intros a Ha Ea. rewrite N in Ea. destruct (Nat.eqb_spec a i); [discriminate|].
        destruct (F3 a ltac:(lia) Ea) as (b & B1 & B2 & B3). exists b. split; auto. split; auto. rewrite N.
        destruct (b =? i)%nat; auto.
      - intros a Ha. rewrite N. destruct (Nat.eqb_spec a i); [lia|]. apply F4. lia. }
    assert (T' : trues (upd act i true) = S good) by (rewrite trues_upd; auto).
    assert (Mono : forall a, nth a act false = true -> nth a (upd act i true) false = true) by (intros a Ea; rewrite N, Ea; destruct (a =? i)%nat; auto).
    destruct (Nat.eqb_spec (S good) cap) as [Ec|Ec].
    + exists (upd act i true), (S i). split; auto. split; [lia|]. split; auto. split; auto. split; [lia|right; lia].
    + destruct (IH (S i) (S good) (upd act i true) ltac:(lia) ltac:(lia) F' T' ltac:(lia)) as (act' & k & E & K1 & K2 & K3 & K4 & K5).
      exists act', k. split; [exact E|]. split; [exact K1|]. split; [exact K2|]. split; [intros a Ha; apply K3, Mono, Ha|]. split; [exact K4|exact K5].
  - assert (F' : front_ok L fs (S i) act).
    { split; auto. split; auto. split.
      - intros a Ha Ea. destruct (Nat.eq_dec a i) as [->|Hne]; [|apply F3; auto; lia].
        unfold good_front in Eg. apply Bool.not_true_iff_false in Eg. 
        destruct (existsb (fun j => nth j act false && conflict L (nth i fs []) (nth j fs [])) (seq 0 (i - 1))) eqn:Ex.
        + apply existsb_exists in Ex. destruct Ex as (j & Hj & Ej). apply andb_true_iff in Ej. destruct Ej as (E1 & E2).
          apply in_seq in Hj. exists j. split; [lia|]. split; auto. apply conflict_R; auto.
        + exfalso. apply Eg. apply forallb_forall. intros j Hj. apply negb_true_iff.
          destruct (nth j act false && conflict L (nth i fs []) (nth j fs [])) eqn:E'; auto.
          assert (existsb (fun j => nth j act false && conflict L (nth i fs []) (nth j fs [])) (seq 0 (i - 1)) = true)
            by (apply existsb_exists; eauto). congruence.
      - intros a Ha. apply F4. lia. }
    apply IH; auto; lia.
Qed.

Theorem active_front_ok L cap fs : fs <> [] -> (2 <= cap)%nat ->
  exists act k, active_front L cap fs = Ok act /\ (k <= length fs)%nat /\ front_ok L fs k act
    /\ nth 0 act false = true /\ (trues act <= cap)%nat /\ (k = length fs \/ trues act = cap).
Proof.
  intros Hf Hc. unfold active_front. destruct fs as [|f fs]; [congruence|]. cbn [length repeat].
  change (set (false :: repeat false (length fs)) 0 true) with (Ok (true :: repeat false (length fs))). cbn [bind].
  replace (S (length fs) - 1)%nat with (length fs) by lia.
  destruct (@select_ok L cap (f :: fs) (length fs) 1 1 (true :: repeat false (length fs))) as (act & k & E & K1 & K2 & K3 & K4 & K5); auto.
  - split; [cbn; rewrite repeat_length; auto|]. split; [|split].
    + intros a b _ Hb Ea. destruct a as [|a]; [lia|]. cbn [nth] in Ea. rewrite nth_repeat in Ea. discriminate.
    + intros a Ha Ea. destruct a; [discriminate|lia].
    + intros a Ha. destruct a; [lia|]. cbn [nth]. apply nth_repeat.
  - unfold trues. cbn [count_occ]. destruct (Bool.bool_dec true true); [|congruence].
    rewrite (proj1 (count_occ_not_In _ _ _)); auto. intros Hin. apply repeat_spec in Hin. discriminate.
  - exists act, k. split; [exact E|]. split; [exact K1|]. split; [exact K2|]. split; [apply K3; reflexivity|]. split; [exact K4|exact K5].
Qed.
