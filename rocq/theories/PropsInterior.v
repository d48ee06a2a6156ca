(** C44, C45, C67, C68, C69: the interior seeds of the volume mesh. *)
From Coq Require Import Reals Lra.
From Verif Require Import Base Num SamplingSpec Vec KdSpec KdTree SmartTree DenseQR Geometry GeometryProofs Spheres
  PolyMesh PolyMeshProofs Regions RegionsProofs MonitorProofs KdQueryProofs SpokeFlatProofs Interior InteriorSpec InteriorTreeProofs
  InteriorProofs InteriorRunProofs SurfaceShrinkProofs.
Local Open Scope R_scope.
Notation fl := FloatInst.of_Z.

(** ** C44: the active front *)
(** Whatever the front and its order: the selection succeeds, the first front seed is
    active, at most [cap] are, and two active ones that are not next to each other in the
    (shuffled) front are at least (3 + 2 L)(r + r') apart, up to 1e-10.  A front seed that
    was looked at is left inactive only because of an active one that is too close. *)
Theorem C44_separated_partial L cap fs : fs <> [] -> (2 <= cap)%nat ->
  exists act, active_front L cap fs = Ok act /\ length act = length fs
    /\ nth 0 act false = true /\ (count_occ Bool.bool_dec act true <= cap)%nat
    /\ (forall a b, (a < length fs)%nat -> (S b < a)%nat -> nth a act false = true -> nth b act false = true ->
         far_apart L (nth a fs []) (nth b fs []))
    /\ (forall a, (a < length fs)%nat -> nth a act false = false ->
         count_occ Bool.bool_dec act true = cap
         \/ exists b, (S b < a)%nat /\ nth b act false = true /\ ~ far_apart L (nth a fs []) (nth b fs [])).
Proof.
  intros H Hc. destruct (@active_front_ok L cap fs H Hc) as (act & k & E & Hk & (F1 & F2 & F3 & F4) & F5 & F6 & F7).
  exists act. split; [exact E|]. split; [exact F1|]. split; [exact F5|]. split; [exact F6|]. split; [exact F2|].
  intros a Ha Hf. destruct F7 as [->|F7]; [|left; exact F7]. right. auto.
Qed.

(** Points within twice the radii of two such seeds, as their darts are, are still
    (1 + 2 L)(r + r') apart. *)
Theorem C44_darts_apart L a b y z : far_apart L a b -> cdist y a <= 2 * rad a -> cdist z b <= 2 * rad b ->
  (1 + 2 * L) * (rad a + rad b) - 1 / 10 ^ 10 <= cdist y z.
Proof.
  unfold far_apart. intros H Hy Hz. pose proof (cdist_triangle a y b) as T1. pose proof (cdist_triangle y z b) as T2.
  rewrite (cdist_sym a y) in T1. lra.
Qed.

(** The lists of active and inactive front seeds partition the front. *)
Theorem C44_partition (front : list nat) (act : list bool) : length act = length front ->
  Permutation (chosen true front act ++ chosen false front act) front
  /\ forall k, In k (chosen true front act) <-> exists i, nth_error front i = Some k /\ nth i act false = true.
Proof.
  revert act. induction front as [|k front IH]; intros [|a act] H; try discriminate.
  { split; [constructor|]. intros k. split; [intros []|]. intros (i & Hi & _). destruct i; discriminate. }
  injection H as H. destruct (IH act H) as (P & C). unfold chosen in *. cbn [combine filter].
  assert (X : forall j, (exists i, nth_error (k :: front) i = Some j /\ nth i (a :: act) false = true)
    <-> (j = k /\ a = true \/ exists i, nth_error front i = Some j /\ nth i act false = true)).
  { intros j. split.
    - intros ([|i] & H1 & H2); cbn in H1, H2; [left; split; congruence|right; exists i; auto].
    - intros [(-> & ->)|(i & H1 & H2)]; [exists 0%nat|exists (S i)]; auto. }
  destruct a; cbn [Bool.eqb map fst app]; split.
  - constructor. exact P.
  - intros j. rewrite X. cbn [In]. rewrite C. intuition.
  - apply Permutation_sym, Permutation_cons_app, Permutation_sym. exact P.
  - intros j. rewrite X, C. intuition. discriminate.
Qed.

(** The full claim is false: the loop at 1042-1059 stops one short, so two neighbours in the
    front are never compared.  Even two equal spheres become active together. *)
Theorem C44_adjacent_refuted L cap a : (2 <= cap)%nat -> 1 / 10 ^ 10 < rad a -> 0 <= L ->
  active_front L cap [a; a] = Ok [true; true] /\ ~ far_apart L a a.
Proof.
  intros Hc Hr HL. split.
  - unfold active_front. cbn [length repeat set upd bind]. unfold set. cbn. destruct cap as [|[|[|cap]]]; try lia; reflexivity.
  - unfold far_apart. replace (cdist a a) with 0; [|symmetry; apply vdist_self].
    assert (0 <= L * rad a) by (apply Rmult_le_pos; lra). lra.
Qed.
(** An empty front (no seed inside) reads outside the arrays (1039). *)
Theorem C44_empty_refuted (L : R) cap : active_front L cap [] = UB.
Proof. reflexivity. Qed.

Example C44_run :
  active_front (PrimFloat.div (fl 1) (fl 4)) 100
    [[fl 0; fl 0; fl 0; fl 1]; [fl 50; fl 0; fl 0; fl 1]; [fl 5; fl 0; fl 0; fl 1]; [fl 9; fl 0; fl 0; fl 1]]%Z
  = Ok [true; true; false; true].
Proof. vm_compute. reflexivity. Qed.

(** ** C45: imposed points *)
(** With one increment of the counter per valid point: the call ends, the existing seeds
    keep their places, regions and centres (radii are smoothed), and after them come exactly
    the imposed points that are outside all spheres and nearest to a seed of an interior
    region, in their order, with that region. *)
Theorem C45_imposed L seeds regs surf edge corner sizing imposed : 0 <= L < 1 ->
  seeds <> [] -> length regs = length seeds -> Forall sphere seeds ->
  slope L surf -> slope L edge -> slope L corner -> (length corner <= length surf)%nat -> (length sizing <= length surf)%nat ->
  Forall (fun q => length q = 4%nat /\ in_range q seeds /\ in_range q surf /\ in_range q edge /\ in_range q corner) imposed ->
  exists m, forall fuel, (m <= fuel)%nat -> exists seeds' kept,
    impose_interior_seeds fuel L seeds regs surf edge corner sizing imposed = Ok (seeds' ++ map fst kept, regs ++ map snd kept)
    /\ shrunk seeds seeds' /\ kept_of seeds regs surf edge corner imposed kept.
Proof.
  intros. destruct (@impose_ok L seeds regs surf edge corner sizing imposed) as (m & Hm); auto.
  exists m. intros fuel Hf. destruct (Hm fuel Hf) as (s' & k & E & (Sh & _) & K). exists s', k. auto.
Qed.
(** Increments that do not overlap count every valid point, in any order of threads. *)
Theorem C45_counter ts : run_counter (flat_map (fun t => [Fetch t; Put t]) ts) = length ts.
Proof. apply run_counter_seq. Qed.
(** The increments are not synchronised: with two threads one may be lost, and then the
    copy writes outside the new arrays. *)
Theorem C45_lost_update_refuted :
  run_counter [Fetch 0; Fetch 1; Put 0; Put 1] = 1%nat
  /\ forall (seeds : list (list R)) regs q q' r r',
       append_imposed (run_counter [Fetch 0; Fetch 1; Put 0; Put 1]) seeds regs [q; q'] [Some r; Some r'] = UB.
Proof. split; reflexivity. Qed.
(** With more corner spheres (or sizing points) than surface spheres the tree does not fit
    its arrays. *)
Theorem C45_undersized_refuted fuel (L : R) seeds regs surf edge corner sizing imposed :
  (length surf < length corner)%nat -> (forall f, impose_interior_seeds fuel L seeds regs surf edge corner sizing imposed <> Ok f).
Proof.
  intros Hc f E. unfold impose_interior_seeds in E.
  do 4 (apply bind_Ok_inv in E; destruct E as (? & _ & E)). unfold undersized_family at 1 in E.
  apply Nat.ltb_lt in Hc. rewrite Hc in E. discriminate.
Qed.

Lemma near_big x : x <= 100 -> x < @dbl_max R _.
Proof. intros H. apply Rle_lt_trans with 100; auto. unfold dbl_max. cbn [nofZ RNum]. apply IZR_lt. reflexivity. Qed.
Lemma cdist_le a b m : 0 <= m -> sumn 3 (fun d => (vec a d - vec b d) * (vec a d - vec b d)) <= m * m -> cdist a b <= m.
Proof. intros Hm H. apply Rsqr_incr_0_var; auto. unfold Rsqr. unfold cdist. rewrite vdist_sq. exact H. Qed.
Definition ex_seeds : list (list R) := [[0;0;0;1]; [10;0;0;1]].
Definition ex_surf : list (list R) := [[5;0;0;1]; [5;1;0;1]].
Example C45_hypotheses :
  ex_seeds <> [] /\ Forall sphere ex_seeds /\ slope (1/4) ex_surf
  /\ Forall (fun q => length q = 4%nat /\ in_range q ex_seeds /\ in_range q ex_surf /\ in_range q [] /\ in_range q [[5;0;0;1]])
       [[1;1;0;1]; [5;0;0;1]].
Proof.
  split; [discriminate|]. split; [repeat constructor; unfold rad; cbn; lra|]. split.
  - assert (forall x y : R, x = 1 -> y = 1 -> forall a b : list R, x <= y + 1/4 * cdist a b).
    { intros x y -> -> a b. pose proof (cdist_nonneg a b). lra. }
    intros a b [<-|[<-|[]]] [<-|[<-|[]]]; apply H; reflexivity.
  - apply Forall_forall; intros q [<-|[<-|[]]]; (split; [reflexivity|split; [|split; [|split]]]); intros s Hs; apply near_big; cbn in Hs;
      repeat match goal with H : _ \/ _ |- _ => destruct H as [<-|H] end; try contradiction;
      (apply (@cdist_le _ _ 100); [lra|]); unfold sumn, rsum, vec; cbn [seq map fold_right nth]; lra.
Qed.
Example C45_run :
  impose_interior_seeds 10 (PrimFloat.div (fl 1) (fl 4)) [[fl 0; fl 0; fl 0; fl 1]; [fl 10; fl 0; fl 0; fl 1]]%Z [1; 0]%nat
    [[fl 5; fl 0; fl 0; fl 1]; [fl 5; fl 1; fl 0; fl 1]]%Z [] [[fl 5; fl 0; fl 0; fl 1]]%Z []
    [[fl 1; fl 1; fl 0; fl 1]; [fl 5; fl 0; fl 0; fl 1]; [fl 9; fl 1; fl 0; fl 1]; [fl 2; fl 2; fl 0; fl 1]]%Z
  = Ok ([[fl 0; fl 0; fl 0; fl 1]; [fl 10; fl 0; fl 0; fl 1]; [fl 1; fl 1; fl 0; fl 1]; [fl 2; fl 2; fl 0; fl 1]]%Z, [1; 0; 1; 1]%nat).
Proof. vm_compute. reflexivity. Qed.

(** ** C67: smoothing of the seed sizes *)
(** The passes end; centres do not change, sizes only shrink; between seeds that were
    within twice the size of one another the sizes vary with slope L up to 1e-10; and the
    sizes stay above every assignment with slope L below the given ones (nothing is shrunk
    more than needed). *)
Theorem C67_smoothing L l : 0 <= L -> l <> [] -> Forall sphere l ->
  exists t m, index_tree l = Ok t /\ forall fuel, (m <= fuel)%nat -> exists l',
    lip_seeds fuel L t l = Ok l' /\ shrunk l l' /\ Forall sphere l' /\ near_slope L (1 / 10 ^ 10) l l' /\ above_all_slopes L l l'.
Proof.
  intros HL Hne Hs. destruct (index_tree_ok Hne) as (t & Et & HI). destruct (@lip_seeds_ok L l t HL HI Hs) as (m & Hm).
  exists t, m. split; [exact Et|exact Hm].
Qed.
(** The slope does not hold between seeds that are farther apart: sizes 2 and 0 at distance
    5 are left as they are, with L = 1/4. *)
Theorem C67_not_global_refuted :
  (t <- index_tree [[fl 0; fl 0; fl 0; fl 2]; [fl 5; fl 0; fl 0; fl 0]]%Z ;;
   lip_seeds 10 (PrimFloat.div (fl 1) (fl 4)) t [[fl 0; fl 0; fl 0; fl 2]; [fl 5; fl 0; fl 0; fl 0]]%Z)
  = Ok [[fl 0; fl 0; fl 0; fl 2]; [fl 5; fl 0; fl 0; fl 0]]%Z
  /\ ~ 2 <= 0 + 1 / 4 * cdist [0;0;0;2] [5;0;0;0].
Proof.
  split; [vm_compute; reflexivity|]. intros H. assert (cdist [0;0;0;2] [5;0;0;0] <= 5); [|lra].
  apply cdist_le; [lra|]. unfold sumn, rsum, vec; cbn [seq map fold_right nth]; lra.
Qed.
Example C67_run :
  (t <- index_tree [[fl 0; fl 0; fl 0; fl 8]; [fl 4; fl 0; fl 0; fl 1]; [fl 8; fl 0; fl 0; fl 9]]%Z ;;
   lip_seeds 10 (PrimFloat.div (fl 1) (fl 4)) t [[fl 0; fl 0; fl 0; fl 8]; [fl 4; fl 0; fl 0; fl 1]; [fl 8; fl 0; fl 0; fl 9]]%Z)
  = Ok [[fl 0; fl 0; fl 0; fl 2]; [fl 4; fl 0; fl 0; fl 1]; [fl 8; fl 0; fl 0; fl 2]]%Z.
Proof. vm_compute. reflexivity. Qed.

(** ** C68: darts *)
Lemma for_res_grow {A} (body : nat -> list A -> res (list A)) : (forall k l l', body k l = Ok l' -> (length l' <= S (length l))%nat) ->
  forall n lo l l', for_res n lo body l = Ok l' -> (length l' <= length l + n)%nat.
Proof.
  intros Hb. induction n as [|n IH]; intros lo l l' E; cbn [for_res] in E; [injection E as <-; lia|].
  apply bind_Ok_inv in E. destruct E as (l1 & E1 & E). apply Hb in E1. apply IH in E. lia.
Qed.
(** Darts of seed number k of the seeds [l] and the buffer [buf]: at most 20 become seeds,
    and each one is a good dart (see InteriorSpec.v: within two radii of its seed, outside
    all given spheres, outside all seeds near, nearest to a seed of the same region, with a
    size that keeps the slope to it and is at most that of the nearest sizing point), and
    outside the spheres of the earlier ones. *)
Theorem C68_darts (L rmax : R) l regs buf bregs t front lip surf edge corner sizing sf ef cf zf dir u k sk new :
  1 / 4 <= L < 1 -> 0 <= rmax -> l <> [] -> length regs = length l -> length bregs = length buf -> Forall sphere (l ++ buf) ->
  index_tree l = Ok t -> make_family surf = Ok sf -> make_family edge = Ok ef -> make_family corner = Ok cf -> make_family sizing = Ok zf ->
  slope L surf -> slope L edge -> slope L corner -> Forall (fun p => 0 <= rad p) sizing ->
  (forall d, 0 <= u d <= 1) -> (forall d, norm 3 (vec (dir d)) <= 1) ->
  nth_error (l ++ buf) k = Some sk ->
  throw_darts L rmax (IS l regs buf bregs t front lip) sf ef cf zf dir u k = Ok new ->
  (length new <= 20)%nat
  /\ Forall (good_dart L rmax (surf ++ edge ++ corner) sizing (l ++ buf) (regs ++ bregs) k sk) new
  /\ ForallOrdPairs (fun a b => rad a <= cdist b a) new.
Proof.
  intros HL Hrm Hne Hr Hb Hs Et Es Ee Ec Ez Ss Se Sc Hz Hu Hd Hk E.
  change (throw_darts L rmax (IS l regs buf bregs t front lip) sf ef cf zf dir u k)
    with (throw_darts L rmax (IS l regs buf bregs t [] lip) sf ef cf zf dir u k) in E.
  set (s := IS l regs buf bregs t [] lip) in *.
  assert (HS : st_ok s).
  { constructor; auto; [|constructor]. destruct (index_tree_ok Hne) as (t' & Et' & HI). cbn. congruence. }
  apply make_family_Ok in Es, Ee, Ec, Ez.
  unfold throw_darts in E. apply bind_Ok_inv in E. destruct E as (sk' & Ek & E).
  rewrite sphere_at_all in Ek. apply get_Ok in Ek. assert (sk' = sk) by (unfold all in Ek; cbn in Ek; congruence). subst sk'.
  apply bind_Ok_inv in E. destruct E as (near & En & E).
  assert (Hsk : sphere sk) by (rewrite Forall_forall in Hs; apply Hs; eapply nth_error_In; eauto).
  assert (HN : near_ok L (surf ++ edge ++ corner) s sk near) by (apply (@gather_Ok L s surf edge corner sf ef cf sk near); auto; lra).
  split.
  - apply (for_res_grow _) in E; [exact E|]. intros j a a' Ea.
    destruct (@throw_dart_Ok L rmax (surf ++ edge ++ corner) sizing zf s k sk near HL Hrm HS Ek Ez Hz HN _ _ _ _ (Hu j) (Hd j) Ea) as [->|(y & -> & _)];
      [lia|rewrite app_length; cbn; lia].
  - exact (@throw_all L rmax (surf ++ edge ++ corner) sizing zf s k sk near HL Hrm HS Ek Ez Hz HN dir u new Hu Hd E).
Qed.

(** A good dart is outside every seed that keeps the slope with its parent, or that is more
    than twice its own radius away. *)
Theorem C68_disjoint L rmax fixed sizing l regs k sk y : 1 / 4 <= L < 1 -> 0 <= rad sk ->
  good_dart L rmax fixed sizing l regs k sk y ->
  forall s, In s l -> rad s <= rad sk + L * cdist s sk -> rad s <= cdist y s.
Proof.
  intros HL Hr (_ & _ & G3 & _ & G5 & _) s Hs Hsl. destruct (Rlt_le_dec (cdist sk s) (3 / (1 - L) * rad sk)) as [H|H]; [auto|].
  pose proof (cdist_triangle sk y s) as T. rewrite (cdist_sym sk y) in T. rewrite (cdist_sym s sk) in Hsl.
  assert (E : 3 * rad sk <= (1 - L) * cdist sk s).
  { apply Rmult_le_compat_l with (r := 1 - L) in H; [|lra]. replace ((1 - L) * (3 / (1 - L) * rad sk)) with (3 * rad sk) in H by (field; lra). lra. }
  lra.
Qed.

(** ** C69: the whole run *)
(** Whatever the front order, the draws and the number of rounds: if the call returns, the
    given seeds are the first seeds of the answer, with their centres and regions and with
    sizes that only shrank; every other seed has the (interior) region of the seed that was
    nearest to it among those that existed when it was added, is outside all surface, edge
    and corner spheres, and is not larger than rmax or than the size at its nearest sizing
    point; and sizes of near seeds vary with slope L up to 1e-10. *)
Theorem C69_interior_seeds fuel lfuel (L rmax : R) threads l0 regs0 surf edge corner sizing dr l regs :
  1 / 4 <= L < 1 -> 0 <= rmax -> l0 <> [] -> Forall sphere l0 -> length regs0 = length l0 ->
  slope L surf -> slope L edge -> slope L corner -> Forall (fun p => 0 <= rad p) sizing ->
  (forall k, (forall i, 0 <= d_front (dr k) i <= 1) /\ (forall a d, norm 3 (vec (d_dir (dr k) a d)) <= 1)
             /\ (forall a d, 0 <= d_len (dr k) a d <= 1)) ->
  generate_interior_seeds fuel lfuel L rmax threads l0 regs0 surf edge corner sizing dr = Ok (l, regs) ->
  extended rmax (surf ++ edge ++ corner) sizing l0 regs0 l regs /\ near_slope L (1 / 10 ^ 10) l l.
Proof. intros. eapply generate_Ok; eauto. Qed.

Example C69_hypotheses :
  1/4 <= 1/4 < 1 /\ ex_seeds <> [] /\ Forall sphere ex_seeds /\ slope (1/4) ex_surf /\ norm 3 (vec [1;0;0]) <= 1.
Proof.
  destruct C45_hypotheses as (H1 & H2 & H3 & _). split; [lra|]. split; [exact H1|]. split; [exact H2|]. split; [exact H3|].
  apply Rsqr_incr_0_var; [|lra]. unfold Rsqr, norm. rewrite sqrt_sqrt; unfold dot, sumn, rsum, vec; cbn [seq map fold_right nth]; lra.
Qed.
Definition ex_dirs : list (list PrimFloat.float) :=
  [[fl 1; fl 0; fl 0]; [fl (-1); fl 0; fl 0]; [fl 0; fl 1; fl 0]; [fl 0; fl (-1); fl 0]]%Z.
Definition ex_draws : nat -> draws PrimFloat.float := fun k =>
  DR (fun _ => fl 0) (fun _ d => nth (if (k =? 0)%nat then d else 4%nat) ex_dirs [fl 0; fl 0; fl 0])%Z (fun _ _ => fl 1)%Z.
(** One interior seed between exterior ones grows into a cross of seeds. *)
Example C69_run :
  generate_interior_seeds 10 10 (PrimFloat.div (fl 1) (fl 4)) (fl 1) 1
    [[fl 0; fl 0; fl 0; fl 1]; [fl 4; fl 0; fl 0; fl 1]; [fl (-4); fl 0; fl 0; fl 1]; [fl 0; fl 4; fl 0; fl 1]; [fl 0; fl (-5); fl 0; fl 1];
     [fl 0; fl 0; fl 3; fl 1]; [fl 0; fl 0; fl (-3); fl 1]]%Z
    [1; 0; 0; 0; 0; 0; 0]%nat [[fl 3; fl 0; fl 0; fl 2]]%Z [] [] [] ex_draws
  = Ok ([[fl 0; fl 0; fl 0; fl 1]; [fl 4; fl 0; fl 0; fl 1]; [fl (-4); fl 0; fl 0; fl 1]; [fl 0; fl 4; fl 0; fl 1]; [fl 0; fl (-5); fl 0; fl 1];
     [fl 0; fl 0; fl 3; fl 1]; [fl 0; fl 0; fl (-3); fl 1]; [fl (-2); fl 0; fl 0; fl 1]; [fl 0; fl 2; fl 0; fl 1]; [fl 0; fl (-2); fl 0; fl 1]]%Z,
        [1; 0; 0; 0; 0; 0; 0; 1; 1; 1]%nat).
Proof. vm_compute. reflexivity. Qed.
(** With L < 1/4 the search radius 3 r / (1 - L) is too small: here L = 0, and a seed of the
    interior region is added at (2, 0, 0), whose nearest seed is the exterior one at
    (3.5, 0, 0). *)
Theorem C69_small_slope_refuted :
  let h := PrimFloat.div (fl 7) (fl 2) in
  generate_interior_seeds 10 10 (fl 0) (fl 1) 1 [[fl 0; fl 0; fl 0; fl 1]; [h; fl 0; fl 0; fl 1]]%Z [1; 0]%nat [] [] [] []
    (fun _ => DR (fun _ => fl 0) (fun _ _ => [fl 1; fl 0; fl 0]) (fun _ _ => fl 1))%Z
  = Ok ([[fl 0; fl 0; fl 0; fl 1]; [h; fl 0; fl 0; fl 1]; [fl 2; fl 0; fl 0; fl 1]]%Z, [1; 0; 1]%nat)
  /\ cdist [2;0;0;1] [7/2;0;0;1] < cdist [2;0;0;1] [0;0;0;1].
Proof.
  split; [vm_compute; reflexivity|].
  apply Rle_lt_trans with (3/2). { apply cdist_le; [lra|]. unfold sumn, rsum, vec; cbn [seq map fold_right nth]; lra. }
  apply Rsqr_incrst_0; [|lra|apply cdist_nonneg]. unfold Rsqr, cdist. rewrite vdist_sq. unfold dot, sumn, rsum, vec; cbn [seq map fold_right nth]; lra.
Qed.

Print Assumptions C44_separated_partial.
Print Assumptions C44_darts_apart.
Print Assumptions C44_partition.
Print Assumptions C44_adjacent_refuted.
Print Assumptions C45_imposed.
Print Assumptions C45_counter.
Print Assumptions C45_lost_update_refuted.
Print Assumptions C45_undersized_refuted.
Print Assumptions C67_smoothing.
Print Assumptions C67_not_global_refuted.
Print Assumptions C68_darts.
Print Assumptions C68_disjoint.
Print Assumptions C69_interior_seeds.
Print Assumptions C69_small_slope_refuted.
