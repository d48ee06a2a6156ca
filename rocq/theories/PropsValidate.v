(** C38: the acceptance test of the surface mesh. *)
From Coq Require Import Reals Lra.
From Verif Require Import Base Num Vec KdTree SmartTree KdSpec SmartTreeSpec SmartQueryProofs SmartTreeProofs TreeGrow DenseQR Geometry GeometrySpec GeometryProofs
  Spheres SpheresSpec SpheresProofs SpheresOverlapProofs PropsGeometry SeedPairs SeedPairsSpec SeedPairsProofs SeedCoverProofs SeedRunProofs SeedLoopProofs SeedEndProofs SeedPairsCase
  PolyMesh PolyMeshSpec PolyMeshProofs Validate ValidateSpec ValidateProofs PropsSeedPairs.
Local Open Scope R_scope.

(** The mesh is accepted exactly if each edge with a surface sphere has two triangles; then no sphere
    changes.  Otherwise some surface sphere shrinks, none grows, and only radii change. *)
Theorem C38_accepted ss es cs faces :
  st_pts ss = [] \/ spheres ss -> (forall m, (m < count ss)%nat -> 0 < radius ss m) ->
  proper_triangles (count ss + count es + count cs) faces ->
  exists ss' wt, validate_surface_mesh ss es cs faces = Ok (ss', wt)
    /\ (wt = true <-> closed_surface (count ss) faces) /\ (wt = true -> ss' = ss)
    /\ only_radii ss ss'
    /\ (forall m, (m < count ss)%nat -> 0 < radius ss' m <= radius ss m)
    /\ (wt = false -> exists m, (m < count ss)%nat /\ radius ss' m < radius ss m).
Proof.
  intros Hss Hr Hp. destruct (@validate_ok ss es cs faces Hss Hp) as (ss' & wt & E & O & W & S & Rd).
  exists ss', wt. split; auto. split; auto. split; auto. split; auto.
  assert (Pw : forall k, 0 < (95/100) ^ k <= 1).
  { induction k as [|k [I1 I2]]; cbn [pow]; [lra|nra]. }
  split.
  - intros m Hm. rewrite Rd by auto. specialize (Hr m Hm). destruct (Pw (strikes faces m)). nra.
  - intros Ef. assert (Hn : ~ closed_surface (count ss) faces) by (intros C; apply W in C; congruence).
    assert (Hs : exists m, (m < count ss)%nat /\ strikes faces m <> 0%nat).
    { destruct (existsb (fun m => negb (Nat.eqb (strikes faces m) 0)) (seq 0 (count ss))) eqn:Ex.
      - apply existsb_exists in Ex. destruct Ex as (m & Hm & N). apply in_seq in Hm. exists m. split; [lia|].
        intros C. rewrite C in N. discriminate.
      - exfalso. apply Hn. intros f a b Hf Ha Hb Hab Hns.
        assert (Hz : forall m, (m < count ss)%nat -> strikes faces m = 0%nat).
        { intros m Hm. destruct (Nat.eq_dec (strikes faces m) 0) as [Z|Z]; auto. exfalso.
          assert (existsb (fun m => negb (Nat.eqb (strikes faces m) 0)) (seq 0 (count ss)) = true); [|congruence].
          apply existsb_exists. exists m. split; [apply in_seq; lia|]. apply Nat.eqb_neq in Z. rewrite Z. reflexivity. }
        refine (proj2 (closed_edges (count ss) Hp) _ f a b Hf Ha Hb Hab Hns).
        intros (x, y) He Hb' Hs'. cbn [fst snd] in *. unfold bad_edge in Hb'. cbn [fst snd] in Hb'. apply negb_true_iff in Hb'. rename Hb' into N2.
        assert (K : forall m, (m = x \/ m = y) -> strikes faces m <> 0%nat).
        { intros m Hm C. unfold strikes in C. apply length_zero_iff_nil in C.
          assert (I : In (x, y) (filter (fun e => ((fst e =? m) || (snd e =? m)) && negb (length (faces_with faces (fst e) (snd e)) =? 2))%nat
            (flat_map face_edges faces))).
          { apply filter_In. split; auto. cbn [fst snd]. rewrite N2. cbn.
            destruct Hm as [->| ->]; rewrite Nat.eqb_refl; cbn; auto. rewrite Bool.orb_true_r. reflexivity. }
          rewrite C in I. destruct I. }
        destruct Hs' as [Hx|Hx]; [apply (K x)|apply (K y)]; auto. }
    destruct Hs as (m & Hm & Hk). exists m. split; auto. rewrite Rd by auto. specialize (Hr m Hm).
    destruct (strikes faces m) as [|k]; [congruence|]. cbn [pow]. destruct (Pw k). nra.
Qed.
(** How much: by 5 per cent for each irregular edge of each triangle at the sphere. *)
Theorem C38_shrinking ss es cs faces : st_pts ss = [] \/ spheres ss ->
  proper_triangles (count ss + count es + count cs) faces ->
  exists ss' wt, validate_surface_mesh ss es cs faces = Ok (ss', wt)
    /\ forall m, (m < count ss)%nat -> radius ss' m = radius ss m * (95/100) ^ strikes faces m.
Proof.
  intros Hss Hp. destruct (@validate_ok ss es cs faces Hss Hp) as (ss' & wt & E & O & W & S & Rd). eauto.
Qed.

(** The triangles that are tested: one per lower seed, joining the three spheres it was made from. *)
Lemma each_face_ok l : (forall a, (a < length l)%nat -> exists b i x y, nth a l None = Some [6; b; i; x; y; 0]%nat) ->
  exists fs, each_face l = Ok fs /\ length fs = length l
    /\ forall a b i x y, (a < length l)%nat -> nth a l None = Some [6; b; i; x; y; 0]%nat -> nth a fs [] = [i; x; y].
Proof.
  induction l as [|r t IH]; intros Hl.
  - exists []. split; auto. split; auto. intros a b i x y Ha. cbn in Ha. lia.
  - destruct (Hl 0%nat) as (b & i & x & y & E); [cbn; lia|]. cbn [nth] in E. subst r.
    destruct IH as (fs & E & L & H). { intros a Ha. apply (Hl (S a)). cbn. lia. }
    exists ([i; x; y] :: fs). cbn [each_face seed_face get nth_error bind]. rewrite E. cbn. split; auto. split; [lia|].
    intros [|a] b' i' x' y' Ha Er; [congruence|]. apply H with b'; auto. cbn in Ha. lia.
Qed.
Theorem C38_triangles o ss es cs L ups los ss' u l :
  sphere_input ss es cs L (o_darts o) -> st_nd ups = 3%nat -> st_nd los = 3%nat ->
  generate_surface_seeds o ss es cs L ups los = Ok (ss', u, l, false) ->
  exists faces, seed_faces l = Ok faces /\ length faces = count l
    /\ proper_triangles (count ss + count es + count cs) faces
    /\ forall a, (a < count l)%nat -> exists i j k p, accepted ss es cs (o_face o) i j k p
         /\ nth a (st_pts l) [] = p_lo p /\ Permutation (nth a faces []) [i; j; k].
Proof.
  intros Hin Nu Nl E. destruct (@C64_generation o ss es cs L ups los Hin Nu Nl) as (ss2 & u2 & l2 & sh & E' & _ & F & _).
  rewrite E in E'. injection E' as <- <- <- <-. destruct (F eq_refl) as (_ & _ & Sl & _).
  assert (X : exists faces, seed_faces l = Ok faces /\ length faces = count l
     /\ forall a b i x y, (a < count l)%nat -> record l a = Some [6; b; i; x; y; 0]%nat -> nth a faces [] = [i; x; y]).
  { unfold seed_faces, st_n. unfold record in *. destruct (st_att l) as [att|] eqn:Ea.
    - assert (Lc : (count l <= length att)%nat).
      { destruct (Nat.le_gt_cases (count l) (length att)) as [C|C]; auto. exfalso.
        destruct (Sl (length att) C) as (i & j & k & p & b & x & y & _ & _ & _ & _ & R & _). unfold record in R. rewrite Ea, nth_overflow in R; [discriminate|lia]. }
      assert (Nf : forall a, (a < count l)%nat -> nth a (firstn (count l) att) None = nth a att None).
      { intros a Ha. rewrite <- (firstn_skipn (count l) att) at 2. rewrite app_nth1; auto. rewrite firstn_length. lia. }
      assert (Lf : length (firstn (count l) att) = count l) by (rewrite firstn_length; lia).
      destruct (@each_face_ok (firstn (count l) att)) as (fs & E1 & L1 & H1).
      { intros a Ha. rewrite Lf in Ha. destruct (Sl a Ha) as (i & j & k & p & b & x & y & _ & _ & _ & _ & R & _). unfold record in R. rewrite Ea in R.
        exists b, i, x, y. rewrite Nf; auto. }
      exists fs. split; [exact E1|]. split; [congruence|]. intros a b i x y Ha R. apply (H1 a b); [lia|]. rewrite Nf; auto.
    - assert (C0 : count l = 0%nat).
      { destruct (count l) as [|n] eqn:C; auto. exfalso. destruct (Sl 0%nat) as (i & j & k & p & b & x & y & _ & _ & _ & _ & R & _); [lia|]. unfold record in R. rewrite Ea in R. discriminate. }
      unfold count in *. rewrite C0. exists []. split; auto. split; auto. intros; lia. }
  destruct X as (faces & E1 & L1 & H1). exists faces. split; auto. split; auto.
  assert (T : forall a, (a < count l)%nat -> exists i j k p, accepted ss es cs (o_face o) i j k p /\ nth a (st_pts l) [] = p_lo p /\ Permutation (nth a faces []) [i; j; k]).
  { intros a Ha. destruct (Sl a Ha) as (i & j & k & p & b & x & y & A & P1 & _ & P3 & R & _).
    exists i, j, k, p. split; auto. split; auto. rewrite (H1 a b i x y Ha R).
    destruct A as (_ & _ & _ & _ & _ & _ & (_ & _ & _ & _ & _ & _ & _ & (a' & b' & Q & [Q'|Q'] & _) & _) & _); rewrite P3 in Q; injection Q as -> ->; injection Q' as -> ->.
    - apply Permutation_refl.
    - constructor. apply perm_swap. }
  split; [|auto].
  assert (Y : forall f, In f faces -> exists i j k, (i < j < k)%nat /\ (k < count ss + count es + count cs)%nat /\ Permutation f [i; j; k]).
  { intros f Hf. destruct (In_nth _ _ [] Hf) as (a & Ha & <-). rewrite L1 in Ha. destruct (T a Ha) as (i & j & k & p & (A1 & A2 & _) & _ & P). exists i, j, k. split; auto. split; auto.
    unfold all_spheres in A2. rewrite !app_length in A2. unfold count. lia. }
  split.
  - intros f Hf. destruct (Y f Hf) as (i & j & k & Hijk & Hk & P). split; [apply Permutation_length in P; exact P|].
    intros c Hc. apply (Permutation_in _ P) in Hc. destruct Hc as [<-|[<-|[<-|[]]]]; lia.
  - intros f Hf. destruct (Y f Hf) as (i & j & k & Hijk & Hk & P). apply (Permutation_NoDup (Permutation_sym P)).
    repeat constructor; cbn; intuition lia.
Qed.

(** Not every open edge is noticed: a single triangle between three spheres of sharp edges is accepted. *)
Theorem C38_boundary_refuted : exists (ss es cs : stree R) faces, proper_triangles (count ss + count es + count cs) faces
  /\ validate_surface_mesh ss es cs faces = Ok (ss, true) /\ length (faces_with faces 0 1) = 1%nat.
Proof.
  exists (st_new 3), three_spheres, (st_new 3), [[0; 1; 2]]%nat.
  split.
  - split; intros f [<-|[]]; [split; [reflexivity|]; intros c [<-|[<-|[<-|[]]]]; cbn; lia|repeat constructor; cbn; intuition lia].
  - split; [vm_compute; reflexivity|reflexivity].
Qed.

(** A case: three surface spheres and one corner sphere, joined to a tetrahedron; and the same without one triangle. *)
Definition tetra : list (list nat) := [[0; 1; 2]; [0; 1; 3]; [1; 2; 3]; [0; 2; 3]]%nat.
Example C38_hypotheses : spheres three_spheres /\ (forall m, (m < count three_spheres)%nat -> 0 < radius three_spheres m)
  /\ proper_triangles (count three_spheres + 0 + 1) tetra /\ closed_surface (count three_spheres) tetra
  /\ ~ closed_surface (count three_spheres) (tl tetra) /\ proper_triangles (count three_spheres + 0 + 1) (tl tetra).
Proof.
  split; [apply three_spheres_ok|]. split.
  { intros m Hm. change (radius three_spheres m) with (rad (st_pts three_spheres) m). rewrite three_rad by exact Hm. lra. }
  assert (P : proper_triangles (count three_spheres + 0 + 1) tetra).
  { split; intros f [<-|[<-|[<-|[<-|[]]]]]; (repeat split; try (repeat constructor; cbn; intuition lia)); intros c [<-|[<-|[<-|[]]]]; cbn; lia. }
  split; auto. split; [|split].
  - intros f a b Hf Ha Hb Hab _. unfold tetra in *. destruct Hf as [<-|[<-|[<-|[<-|[]]]]]; destruct Ha as [<-|[<-|[<-|[]]]]; destruct Hb as [<-|[<-|[<-|[]]]]; try congruence; reflexivity.
  - intros C. specialize (C [0; 1; 3]%nat 0%nat 1%nat). unfold regular in C. cbn in C. assert (1 = 2)%nat; [|lia]. apply C; auto; lia.
  - destruct P as (P1 & P2). split; intros f Hf; [apply P1|apply P2]; right; exact Hf.
Qed.
(** Run on the second. *)
Example C38_run : match (t <- float_tree float_spheres ;; c <- float_tree [[n1; n1; n1; n1]] ;; '(s, wt) <- validate_surface_mesh t (st_new 3) c (tl tetra) ;;
    '(_, wt') <- validate_surface_mesh t (st_new 3) c tetra ;; Ok (wt, wt', st_pts s)) with
  | Ok (wt, wt', pts) => wt = false /\ wt' = true /\ length pts = 3%nat | _ => False end.
Proof. vm_compute. auto. Qed.

Print Assumptions C38_accepted.
Print Assumptions C38_shrinking.
Print Assumptions C38_triangles.
Print Assumptions C38_boundary_refuted.
