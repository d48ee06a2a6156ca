(** C87, continued: the seeds the mesh is made from are the merged seeds of the spheres. *)
From Coq Require Import Floats.
From Coq Require Import Reals Lra.
From Verif Require Import Base Num Vec KdSpec SamplingSpec SmartTree SmartTreeSpec TreeGrow KdTree Geometry GeometrySpec Spheres SpheresSpec
  SeedPairs SeedPairsSpec SeedRunProofs SeedEndProofs SeedSides Coloring SurfaceRegions WholeMesh WholeMeshSpec PropsSeedPairs PropsSeedReason PropsWholeMesh.
Local Open Scope nat_scope.

(** After the seeds of the spheres have been generated without shrinking a sphere, the merged tree is the one the colouring asks for (a
    tree of three coordinates that describes a list of seeds).  Seed x of that list is a point of an accepted pair of some three spheres: the
    upper one in the first half, the lower one in the second.  It is on those spheres and in no other ball, its size is the least of
    the three radii, its triangle is made of those spheres, and its partner is in the other half, at the mirror point up to 1e-10. *)
Theorem C87_seeds o ss es cs L ups los ss' u l need :
  sphere_input ss es cs L (o_darts o) -> st_nd ups = 3 -> st_nd los = 3 ->
  generate_surface_seeds o ss es cs L ups los = Ok (ss', u, l, false) ->
  let all := all_spheres ss es cs in let nu := count u in let n := count u + count l in
  exists s seeds, merge_seeds need u l (st_new 3) = Ok s
    /\ describes s seeds /\ surface_seeds s = Ok seeds /\ length seeds = n
    /\ st_nd s = 3 /\ st_pts s = map q_x seeds /\ (seeds <> [] -> ready s)
    /\ forall x q, nth_error seeds x = Some q -> exists i j k p,
         accepted ss es cs (o_face o) i j k p
         /\ on_three all i j k (vec (q_x q)) /\ ~ buried all i j k (vec (q_x q)) 0
         /\ length (q_x q) = 4 /\ vec (q_x q) 3 = Rmin (Rmin (rad all i) (rad all j)) (rad all k)
         /\ (q_tri q = (i, j, k) \/ q_tri q = (i, k, j)) /\ i < j < k /\ k < length all
         /\ (x < nu -> q_x q = p_up p /\ nu <= q_pair q < n /\ seed_near s (vec (p_lo p)) (q_pair q))
         /\ (nu <= x -> q_x q = p_lo p /\ q_pair q < nu /\ seed_near s (vec (p_up p)) (q_pair q)).
Proof.
  intros HI Nu Nl E all nu n. destruct (@C37_merge o ss es cs L ups los ss' u l need HI Nu Nl E) as (s & Es & Ep & Mu & Ml).
  assert (T3 : tree3 s).
  { destruct HI as (H1 & H2 & H3 & H4 & H5 & H6 & HLe & HLc).
    destruct (@generate_ok o ss es cs L H1 H2 H3 H4 H5 H6 HLe HLc ups los Nu Nl) as (ss2 & u2 & l2 & sh & E' & _ & F & _).
    rewrite E in E'. injection E' as <- <- <- <-. destruct (F eq_refl) as (_ & (Tu & Tl & Su & Sl & _) & _).
    assert (Hacc : forall i j k p, accepted_by o ss es cs i j k p -> length (p_up p) = 4 /\ length (p_lo p) = 4 /\ length (p_nrm p) = 3).
    { intros i j k p ((_ & _ & _ & _ & _ & _ & (A1 & A2 & A3 & _) & _) & _). auto. }
    destruct (@merge_ok _ Hacc need u l Tu Tl Su Sl) as (s2 & Es2 & T & _). congruence. }
  assert (Cs : count s = n) by (unfold count; rewrite Ep, app_length; reflexivity).
  (* one statement for both halves *)
  assert (M : forall x, x < n -> exists i j k p b a c, accepted ss es cs (o_face o) i j k p /\ record s x = Some [6; b; i; a; c; 0] /\ p_att p = (i, a, c)
     /\ (x < nu -> nth x (st_pts s) [] = p_up p /\ nu <= b < n /\ seed_near s (vec (p_lo p)) b)
     /\ (nu <= x -> nth x (st_pts s) [] = p_lo p /\ b < nu /\ seed_near s (vec (p_up p)) b)).
  { intros x Hx. destruct (Nat.lt_ge_cases x nu) as [L1|L1].
    - destruct (Mu x L1) as (i & j & k & p & b & a & c & A & P1 & _ & P2 & P3 & P4 & _ & _ & P5).
      exists i, j, k, p, b, a, c. split; [exact A|]. split; [exact P2|]. split; [exact P3|]. split; [auto|lia].
    - destruct (Ml (x - nu)) as (i & j & k & p & b & a & c & A & P1 & _ & P2 & P3 & P4 & _ & _ & P5); [unfold n, nu in *; lia|].
      replace (count u + (x - nu)) with x in * by (unfold nu in *; lia).
      exists i, j, k, p, b, a, c. split; [exact A|]. split; [exact P2|]. split; [exact P3|]. split; [lia|auto]. }
  set (rd x := match record s x with Some r => r | None => [] end).
  set (seed x := MkPSeed (nth x (st_pts s) []) (nth 1 (rd x) 0) (nth 2 (rd x) 0, nth 3 (rd x) 0, nth 4 (rd x) 0)).
  exists s, (map seed (seq 0 n)).
  assert (Ne : forall x q, nth_error (map seed (seq 0 n)) x = Some q -> x < n /\ q = seed x).
  { intros x q Hq. assert (Hx : x < n). { rewrite <- (seq_length n 0), <- (map_length seed). apply nth_error_Some. congruence. }
    split; [exact Hx|]. apply nth_error_nth with (d := seed 0) in Hq. rewrite map_nth, seq_nth in Hq by exact Hx. auto. }
  assert (Hp : st_pts s = map q_x (map seed (seq 0 n))).
  { rewrite map_map. apply nth_ext with (d := []) (d' := q_x (seed 0)); [rewrite map_length, seq_length; exact Cs|].
    intros x Hx. change (length (st_pts s)) with (count s) in Hx. rewrite Cs in Hx. rewrite (map_nth (fun y => q_x (seed y))), seq_nth by exact Hx. reflexivity. }
  assert (D : describes s (map seed (seq 0 n))).
  { split; [rewrite map_length, seq_length; symmetry; exact Cs|]. intros x q Hq. destruct (Ne x q Hq) as (Hx & ->).
    split; [rewrite Hp; erewrite map_nth_error; [reflexivity|exact Hq]|].
    destruct (M x Hx) as (i & j & k & p & b & a & c & _ & Er & _). exists 6, i, a, c, [0]. unfold seed, rd. rewrite Er. split; reflexivity. }
  split; [exact Es|]. split; [exact D|]. split; [exact (read_ok D)|]. split; [now rewrite map_length, seq_length|].
  destruct T3 as (items & G). split; [apply G|]. split; [exact Hp|]. split.
  { intros Hs. apply (@grown_ready 3 s items); [lia|exact G|]. intros ->. destruct G as (_ & _ & _ & [(_ & G)|(G & _)]); [|congruence].
    rewrite G in Hp. symmetry in Hp. apply map_eq_nil in Hp. auto. }
  intros x q Hq. destruct (Ne x q Hq) as (Hx & ->). destruct (M x Hx) as (i & j & k & p & b & a & c & A & Er & Ea & U & W).
  exists i, j, k, p. split; [exact A|]. destruct A as (Ho & Hk & _ & _ & _ & _ & (G1 & G2 & _ & O1 & O2 & _ & _ & (a' & c' & Et & Eo & _) & R1 & R2) & B1 & B2).
  assert (Rp : q_pair (seed x) = b) by (unfold seed, rd; rewrite Er; reflexivity).
  assert (Rt : q_tri (seed x) = (i, a, c)) by (unfold seed, rd; rewrite Er; reflexivity).
  rewrite Rp, Rt. change (q_x (seed x)) with (nth x (st_pts s) []). rewrite Ea in Et. injection Et as <- <-.
  assert (Tri : (i, a, c) = (i, j, k) \/ (i, a, c) = (i, k, j)) by (destruct Eo as [Eo|Eo]; injection Eo as -> ->; auto).
  destruct (Nat.lt_ge_cases x nu) as [L1|L1].
  - destruct (U L1) as (-> & U2). split; [exact O1|]. split; [exact B1|]. split; [exact G1|]. split; [exact R1|]. split; [exact Tri|].
    split; [exact Ho|]. split; [exact Hk|]. split; [auto|lia].
  - destruct (W L1) as (-> & W2). split; [exact O2|]. split; [exact B2|]. split; [exact G2|]. split; [rewrite R2; exact R1|]. split; [exact Tri|].
    split; [exact Ho|]. split; [exact Hk|]. split; [lia|auto].
Qed.

(** The three unit spheres of C35: the generation shrinks nothing and the merged seeds are at least one pair. *)
Example C87_seeds_case o need : o_darts o = axes_everywhere -> exists u l s seeds,
  generate_surface_seeds o three_spheres (st_new 3) (st_new 3) 0%R (st_new 3) (st_new 3) = Ok (three_spheres, u, l, false)
  /\ merge_seeds need u l (st_new 3) = Ok s /\ surface_seeds s = Ok seeds /\ 2 <= length seeds /\ ready s.
Proof.
  intros Ho. destruct (@C64_quiet o Ho) as (u & l & E & Hu & Hl). pose proof (proj1 C35_hypotheses) as HI. rewrite <- Ho in HI.
  destruct (@C87_seeds o three_spheres (st_new 3) (st_new 3) 0%R (st_new 3) (st_new 3) three_spheres u l need HI eq_refl eq_refl E) as (s & seeds & Es & _ & Er & En & _ & _ & Rd & _).
  exists u, l, s, seeds. split; [exact E|]. split; [exact Es|]. split; [exact Er|]. split; [lia|]. apply Rd. intros ->. cbn in En. lia.
Qed.

Print Assumptions C87_seeds.
