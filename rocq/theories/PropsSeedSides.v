(** C77: which seeds are put on the same side of the surface. *)
From Coq Require Import Reals Lra.
From Verif Require Import Base Num Vec KdSpec Geometry GeometrySpec GeometryProofs GeometryAngle Graph
  SeedSides SidesSpec SidesProofs SidesEdgeProofs SidesRunProofs.
Local Open Scope R_scope.

(** Around a surface sphere whose triangles form a closed fan, two seeds are linked exactly if both are below or
    both are above the fan, in whatever order the seeds are stored; afterwards no seed of the sphere has a
    marker and the others have theirs. *)
Theorem C77_surface_side (sph : list (list R)) seeds i ss m c lo up col :
  fan sph seeds i ss m c lo up -> length col = length seeds ->
  exists col' l, surface_sphere sph seeds i ss col = Ok (col', l) /\ length col' = length seeds
    /\ (forall x, In x ss -> nth x col' 0%nat = 0%nat) /\ (forall x, ~ In x ss -> nth x col' 0%nat = nth x col 0%nat)
    /\ (forall a b, In (a, b) l -> In a ss /\ In b ss)
    /\ (forall a b, joined l a b <-> a <> b /\ same_side m lo up a b).
Proof. apply surface_ok. Qed.

(** Around an edge sphere whose triangles form sheets, two seeds are linked exactly if they are in the same
    sector between two sheets that follow each other around the edge. *)
Theorem C77_edge_sector (sph : list (list R)) seeds ns i ss p L m c lo up col :
  sheets sph seeds ns i ss p L m c lo up -> starts_at seeds ns i ss p (c 0%nat 1%nat) ->
  by_angle sph i p L (fun l => c l 1%nat) -> length col = length seeds ->
  exists col' l, edge_sphere sph seeds point_angle ns i ss col = Ok (col', l) /\ length col' = length seeds
    /\ (forall x, In x ss -> nth x col' 0%nat = 0%nat) /\ (forall x, ~ In x ss -> nth x col' 0%nat = nth x col 0%nat)
    /\ (forall a b, In (a, b) l -> In a ss /\ In b ss)
    /\ (forall a b, joined l a b <-> a <> b /\ same_sector L m lo up a b).
Proof. intros H1 H2 H3 H4. now apply edge_ok with (p := p) (c := c). Qed.

(** All spheres: the links are exactly the pairs of seeds that are on the same side at a surface sphere or in
    the same sector at an edge sphere; no marker is left. *)
Theorem C77_links (sph : list (list R)) seeds cap ns ne :
  (forall s q x y z, seed_at seeds s q -> q_tri q = (x, y, z) -> (x < length sph /\ y < length sph /\ z < length sph)%nat) ->
  (length sph <= cap)%nat -> (ns + ne <= length sph)%nat -> seeds <> [] ->
  (forall i, (i < ns)%nat -> seeds_from seeds i <> [] -> exists m c lo up, fan sph seeds i (seeds_from seeds i) m c lo up) ->
  (forall i, (ns <= i < ns + ne)%nat -> seeds_from seeds i <> [] -> exists p L m c lo up, book sph seeds ns i p L m c lo up) ->
  exists l, same_side_links sph seeds point_angle cap ns ne = Ok (repeat 0%nat (length seeds), l)
    /\ (forall a b, In (a, b) l -> (a < length seeds /\ b < length seeds)%nat)
    /\ forall a b, joined l a b <-> a <> b /\ ((exists i, (i < ns)%nat /\ together_surface sph seeds i a b)
         \/ exists i, (ns <= i < ns + ne)%nat /\ together_edge sph seeds ns i a b).
Proof. intros. now apply links_ok. Qed.

(** * A closed surface with a sharp edge
    Two square pyramids glued at their base: the tips are surface spheres (0 and 1), the corners of the base are
    edge spheres (2 to 5).  Triangle t has the inner seed 2 t and the outer seed 2 t + 1. *)
Definition lens : list (list R) :=
  [[0; 0; 1; 1]; [0; 0; -1; 1]; [1; 1; 0; 5/4]; [1; -1; 0; 5/4]; [-1; -1; 0; 5/4]; [-1; 1; 0; 5/4]].
Definition lens_seeds : list (pseed R) :=
  [ MkPSeed [1/4; 0; 1/4; 1/4] 1 (0, 2, 3)%nat; MkPSeed [1; 0; 1; 1/4] 0 (0, 2, 3)%nat;
    MkPSeed [0; -1/4; 1/4; 1/4] 3 (0, 3, 4)%nat; MkPSeed [0; -1; 1; 1/4] 2 (0, 3, 4)%nat;
    MkPSeed [-1/4; 0; 1/4; 1/4] 5 (0, 4, 5)%nat; MkPSeed [-1; 0; 1; 1/4] 4 (0, 4, 5)%nat;
    MkPSeed [0; 1/4; 1/4; 1/4] 7 (0, 5, 2)%nat; MkPSeed [0; 1; 1; 1/4] 6 (0, 5, 2)%nat;
    MkPSeed [1/4; 0; -1/4; 1/4] 9 (1, 2, 3)%nat; MkPSeed [1; 0; -1; 1/4] 8 (1, 2, 3)%nat;
    MkPSeed [0; -1/4; -1/4; 1/4] 11 (1, 3, 4)%nat; MkPSeed [0; -1; -1; 1/4] 10 (1, 3, 4)%nat;
    MkPSeed [-1/4; 0; -1/4; 1/4] 13 (1, 4, 5)%nat; MkPSeed [-1; 0; -1; 1/4] 12 (1, 4, 5)%nat;
    MkPSeed [0; 1/4; -1/4; 1/4] 15 (1, 5, 2)%nat; MkPSeed [0; 1; -1; 1/4] 14 (1, 5, 2)%nat ].

Lemma no_sliver c : let a := sub (c 1%nat) (c 0%nat) in let b := sub (c 2%nat) (c 0%nat) in
  1 <= dot 3 a a <= 100 -> 1 <= dot 3 b b <= 100 -> 1 <= dot 3 (vprod a b) (vprod a b) -> ~ sliver c.
Proof.
  intros a b (A1 & A2) (B1 & B2) C. unfold sliver. fold a b. unfold norm.
  assert (Q : forall x, 1 <= x -> 1 <= sqrt x) by (intros x Hx; rewrite <- sqrt_1; apply sqrt_le_1; lra).
  assert (T : forall x, 1 <= x <= 100 -> sqrt x <= 10).
  { intros x Hx. replace 10 with (sqrt 100) by (replace 100 with (10 * 10) by lra; apply sqrt_square; lra). apply sqrt_le_1; lra. }
  pose proof (Q _ A1) as QA. pose proof (Q _ B1) as QB. pose proof (Q _ C) as QC.
  pose proof (T _ (conj A1 A2)) as TA. pose proof (T _ (conj B1 B2)) as TB.
  assert (P : sqrt (dot 3 a a) * sqrt (dot 3 b b) <= 10 * 10) by (apply Rmult_le_compat; lra).
  intros [H|[H|H]]; lra.
Qed.

Definition around (k : nat) : nat := nth k [2; 3; 4; 5]%nat 2%nat.
Ltac perm3 := solve [apply Permutation_refl
  | apply perm_swap
  | apply perm_skip, perm_swap
  | eapply perm_trans; [apply perm_swap|apply perm_skip, perm_swap]
  | eapply perm_trans; [apply perm_skip, perm_swap|apply perm_swap]
  | eapply perm_trans; [apply perm_swap|eapply perm_trans; [apply perm_skip, perm_swap|apply perm_swap]]].
Ltac lens_triangle :=
  split; [cbn; lia|]; split; [cbn; lia|]; split; [cbn; lia|];
  split; [apply no_sliver; rewrite ?dot3; unfold sub, vprod, centre, vec, around; cbn [nth lens]; lra|];
  split; [do 4 eexists; split; [reflexivity|]; split; [reflexivity|]; perm3|];
  split; [do 4 eexists; split; [reflexivity|]; split; [reflexivity|]; perm3|];
  split; [do 2 eexists; split; [reflexivity|]; split; [reflexivity|]; split; reflexivity|];
  do 2 eexists; split; [reflexivity|]; split; [reflexivity|];
  rewrite ?dot3; unfold sub, vprod, centre, vec, around; cbn [nth lens q_x]; lra.

Ltac cases4 k := destruct k as [|[|[|[|k]]]]; try lia.
Ltac nodup := repeat (constructor; [cbn; intuition lia|]); constructor.

Lemma lens_from0 : seeds_from lens_seeds 0 = [0; 1; 2; 3; 4; 5; 6; 7]%nat.
Proof. reflexivity. Qed.
Lemma lens_from1 : seeds_from lens_seeds 1 = [8; 9; 10; 11; 12; 13; 14; 15]%nat.
Proof. reflexivity. Qed.

Lemma lens_fan0 : fan lens lens_seeds 0 (seeds_from lens_seeds 0) 4 around (fun k => 2 * k + 1)%nat (fun k => 2 * k)%nat.
Proof.
  rewrite lens_from0. split; [lia|]. split; [reflexivity|]. split; [|split; [|split]].
  - intros k k' Hk Hk'. cases4 k; cases4 k'; cbn; auto; discriminate.
  - intros k Hk. cases4 k; lens_triangle.
  - nodup.
  - intros s. split.
    + intros Hs. exists (Nat.div2 s). cbn in Hs. repeat (destruct Hs as [<-|Hs]; [cbn; lia|]). destruct Hs.
    + intros (k & Hk & [-> | ->]); cases4 k; cbn; intuition lia.
Qed.
Lemma lens_fan1 : fan lens lens_seeds 1 (seeds_from lens_seeds 1) 4 around (fun k => 2 * k + 8)%nat (fun k => 2 * k + 9)%nat.
Proof.
  rewrite lens_from1. split; [lia|]. split; [reflexivity|]. split; [|split; [|split]].
  - intros k k' Hk Hk'. cases4 k; cases4 k'; cbn; auto; discriminate.
  - intros k Hk. cases4 k; lens_triangle.
  - nodup.
  - intros s. split.
    + intros Hs. exists (Nat.div2 s - 4)%nat. cbn in Hs. repeat (destruct Hs as [<-|Hs]; [cbn; lia|]). destruct Hs.
    + intros (k & Hk & [-> | ->]); cases4 k; cbn; intuition lia.
Qed.

(** The sheets at an edge sphere between the edge spheres p and q; t, u are its triangles with the tip 0,
    starting at p.  [out] says whether the seeds below sheet 0 are the outer ones. *)
Definition page (p q l k : nat) : nat := match k with 0%nat => p | 1%nat => l | _ => q end.
Definition page_seed (out : bool) (t u l k : nat) : nat :=
  (2 * ((if k =? 0 then t else u) + 4 * l) + (if Bool.eqb out (l =? 0) then 1 else 0))%nat.

(** A frame at the edge. *)
Lemma lens_angle i p (a b : nat -> R) (s1 : bool) :
  dot 3 a a = 1 -> dot 3 b b = 2 -> dot 3 a b = 0 ->
  (forall d, (d < 3)%nat -> centre lens p d - centre lens i d = 2 * a d) ->
  dot 3 (sub (centre lens 0) (centre lens i)) b = 2 -> dot 3 (sub (centre lens 0) (centre lens i)) (vprod a b) = 0 ->
  dot 3 (sub (centre lens 1) (centre lens i)) b = 0 ->
  dot 3 (sub (centre lens 1) (centre lens i)) (vprod a b) = (if s1 then 2 else -2) ->
  by_angle lens i p 2 (fun l => l).
Proof.
  intros A B AB Hp X0 Y0 X1 Y1.
  assert (HS : sqrt 2 * sqrt 2 = 2) by (apply sqrt_sqrt; lra).
  assert (HP : 0 < sqrt 2) by (apply sqrt_lt_R0; lra).
  set (w := / sqrt 2). assert (W2 : w * w = 1 / 2) by (unfold w; rewrite <- Rinv_mult, HS; lra).
  assert (W0 : 0 < w) by (unfold w; now apply Rinv_0_lt_compat).
  assert (SW : sqrt 2 = 2 * w) by (apply (Rmult_eq_reg_r w); [unfold w at 1; rewrite Rinv_r; lra|lra]).
  assert (SC : forall u v, dot 3 u (fun d => w * v d) = w * dot 3 u v) by (intros u v; rewrite !dot3; ring).
  set (th := if s1 then PI / 2 else 3 * (PI / 2)).
  pose proof PI_RGT_0 as HPI.
  exists (fun k => match k with 0%nat => a | 1%nat => fun d => w * b d | _ => vprod a (fun d => w * b d) end), 2,
    (fun l => match l with 0%nat => 0 | _ => th end), (fun _ => sqrt 2).
  rewrite !dot3 in A, B, AB.
  split.
  { intros x y Hx Hy. cases4 x; cases4 y; cbn [Nat.eqb]; rewrite dot3; unfold vprod; try (ring_simplify; fail);
      set (a0 := a 0%nat) in *; set (a1 := a 1%nat) in *; set (a2 := a 2%nat) in *;
      set (b0 := b 0%nat) in *; set (b1 := b 1%nat) in *; set (b2 := b 2%nat) in *; clearbody a0 a1 a2 b0 b1 b2 w.
    - lra.
    - transitivity (w * (a0 * b0 + a1 * b1 + a2 * b2)); [ring|rewrite AB; ring].
    - ring.
    - transitivity (w * (a0 * b0 + a1 * b1 + a2 * b2)); [ring|rewrite AB; ring].
    - transitivity ((w * w) * (b0 * b0 + b1 * b1 + b2 * b2)); [ring|rewrite W2, B; lra].
    - ring.
    - ring.
    - ring.
    - transitivity ((w * w) * ((a0 * a0 + a1 * a1 + a2 * a2) * (b0 * b0 + b1 * b1 + b2 * b2) - (a0 * b0 + a1 * b1 + a2 * b2) * (a0 * b0 + a1 * b1 + a2 * b2))).
      + ring.
      + rewrite W2, A, B, AB. lra. }
  split; [reflexivity|]. split; [lra|]. split; [exact Hp|]. split; [reflexivity|].
  split; [intros l Hl; cases4 l; unfold th; destruct s1; lra|].
  split; [intros l l' Hl; cases4 l; cases4 l'; unfold th; destruct s1; lra|].
  intros l Hl. cbv zeta. assert (VP : forall u, dot 3 u (vprod a (fun d => w * b d)) = w * dot 3 u (vprod a b)).
  { intros u. rewrite !dot3. unfold vprod. ring. }
  rewrite VP, SC. assert (T1 : 1 / 10 ^ 10 <= w).
  { apply Rlt_le, Rnot_le_lt. intros K. assert (w * w <= 1 / 10 ^ 10 * (1 / 10 ^ 10)) by (apply Rmult_le_compat; lra). lra. }
  cases4 l; cbv beta iota.
  - rewrite X0, Y0, cos_0, sin_0, SW. split; [lra|]. split; [lra|]. split; [lra|]. split; [left; rewrite Rabs_pos_eq; lra|]. split; right; lra.
  - rewrite X1, Y1. unfold th. destruct s1.
    + rewrite cos_PI2, sin_PI2, SW. split; [lra|]. split; [lra|]. split; [lra|]. split; [right; rewrite Rabs_pos_eq; lra|]. split; right; lra.
    + replace (3 * (PI / 2)) with (3 * (PI / 2)) by lra. rewrite cos_3PI2, sin_3PI2, SW. split; [lra|]. split; [lra|]. split; [lra|]. split.
      { right. rewrite Rabs_left; lra. }
      split; [right|left]; lra.
Qed.

Lemma sheet_pages i p q t u out : (2 <= p)%nat -> (2 <= q)%nat -> p <> q ->
  (forall l, (l < 2)%nat -> seeds_of lens lens_seeds i p l (page_seed out t u l 0) (page_seed (negb out) t u l 0)
      /\ seeds_of lens lens_seeds i l q (page_seed out t u l 1) (page_seed (negb out) t u l 1)) ->
  NoDup (seeds_from lens_seeds i) ->
  (forall s, In s (seeds_from lens_seeds i) <-> exists l k, (l < 2)%nat /\ (k < 2)%nat /\ (s = page_seed out t u l k \/ s = page_seed (negb out) t u l k)) ->
  sheets lens lens_seeds 2 i (seeds_from lens_seeds i) p 2 (fun _ => 2%nat) (page p q) (page_seed out t u) (page_seed (negb out) t u).
Proof.
  intros Hp Hq N HT ND HI. split; [lia|]. split; [exact Hp|]. split; [|split; [|split; [exact ND|exact HI]]].
  - intros l Hl. split; [lia|]. split; [reflexivity|]. split; [exact Hq|]. split; [cbn; auto|]. split.
    + intros k Hk. assert (k = 1%nat) as -> by lia. exact Hl.
    + intros k Hk. destruct (HT l Hl). cases4 k; assumption.
  - intros l l' k k' Hl Hl' Hk Hk' E. assert (k = 1%nat) as -> by lia. assert (k' = 1%nat) as -> by lia. cbn in E. auto.
Qed.
Ltac lens_sheet T U O := apply (@sheet_pages _ _ _ T U O); [lia|lia|lia
  | intros l Hl; cases4 l; cbn [page_seed Nat.eqb Bool.eqb negb Nat.mul Nat.add]; split; lens_triangle
  | cbn; nodup
  | intros s; split;
    [ intros Hs; exists (if (s <? 8)%nat then 0%nat else 1%nat), (if (Nat.div2 (s mod 8) =? T)%nat then 0%nat else 1%nat);
      cbn in Hs; repeat (destruct Hs as [<-|Hs]; [cbn; lia|]); destruct Hs
    | intros (l & k & Hl & Hk & Hs); cases4 l; cases4 k; destruct Hs as [-> | ->]; cbn; intuition lia ] ].
Ltac lens_start := exists []; do 2 eexists; split; [reflexivity|]; split; [do 4 eexists; split; [reflexivity|]; split; [reflexivity|]; perm3|]; intros ? ? ? [].
Ltac lens_frame a b s := apply (@lens_angle _ _ (fun d => nth d a 0) (fun d => nth d b 0) s);
  [..|intros d Hd; cases4 d| | | |]; rewrite ?dot3; unfold sub, vprod, centre, vec; cbn [nth lens]; lra.

Lemma lens_book2 : book lens lens_seeds 2 2 3 2 (fun _ => 2%nat) (page 3 5) (page_seed true 0 3) (page_seed false 0 3).
Proof. split; [lens_sheet 0%nat 3%nat true|]. split; [lens_start|]. lens_frame [0; -1; 0] [-1; 0; 1] true. Qed.
Lemma lens_book3 : book lens lens_seeds 2 3 2 2 (fun _ => 2%nat) (page 2 4) (page_seed false 0 1) (page_seed true 0 1).
Proof. split; [lens_sheet 0%nat 1%nat false|]. split; [lens_start|]. lens_frame [0; 1; 0] [-1; 0; 1] false. Qed.
Lemma lens_book4 : book lens lens_seeds 2 4 3 2 (fun _ => 2%nat) (page 3 5) (page_seed false 1 2) (page_seed true 1 2).
Proof. split; [lens_sheet 1%nat 2%nat false|]. split; [lens_start|]. lens_frame [1; 0; 0] [0; 1; 1] false. Qed.
Lemma lens_book5 : book lens lens_seeds 2 5 4 2 (fun _ => 2%nat) (page 4 2) (page_seed false 2 3) (page_seed true 2 3).
Proof. split; [lens_sheet 2%nat 3%nat false|]. split; [lens_start|]. lens_frame [0; -1; 0] [1; 0; 1] false. Qed.

(** The hypotheses of the three theorems are met by this surface; so the inner and the outer seeds are
    separated: two seeds that are linked are both inside or both outside. *)
Example C77_lens : exists l, same_side_links lens lens_seeds point_angle 6 2 4 = Ok (repeat 0%nat 16, l)
  /\ joined l 0 6 /\ joined l 0 8 /\ ~ joined l 0 1 /\ ~ joined l 0 9
  /\ forall a b, joined l a b -> Nat.even a = Nat.even b.
Proof.
  assert (EV : forall l a b, (forall a b, joined l a b <-> a <> b /\ ((exists i, (i < 2)%nat /\ together_surface lens lens_seeds i a b)
         \/ exists i, (2 <= i < 2 + 4)%nat /\ together_edge lens lens_seeds 2 i a b)) -> joined l a b -> Nat.even a = Nat.even b).
  { intros l a b HL HJ.
    assert (SF : forall i m c lo up, fan lens lens_seeds i (seeds_from lens_seeds i) m c lo up ->
      (forall x y, same_side m lo up x y -> x <> y -> Nat.even x = Nat.even y) ->
      forall m' c' lo' up', fan lens lens_seeds i (seeds_from lens_seeds i) m' c' lo' up' -> forall x y, same_side m' lo' up' x y -> x <> y -> Nat.even x = Nat.even y).
    { intros i m c lo up HF HP m' c' lo' up' HF' x y Hxy N.
      destruct (@C77_surface_side _ _ _ _ _ _ _ _ (repeat 0%nat 16) HF eq_refl) as (c1 & l1 & E1 & _ & _ & _ & _ & J1).
      destruct (@C77_surface_side _ _ _ _ _ _ _ _ (repeat 0%nat 16) HF' eq_refl) as (c2 & l2 & E2 & _ & _ & _ & _ & J2).
      rewrite E1 in E2. injection E2 as <- <-. apply HP; auto. apply J1, J2. auto. }
    assert (SE : forall i p L m c lo up, book lens lens_seeds 2 i p L m c lo up ->
      (forall x y, same_sector L m lo up x y -> x <> y -> Nat.even x = Nat.even y) ->
      forall p' L' m' c' lo' up', book lens lens_seeds 2 i p' L' m' c' lo' up' -> forall x y, same_sector L' m' lo' up' x y -> x <> y -> Nat.even x = Nat.even y).
    { intros i p L m c lo up (B1 & B2 & B3) HP p' L' m' c' lo' up' (B1' & B2' & B3') x y Hxy N.
      destruct (@C77_edge_sector _ _ _ _ _ _ _ _ _ _ _ (repeat 0%nat 16) B1 B2 B3 eq_refl) as (c1 & l1 & E1 & _ & _ & _ & _ & J1).
      destruct (@C77_edge_sector _ _ _ _ _ _ _ _ _ _ _ (repeat 0%nat 16) B1' B2' B3' eq_refl) as (c2 & l2 & E2 & _ & _ & _ & _ & J2).
      rewrite E1 in E2. injection E2 as <- <-. apply HP; auto. apply J1, J2. auto. }
    apply HL in HJ as (N & [(i & Hi & m & c & lo & up & HF & Hs)|(i & Hi & p & L & m & c & lo & up & HB & Hs)]).
    - cases4 i.
      + refine (SF _ _ _ _ _ lens_fan0 _ _ _ _ _ HF _ _ Hs N). clear. intros x y [(k & k' & Hk & Hk' & -> & ->)|(k & k' & Hk & Hk' & -> & ->)] _; cases4 k; cases4 k'; reflexivity.
      + refine (SF _ _ _ _ _ lens_fan1 _ _ _ _ _ HF _ _ Hs N). clear. intros x y [(k & k' & Hk & Hk' & -> & ->)|(k & k' & Hk & Hk' & -> & ->)] _; cases4 k; cases4 k'; reflexivity.
    - do 2 (destruct i as [|i]; [lia|]). cases4 i.
      + refine (SE _ _ _ _ _ _ _ lens_book2 _ _ _ _ _ _ _ HB _ _ Hs N). clear.
        intros x y (n & (l & k & Hl & Hk & Hx) & (l' & k' & Hl' & Hk' & Hy)) _. cases4 l; cases4 k; cases4 l'; cases4 k'; cbn in Hx, Hy; destruct Hx as [(-> & ->)|(-> & ->)], Hy as [(-> & Hn)|(-> & Hn)]; try discriminate Hn; reflexivity.
      + refine (SE _ _ _ _ _ _ _ lens_book3 _ _ _ _ _ _ _ HB _ _ Hs N). clear.
        intros x y (n & (l & k & Hl & Hk & Hx) & (l' & k' & Hl' & Hk' & Hy)) _. cases4 l; cases4 k; cases4 l'; cases4 k'; cbn in Hx, Hy; destruct Hx as [(-> & ->)|(-> & ->)], Hy as [(-> & Hn)|(-> & Hn)]; try discriminate Hn; reflexivity.
      + refine (SE _ _ _ _ _ _ _ lens_book4 _ _ _ _ _ _ _ HB _ _ Hs N). clear.
        intros x y (n & (l & k & Hl & Hk & Hx) & (l' & k' & Hl' & Hk' & Hy)) _. cases4 l; cases4 k; cases4 l'; cases4 k'; cbn in Hx, Hy; destruct Hx as [(-> & ->)|(-> & ->)], Hy as [(-> & Hn)|(-> & Hn)]; try discriminate Hn; reflexivity.
      + refine (SE _ _ _ _ _ _ _ lens_book5 _ _ _ _ _ _ _ HB _ _ Hs N). clear.
        intros x y (n & (l & k & Hl & Hk & Hx) & (l' & k' & Hl' & Hk' & Hy)) _. cases4 l; cases4 k; cases4 l'; cases4 k'; cbn in Hx, Hy; destruct Hx as [(-> & ->)|(-> & ->)], Hy as [(-> & Hn)|(-> & Hn)]; try discriminate Hn; reflexivity. }
  destruct (@C77_links lens lens_seeds 6 2 4) as (l & E & _ & J).
  - intros s q x y z Hs. unfold seed_at in Hs. do 16 (destruct s as [|s]; [injection Hs as <-; cbn; intros T; injection T as <- <- <-; lia|]). destruct s; discriminate.
  - cbn; lia.
  - cbn; lia.
  - discriminate.
  - intros i Hi _. cases4 i; do 4 eexists; [apply lens_fan0|apply lens_fan1].
  - intros i Hi _. do 2 (destruct i as [|i]; [lia|]). cases4 i; do 6 eexists; [apply lens_book2|apply lens_book3|apply lens_book4|apply lens_book5].
  - exists l. split; [exact E|]. split.
    { apply J. split; [discriminate|]. left. exists 0%nat. split; [lia|]. do 4 eexists. split; [apply lens_fan0|]. right. exists 0%nat, 3%nat. split; [lia|]. split; [lia|]. split; reflexivity. }
    split.
    { apply J. split; [discriminate|]. right. exists 2%nat. split; [lia|]. do 6 eexists. split; [apply lens_book2|]. exists 1%nat. split.
      - exists 0%nat, 0%nat. split; [lia|]. split; [lia|]. right. split; reflexivity.
      - exists 1%nat, 0%nat. split; [lia|]. split; [lia|]. left. split; reflexivity. }
    split; [intros K; apply (EV l _ _ J) in K; discriminate|]. split; [intros K; apply (EV l _ _ J) in K; discriminate|].
    intros a b. now apply EV.
Qed.

(** * Where the rule fails
    An edge sphere none of whose triangles has another edge or corner sphere: the table of the first spheres of
    the sheets is empty and its first entry is read. *)
Theorem C77_no_feature_refuted (F : Type) (H : Num F) (sph : list (list F)) seeds (angle : F -> F -> F) ns i ss col :
  (ns <= i < length sph)%nat ->
  (forall s, In s ss -> exists q sj sk, nth_error seeds s = Some q /\ rotate i (q_tri q) = Ok (sj, sk) /\ (sj < ns)%nat /\ (sk < ns)%nat) ->
  length col = length seeds ->
  edge_sphere sph seeds angle ns i ss col = UB.
Proof.
  intros Hi HS L. unfold edge_sphere.
  assert (C : exists c0, clear_marks ss col = Ok c0).
  { assert (HL : forall s, In s ss -> (s < length seeds)%nat).
    { intros s I. destruct (HS s I) as (q & _ & _ & E & _). now apply nth_error_Some_lt in E. }
    clear HS. revert col L. induction ss as [|s t IH]; intros col L; cbn [clear_marks]; [eauto|].
    unfold set. rewrite (proj2 (Nat.ltb_lt s (length col))) by (rewrite L; apply HL; now left). cbn [bind].
    apply IH; [intros x Hx; apply HL; now right|]. now rewrite upd_length. }
  destruct C as (c0 & ->). cbn [bind].
  assert (N : feature_neighbor seeds ns i ss = Ok i).
  { clear - HS. induction ss as [|s t IH]; cbn [feature_neighbor]; [reflexivity|].
    destruct (HS s (or_introl eq_refl)) as (q & sj & sk & E & R & H1 & H2). rewrite (get_some E). cbn [bind]. rewrite R. cbn [bind].
    rewrite (proj2 (Nat.leb_gt ns sj)), (proj2 (Nat.leb_gt ns sk)) by lia. apply IH. intros x Hx. apply HS. now right. }
  rewrite N. cbn [bind].
  assert (K : count_at seeds i i ss = Ok 0%nat).
  { clear - HS Hi. induction ss as [|s t IH]; cbn [count_at]; [reflexivity|].
    destruct (HS s (or_introl eq_refl)) as (q & sj & sk & E & R & H1 & H2). rewrite (get_some E). cbn [bind]. rewrite R. cbn [bind].
    rewrite IH by (intros x Hx; apply HS; now right). cbn [bind].
    rewrite (proj2 (Nat.eqb_neq sj i)), (proj2 (Nat.eqb_neq sk i)) by lia. reflexivity. }
  rewrite K. cbn [bind].
  assert (J : first_layer seeds (Nat.div2 0) i i ss [] = Ok []).
  { clear - HS Hi. induction ss as [|s t IH]; cbn [first_layer]; [reflexivity|].
    destruct (HS s (or_introl eq_refl)) as (q & sj & sk & E & R & H1 & H2). rewrite (get_some E). cbn [bind]. rewrite R. cbn [bind].
    rewrite (proj2 (Nat.eqb_neq sj i)), (proj2 (Nat.eqb_neq sk i)) by lia. cbn [orb negb].
    apply IH. intros x Hx. apply HS. now right. }
  rewrite J. cbn [bind]. destruct (nth_error_lt sph (proj2 Hi)) as (x & Ex). rewrite (get_some Ex). reflexivity.
Qed.

(** A surface sphere with an open fan of three triangles, the first seed in the middle one: the walk goes in one
    direction only, the two seeds of the triangle that is not reached are linked with each other although they
    are partners on the two sides of the surface. *)
Definition fl (z : Z) : PrimFloat.float := @nofZ _ FNum z.
Definition open_fan : list (list PrimFloat.float) :=
  [[fl 0; fl 0; fl 0]; [fl 1; fl 0; fl 0]; [fl 1; fl 1; fl 0]; [fl 0; fl 1; fl 0]; [fl (-1); fl 1; fl 0]].
Definition open_seeds : list (pseed PrimFloat.float) :=
  [ MkPSeed [fl 1; fl 2; fl (-1)] 1 (0, 2, 3)%nat; MkPSeed [fl 1; fl 2; fl 1] 0 (0, 2, 3)%nat;
    MkPSeed [fl 2; fl 1; fl (-1)] 3 (0, 1, 2)%nat; MkPSeed [fl 2; fl 1; fl 1] 2 (0, 1, 2)%nat;
    MkPSeed [fl (-1); fl 2; fl (-1)] 5 (0, 3, 4)%nat; MkPSeed [fl (-1); fl 2; fl 1] 4 (0, 3, 4)%nat ].
Theorem C77_open_fan_refuted : exists col l,
  @surface_sphere _ FNum open_fan open_seeds 0 [0; 1; 2; 3; 4; 5]%nat (repeat 0%nat 6) = Ok (col, l)
  /\ In (2, 3)%nat l /\ map q_pair (firstn 2 (skipn 2 open_seeds)) = [3; 2]%nat.
Proof. do 2 eexists. split; [vm_compute; reflexivity|]. split; [cbn; tauto|reflexivity]. Qed.

(** An edge sphere (2) with three sheets around the axis to sphere 3, at the angles 0, 120 and 240 degrees; the
    first is a single triangle between the edge spheres 3 and 4.  The round of that sheet goes on into the
    third sheet.  Seed 4 is below the second sheet, in the sector between the first and the second, and seed 2
    is below the third sheet, in the sector between the second and the third; they are linked.  The angle used
    here has the same order as the angle in degrees. *)
Definition one_page : list (list PrimFloat.float) :=
  [[fl (-2); fl 3; fl 0]; [fl (-2); fl (-3); fl 0]; [fl 0; fl 0; fl 0]; [fl 0; fl 0; fl 4]; [fl 4; fl 0; fl (-4)]].
Definition one_seeds : list (pseed PrimFloat.float) :=
  [ MkPSeed [fl 2; fl (-1); fl 0] 1 (2, 3, 4)%nat; MkPSeed [fl 2; fl 1; fl 0] 0 (2, 3, 4)%nat;
    MkPSeed [fl (-1); fl (-1); fl (-7)] 3 (2, 1, 4)%nat; MkPSeed [fl 5; fl (-5); fl (-1)] 2 (2, 1, 4)%nat;
    MkPSeed [fl 1; fl 5; fl 4] 5 (2, 3, 0)%nat; MkPSeed [fl (-5); fl 1; fl 4] 4 (2, 3, 0)%nat;
    MkPSeed [fl 5; fl 5; fl (-1)] 7 (2, 0, 4)%nat; MkPSeed [fl (-1); fl 1; fl (-7)] 6 (2, 0, 4)%nat;
    MkPSeed [fl (-5); fl (-1); fl 4] 9 (2, 3, 1)%nat; MkPSeed [fl 1; fl (-5); fl 4] 8 (2, 3, 1)%nat ].
Definition turn (x y : PrimFloat.float) : PrimFloat.float :=
  let q := @ndiv _ FNum x (@nadd _ FNum (@nabs _ FNum x) (@nabs _ FNum y)) in
  if @nltb _ FNum y (fl 0) then @nadd _ FNum (fl 3) q else @nsub _ FNum (fl 1) q.
Theorem C77_one_triangle_sheet_refuted : exists col l,
  @edge_sphere _ FNum one_page one_seeds turn 2 2 (seq 0 10) (repeat 0%nat 10) = Ok (col, l) /\ In (2, 4)%nat l.
Proof. do 2 eexists. split; [vm_compute; reflexivity|]. cbn. tauto. Qed.

Print Assumptions C77_surface_side.
Print Assumptions C77_edge_sector.
Print Assumptions C77_links.
Print Assumptions C77_no_feature_refuted.
Print Assumptions C77_open_fan_refuted.
Print Assumptions C77_one_triangle_sheet_refuted.
