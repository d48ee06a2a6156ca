(** C88: the spheres at open edges of a surface mesh are cut back. *)
From Coq Require Import Reals Lra.
From Verif Require Import Base Num Vec KdTree SmartTree KdSpec SmartTreeSpec Geometry Spheres SpheresSpec SpheresProofs PolyMesh PolyMeshSpec ShrinkOpen ShrinkOpenSpec
  ShrinkOpenProofs PropsKdTree PropsPolyMesh SamplingSpec.
Local Open Scope R_scope.

(** The call succeeds and returns false; nothing but radii and flags changes; each sphere gets the least of its radius and 0.49 of the
    lengths of its open edges; the flags say whether a surface sphere, or an edge or corner sphere, has shrunk; the saved mesh has
    the centres and the faces. *)
Theorem C88_cut b faces : ball_trees b -> proper_triangles (total b) faces ->
  exists b' points, valid_surface_mesh b faces = Ok (false, b', (points, faces))
    /\ only_sizes b b'
    /\ (forall m, (m < total b)%nat -> cut_back faces b b' m)
    /\ (f_s b' = true <-> f_s b = true \/ exists m, (m < count (b_s b))%nat /\ size b' m < size b m)
    /\ (f_e b' = true <-> f_e b = true \/ exists m, (count (b_s b) <= m < total b)%nat /\ size b' m < size b m)
    /\ f_c b' = f_c b
    /\ length points = total b /\ (forall m d, (m < total b)%nat -> (d < 3)%nat -> coord points m d = place b m d).
Proof.
  intros Hb Hp. destruct (valid_ok Hb Hp) as (b' & E & (O & S & Fs & Fe & Fc & _)). exists b', (centres b). split; [exact E|]. split; [exact O|].
  split; [|split; [exact Fs|split; [exact Fe|split; [exact Fc|split; [apply centres_length|]]]]].
  - intros m Hm. destruct (S m Hm) as (S1 & S2 & S3). split; [exact S1|]. split.
    + intros k Hk. apply S2. exact (proj2 (ends_all b Hp m k) Hk).
    + destruct S3 as [S3|(k & Hk & S3)]; [now left|right]. exists k. split; [exact (proj1 (ends_all b Hp m k) Hk)|exact S3].
  - intros m d Hm Hd. destruct (@centre_ok b Hb m Hm) as (p & Ep & Hpd). unfold get in Ep. destruct (nth_error (centres b) m) as [q|] eqn:Eq; [|discriminate].
    injection Ep as ->. rewrite <- (Hpd d Hd). unfold coord, gv. now rewrite (nth_error_nth _ _ [] Eq).
Qed.

(** Afterwards the spheres at the ends of an open edge do not touch. *)
Theorem C88_apart b faces b' out : ball_trees b -> proper_triangles (total b) faces -> valid_surface_mesh b faces = Ok out -> snd (fst out) = b' ->
  forall x y, (x < total b)%nat -> (y < total b)%nat -> open_edge faces x y -> 0 < apart b x y -> size b' x + size b' y < apart b' x y.
Proof.
  intros Hb Hp E <- x y Hx Hy Ho Ha. destruct (C88_cut Hb Hp) as (b' & points & E' & O & S & _). rewrite E in E'. injection E' as ->. cbn [fst snd].
  assert (Hs : open_edge faces y x) by (destruct Ho as (? & ?); split; [auto|now rewrite faces_with_sym]).
  destruct (S x Hx) as (_ & Sx & _), (S y Hy) as (_ & Sy & _). specialize (Sx y Ho). specialize (Sy x Hs).
  assert (Es : apart b y x = apart b x y) by apply vdist_sym.
  assert (Ep : apart b' x y = apart b x y).
  { unfold apart. apply vdist_ext; intros d Hd; now apply place_same. }
  rewrite Ep. lra.
Qed.

(** A mesh without open edges changes nothing. *)
Theorem C88_closed b faces : ball_trees b -> proper_triangles (total b) faces -> (forall x y, ~ open_edge faces x y) ->
  exists points, valid_surface_mesh b faces = Ok (false, b, (points, faces)).
Proof.
  intros Hb Hp Hn. destruct (valid_ok Hb Hp) as (b' & E & (_ & _ & _ & _ & _ & Same)). exists (centres b). rewrite E.
  rewrite Same; [reflexivity|]. intros m k H. exact (Hn m k (proj1 (ends_all b Hp m k) H)).
Qed.

Example C88_closed_hypotheses : proper_triangles 4 tetra /\ forall x y, ~ open_edge tetra x y.
Proof.
  split; [exact tetra_proper|]. intros x y (Hd & H).
  destruct x as [|[|[|[|x]]]], y as [|[|[|[|y]]]]; try congruence; cbn in H; try discriminate H.
Qed.

(** One triangle: a surface sphere, an edge sphere and a corner sphere of radius 9, at the corners of a right triangle with sides 3, 4 and 5. *)
Definition one_ball (s : stree R) (x : list R) : Prop := spheres s /\ st_pts s = [x].
Lemma one_ball_ex x : length x = 4%nat -> exists s, one_ball s x.
Proof.
  intros Hx. destruct (@C07_from_array 3 [x]) as (s & _ & Hr & Hd & Hp); [lia|discriminate| |].
  { intros p [<-|[]]. lia. }
  exists s. split; [|exact Hp]. split; [exact Hr|]. split; [exact Hd|]. rewrite Hp. intros p [<-|[]]. lia.
Qed.
Lemma side_length (x y : nat -> R) h : 0 <= h -> (x 0%nat - y 0%nat) * (x 0%nat - y 0%nat) + (x 1%nat - y 1%nat) * (x 1%nat - y 1%nat) + (x 2%nat - y 2%nat) * (x 2%nat - y 2%nat) = h * h ->
  vdist 3 x y = h.
Proof. intros Hh E. unfold vdist, norm. rewrite <- (sqrt_square h Hh). f_equal. rewrite <- E. unfold dot, sumn, SamplingSpec.rsum. cbn [seq map fold_right]. ring. Qed.
Example C88_hypotheses : exists b, (count (b_s b) = 1 /\ count (b_e b) = 1 /\ count (b_c b) = 1)%nat /\ ball_trees b /\ proper_triangles (total b) [[0; 1; 2]%nat]
  /\ open_edge [[0; 1; 2]%nat] 0 1 /\ apart b 0 1 = 3 /\ size b 0 = 9 /\ size b 2 = 9 /\ apart b 2 0 = 4 /\ apart b 2 1 = 5 /\ f_e b = false /\ f_c b = false.
Proof.
  destruct (@one_ball_ex [0; 0; 0; 9] eq_refl) as (s & S1 & S2), (@one_ball_ex [3; 0; 0; 9] eq_refl) as (e & E1 & E2), (@one_ball_ex [0; 4; 0; 9] eq_refl) as (c & C1 & C2).
  exists (Balls s e c false false false). split; [|split; [|split; [|split; [|split; [|split; [|split; [|split; [|split; [|split]]]]]]]]].
  - unfold count. cbn [b_s b_e b_c]. now rewrite S2, E2, C2.
  - intros t [<-|[<-|[<-|[]]]]; now right.
  - unfold total, count. cbn [b_s b_e b_c]. rewrite S2, E2, C2. split.
    + intros f [<-|[]]. split; [reflexivity|]. cbn. intros x Hx. lia.
    + intros f [<-|[]]. repeat constructor; cbn; intuition discriminate.
  - split; [discriminate|reflexivity].
  - unfold apart, place, number, count, center, coord. cbn [b_s b_e b_c]. rewrite S2, E2. cbn [length Nat.ltb Nat.leb Nat.add Nat.sub fst snd]. apply side_length; [lra|]. cbn. rewrite ?S2, ?E2, ?C2. cbn [nth]. lra.
  - unfold size, number, count, radius, coord. cbn [b_s b_e b_c]. rewrite S2. cbn. now rewrite S2.
  - unfold size, number, count, radius, coord. cbn [b_s b_e b_c]. rewrite S2, E2. cbn. rewrite C2. reflexivity.
  - unfold apart, place, number, count, center, coord. cbn [b_s b_e b_c]. rewrite S2, E2. cbn [length Nat.ltb Nat.leb Nat.add Nat.sub fst snd]. rewrite ?C2. apply side_length; [lra|]. cbn. rewrite ?S2, ?E2, ?C2. cbn [nth]. lra.
  - unfold apart, place, number, count, center, coord. cbn [b_s b_e b_c]. rewrite S2, E2. cbn [length Nat.ltb Nat.leb Nat.add Nat.sub fst snd]. rewrite ?C2. apply side_length; [lra|]. cbn. rewrite ?S2, ?E2, ?C2. cbn [nth]. lra.
  - reflexivity.
  - reflexivity.
Qed.

(** The flag of the corner spheres does not say whether a corner sphere has shrunk, and that of the edge spheres may be set although no edge sphere has. *)
Theorem C88_corner_flag_refuted : ~ (forall b faces out, ball_trees b -> proper_triangles (total b) faces -> valid_surface_mesh b faces = Ok out ->
  let b' := snd (fst out) in
  f_c b' = true <-> f_c b = true \/ exists m, (count (b_s b) + count (b_e b) <= m < total b)%nat /\ size b' m < size b m).
Proof.
  intros H. destruct C88_hypotheses as (b & (N1 & N2 & N3) & Hb & Hp & _ & _ & _ & S2 & A2 & _ & _ & F).
  destruct (C88_cut Hb Hp) as (b' & points & E & O & S & _ & _ & Fc & _). specialize (H b _ _ Hb Hp E). cbn [fst snd] in H.
  rewrite Fc, F in H. assert (X : false = true); [|discriminate X]. apply H. right.
  exists 2%nat. unfold total. rewrite N1, N2, N3. split; [lia|].
  destruct (S 2%nat ltac:(unfold total; lia)) as (_ & S3 & _). specialize (S3 0%nat). rewrite A2 in S3. rewrite S2.
  assert (size b' 2 <= 49/100 * 4) by (apply S3; split; [discriminate|reflexivity]). lra.
Qed.
(** What the call does to that triangle. *)
Example C88_example : exists b b' points, valid_surface_mesh b [[0; 1; 2]%nat] = Ok (false, b', (points, [[0; 1; 2]%nat]))
  /\ size b 2 = 9 /\ size b' 2 = 49/100 * 4 /\ f_e b' = true.
Proof.
  destruct C88_hypotheses as (b & (N1 & N2 & N3) & Hb & Hp & _ & _ & _ & S2 & A2 & A3 & _ & F).
  destruct (C88_cut Hb Hp) as (b' & points & E & O & S & _ & Fe & _). exists b, b', points. split; [exact E|]. split; [exact S2|].
  destruct (S 2%nat ltac:(unfold total; lia)) as (_ & S3 & S4).
  assert (L : size b' 2 <= 49/100 * 4) by (rewrite <- A2; apply S3; split; [discriminate|reflexivity]). split.
  - destruct S4 as [S4|(k & Ho & S4)]; [lra|]. destruct k as [|[|k]]; [now rewrite S4, A2|rewrite S4, A3 in L; lra|].
    destruct Ho as (Hd & Ho). destruct k as [|k]; [congruence|discriminate Ho].
  - apply Fe. right. exists 2%nat. unfold total. split; [lia|lra].
Qed.

Print Assumptions C88_cut.
Print Assumptions C88_apart.
Print Assumptions C88_closed.
Print Assumptions C88_corner_flag_refuted.
