(** C51: the corner spheres. *)
From Coq Require Import Reals Lra.
From Verif Require Import Base Num Vec KdTree SmartTree KdSpec SmartTreeSpec SmartQueryProofs SmartTreeProofs TreeGrow DenseQR Geometry GeometrySpec GeometryProofs
  Spheres SpheresSpec SpheresProofs SpheresLipProofs ActivePool ActivePoolSpec SamplePool SamplePoolSpec SamplePoolProofs PropsSamplePool CornerSpheres CornerSpec CornerProofs.
Local Open Scope R_scope.

Theorem C51_corner_spheres need fuel k L points corners :
  good_setting k points corners -> corners <> [] -> 0 <= L -> (2 <= fuel)%nat ->
  exists s, generate_corner_spheres need fuel k L points corners = Ok s /\ spheres s
    (* every sphere is at a corner, which its record names, and every corner is the centre of a sphere or within the tolerance of one *)
    /\ (forall i, (i < count s)%nat -> exists c, In c corners /\ corner_of s i c)
    /\ (forall i c, (i < count s)%nat -> corner_of s i c -> forall d, (d < 3)%nat -> center s i d = vec (place points c) d)
    /\ (forall c, In c corners -> exists i, (i < count s)%nat /\ (corner_of s i c \/ vdist 3 (vec (place points c)) (center s i) < k_tol k))
    /\ (forall i j, (i < count s)%nat -> (j < count s)%nat -> i <> j -> k_tol k <= gap s i j)
    (* the radii *)
    /\ (forall i c, (i < count s)%nat -> corner_of s i c -> clear_of_features k (place points c) (radius s i)
          /\ forall t, k_input k = Some t -> exists e, closest_size t (vec (place points c)) e /\ radius s i <= radius t e)
    /\ (forall i j, (i < count s)%nat -> (j < count s)%nat -> i <> j -> radius s i <= 2 / 5 * gap s i j)
    /\ lipschitz L s
    (* no larger radii meet these conditions *)
    /\ (forall rho : nat -> R,
          (forall i c, (i < count s)%nat -> corner_of s i c -> clear_of_features k (place points c) (rho i)
             /\ forall t e, k_input k = Some t -> closest_size t (vec (place points c)) e -> rho i <= radius t e) ->
          (forall i j, (i < count s)%nat -> (j < count s)%nat -> i <> j -> rho i <= 2 / 5 * gap s i j) ->
          (forall i j, (i < count s)%nat -> (j < count s)%nat -> rho i <= rho j + L * gap s i j) ->
          forall i, (i < count s)%nat -> rho i <= radius s i)
    (* they are positive *)
    /\ (0 <= k_tol k -> k_thr k < 1 -> 0 < k_rmax k -> (forall t, k_input k = Some t -> positive_radii t) ->
          distinct_places points corners \/ 0 < k_tol k -> positive_radii s).
Proof.
  intros Hk Hne HL Hf. unfold generate_corner_spheres.
  assert (Hlen : (0 < length corners)%nat) by (destruct corners; cbn; [congruence|lia]).
  destruct (@first_loop_ok need k points corners Hk Hlen) as (s0 & l & -> & [G Ff Fa Fp] & Hl). cbn [bind].
  rewrite firstn_all in *.
  assert (Hp3 : forall p, In p l -> length (place points (fst p)) = 3%nat).
  { intros p Hp. destruct (Ff p Hp) as (H1 & _). apply (@place_len need k points corners Hk); auto. }
  pose proof (@listed_count points l s0 G) as Cn.
  pose proof (@listed_radius points l s0 G Hp3) as Rn. pose proof (@listed_center points l s0 G Hp3) as Xn.
  pose proof (@listed_gap points l s0 G Hp3) as Gn. pose proof (@listed_corner points l s0 G) as Kn.
  pose proof (@listed_spheres points l s0 G Hp3 Hl) as S0. set (p0 := (0%nat, 0)) in *.
  assert (Gp : forall i, (i < length l)%nat -> In (fst (nth i l p0)) corners /\ good_pair k points (nth i l p0)).
  { intros i Hi. destruct (Ff _ (nth_In l p0 Hi)) as (H1 & H2). auto. }
  assert (Ap : forall i j, (i < length l)%nat -> (j < length l)%nat -> i <> j ->
    k_tol k <= gap s0 i j /\ (distinct_places points corners -> 0 < gap s0 i j)).
  { intros i j Hi Hj Hij. rewrite Gn by auto. destruct (Nat.lt_trichotomy i j) as [H|[H|H]]; [|congruence|].
    - apply (FOP_nth p0 Fp). lia.
    - rewrite between_sym. apply (FOP_nth p0 Fp). lia. }
  destruct (@second_loop_ok s0 S0) as (s1 & -> & O1 & Cap).
  { intros i Hi. rewrite Cn in Hi. rewrite Rn by auto. destruct (Gp i Hi) as (_ & ((H1 & _) & _) & _).
    destruct Hk as (_ & _ & _ & _ & Hm & _). eapply Rle_trans; [exact H1|exact Hm]. }
  cbn [bind]. assert (S1 : spheres s1) by (eapply only_radii_spheres; eauto).
  destruct (@brute_ok L s1 fuel HL S1 Hf) as (s & b & -> & O2 & Hu & _). cbn [bind].
  pose proof (only_radii_trans O1 O2) as O.
  assert (C1 : count s1 = length l) by (rewrite (only_radii_count O1); auto).
  assert (C : count s = length l) by (rewrite (only_radii_count O); auto).
  assert (Gs : forall i j, gap s i j = gap s0 i j) by (intros; apply only_radii_gap; auto).
  assert (G1 : forall i j, gap s1 i j = gap s0 i j) by (intros; apply only_radii_gap; auto).
  assert (Ks : forall i c, (i < length l)%nat -> corner_of s i c <-> fst (nth i l p0) = c).
  { intros i c Hi. rewrite <- Kn by auto. unfold corner_of. destruct O as (_ & _ & _ & -> & _). tauto. }
  assert (Cs : forall i d, (i < length l)%nat -> (d < 3)%nat -> center s i d = vec (place points (fst (nth i l p0))) d).
  { intros i d Hi Hd. rewrite <- Xn by auto. unfold center. apply O. lia. }
  assert (Rle : forall i, (i < length l)%nat -> radius s i <= radius s1 i).
  { intros i Hi. assert (Hi1 : (i < count s1)%nat) by lia. apply (hull_le (Hu i Hi1) Hi1). }
  exists s. split; auto. split; [eapply only_radii_spheres; eauto|]. rewrite C.
  split; [intros i Hi; exists (fst (nth i l p0)); split; [apply Gp; auto|apply Ks; auto]|].
  split; [intros i c Hi Hc d Hd; apply Ks in Hc; auto; subst c; auto|].
  split.
  { intros c Hc. destruct (Fa c Hc) as (p & Hp & H). destruct (In_nth _ _ p0 Hp) as (i & Hi & Ei).
    exists i. split; auto. destruct H as [H|H]; [left; apply Ks; auto; rewrite Ei; auto|right].
    rewrite <- Ei in H. erewrite vdist_ext; [exact H|auto|]. intros d Hd. apply Cs; auto. }
  split; [intros i j Hi Hj Hij; rewrite Gs; apply Ap; auto|].
  split.
  { intros i c Hi Hc. apply Ks in Hc; auto. subst c. destruct (Gp i Hi) as (_ & (((H1 & H2 & H3) & H4) & _)).
    assert (Hr : radius s i <= snd (nth i l p0)). { rewrite <- Rn by auto. apply Rle_trans with (radius s1 i); auto. apply Cap. lia. }
    split; [split; [lra|split; intros j Hj Hs; [specialize (H2 j Hj Hs)|specialize (H3 j Hj Hs)]; lra]|].
    intros t E. destruct (H4 t E) as (e & He & Hv). exists e. split; auto. lra. }
  split.
  { intros i j Hi Hj Hij. rewrite Gs. apply Rle_trans with (radius s1 i); auto. apply Cap; lia. }
  split; [exact (hull_lipschitz HL O2 Hu)|].
  split.
  { intros rho H1 H2 H3 i Hi. assert (Hi1 : (i < count s1)%nat) by lia.
    destruct (Hu i Hi1) as ((j & Hj & ->) & _). rewrite C1 in Hj. rewrite G1, <- Gs. eapply Rle_trans; [apply (H3 i j); auto|].
    apply Rplus_le_compat_r. destruct (Cap j) as (_ & _ & [->|(e & He & Hn & ->)]); [lia| |].
    - rewrite Rn by auto. destruct (Gp j Hj) as (_ & _ & Hmax & _). apply Hmax. apply H1; auto. apply Ks; auto.
    - rewrite <- Gs. apply H2; auto; lia. }
  intros P1 P2 P3 P4 P5. intros i Hi. rewrite C in Hi. assert (Hi1 : (i < count s1)%nat) by lia.
  destruct (Hu i Hi1) as ((j & Hj & ->) & _). pose proof (Lgap s1 i j HL). rewrite C1 in Hj.
  assert (0 < radius s1 j); [|lra].
  destruct (Cap j) as (_ & _ & [->|(e & He & Hn & ->)]); [lia| |].
  - rewrite Rn by auto. destruct (Gp j Hj) as (_ & _ & _ & Hp). apply Hp. repeat split; auto.
  - assert (0 < gap s0 j e); [|lra]. destruct (Ap j e) as (A1 & A2); auto; [lia|]. destruct P5 as [P5|P5]; [auto|lra].
Qed.

(** So no two corner spheres overlap. *)
Corollary C51_disjoint need fuel k L points corners s i j :
  good_setting k points corners -> corners <> [] -> 0 <= L -> (2 <= fuel)%nat ->
  generate_corner_spheres need fuel k L points corners = Ok s ->
  (i < count s)%nat -> (j < count s)%nat -> i <> j -> radius s i + radius s j <= 4 / 5 * gap s i j.
Proof.
  intros Hk Hne HL Hf E Hi Hj Hij. destruct (@C51_corner_spheres need fuel k L points corners Hk Hne HL Hf) as (s' & E' & _ & _ & _ & _ & _ & _ & H & _).
  rewrite E in E'. injection E' as <-. pose proof (H i j Hi Hj Hij). pose proof (H j i Hj Hi (not_eq_sym Hij)). rewrite (gap_sym s j i) in *. lra.
Qed.

(** A case: two corners at distance 1, a point of the cloud above the first, not smoothly connected with it. *)
Definition case_points : list (list R) := [[0; 0; 0]; [1; 0; 0]].
Definition case_corners : csetting R := CSet cloud1 cloud1 None (1 / 10) (9 / 10) 1.
Example C51_hypotheses :
  good_setting case_corners case_points [0; 1]%nat /\ distinct_places case_points [0; 1]%nat
  /\ 0 <= k_tol case_corners /\ k_thr case_corners < 1 /\ 0 < k_rmax case_corners
  /\ ~ smooth_from cloud1 (normals_of cloud1) (place case_points 0) (1 / 10) (9 / 10) 0.
Proof.
  assert (M : 5 <= @dbl_max R RNum) by (unfold dbl_max; cbn [nofZ RNum]; apply IZR_le; intros C; discriminate C).
  split; [|split; [|split; [cbn; lra|split; [cbn; lra|split; [cbn; lra|]]]]].
  - split; [apply cloud1_ok|]. split; [apply cloud1_ok|]. split; [|split; [discriminate|split]].
    + intros c [<-|[<-|[]]]; cbn; lia.
    + change (1 <= 2 / 5 * @dbl_max R RNum). lra.
    + change (1 / 10 <= @dbl_max R RNum). lra.
  - intros a b Hab. cbn [length] in Hab. assert (a = 0%nat) by lia. assert (b = 1%nat) by lia. subst.
    unfold vdist, norm. apply sqrt_lt_R0. unfold dot, sumn, SamplingSpec.rsum, place, vec, case_points. cbn. lra.
  - assert (N : norm (st_nd cloud1) (offset cloud1 (place case_points 0) 0) = 5).
    { unfold norm, dot, sumn, offset, coord, vec, place, case_points. cbn. unfold SamplingSpec.rsum. cbn. match goal with |- sqrt ?a = _ => replace a with (5 * 5) by lra end. apply sqrt_square. lra. }
    unfold smooth_from. rewrite N. intros [(_ & H)|(H & _)]; [|lra]. unfold sine, cosine in H. rewrite N in H.
    unfold dot, sumn, SamplingSpec.rsum, offset, coord, normal_at, normals_of, vec, place, case_points in H. cbn in H. unfold SamplingSpec.rsum in H. cbn in H.
    match type of H with context [sqrt ?a] => replace a with 0 in H by lra end. rewrite sqrt_0 in H. lra.
Qed.

(** A run on floating-point numbers: three corners, the third a copy of the first up to the tolerance. *)
Example C51_run :
  match (c <- one_cloud ;;
         generate_corner_spheres auto_balance 5 (CSet c c None (nlit 1 2) (nlit 9 1) (fl 10)) (nlit 25 2)
           [[n1; n0; n0]; [fl 3; n0; fl 4]; [n1; n0; nlit 1 3]] [0; 1; 2]%nat) with
  | Ok s => map (fun p => nth 3 p n0) (st_pts s) = [nlit 4 1 * n1; nlit 4 1 + nlit 25 2 * nsqrt (fl 20)]%num
      /\ st_att s = Some [Some [2; 0]; Some [2; 1]]%nat
  | _ => False
  end.
Proof. vm_compute. split; reflexivity. Qed.

Print Assumptions C51_corner_spheres.
Print Assumptions C51_disjoint.
