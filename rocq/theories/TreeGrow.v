(** A tree filled by add_tree_point only, starting with an empty one. *)
From Verif Require Import Base Num KdTree SmartTree Vec KdSpec SmartTreeSpec SmartTreeProofs.
From Coq Require Import Reals Lra.
Local Open Scope R_scope.

Definition grown (nd : nat) (s : stree R) (l : list item) : Prop :=
  st_nd s = nd /\ length (st_min s) = nd /\ length (st_max s) = nd /\
  ((l = [] /\ st_pts s = []) \/ (l <> [] /\ inv nd s l)).

Lemma grown_new nd : grown nd (st_new nd) [].
Proof. unfold grown, st_new. cbn. rewrite !repeat_length. repeat split; auto. Qed.

Lemma grown_add nd need s l x nv av : (0 < nd)%nat -> grown nd s l -> good_args nd x nv av ->
  exists s', add_point need s x nv av = Ok s' /\ grown nd s' (l ++ [item_of nd x nv av]).
Proof.
  intros Hnd (End & Lm & LM & H) Hg.
  assert (G : exists s', add_point need s x nv av = Ok s' /\ inv nd s' (l ++ [item_of nd x nv av])
     /\ zip_box nmin (st_min s) x = Ok (st_min s') /\ zip_box nmax (st_max s) x = Ok (st_max s')).
  { destruct H as [(-> & Hp) | (Hl & Hi)].
    - apply (@add_first nd Hnd need x nv av s); auto.
    - apply (@add_next nd Hnd need x nv av s l); auto. }
  destruct G as (s' & E & Hi & E1 & E2). exists s'. split; auto.
  destruct (@zip_box_ok nmin (st_min s) x) as (r & E3 & L3 & _); [destruct Hg; lia|].
  destruct (@zip_box_ok nmax (st_max s) x) as (r2 & E4 & L4 & _); [destruct Hg; lia|].
  assert (r = st_min s') by congruence. assert (r2 = st_max s') by congruence. subst r r2.
  destruct Hi as [I1 I2 I3 I4 I5]. split; auto. split; [lia|]. split; [lia|].
  right. split; [destruct l; discriminate|]. split; auto.
Qed.

Lemma grown_pts nd s l : grown nd s l -> st_pts s = map it_x l.
Proof. intros (_ & _ & _ & [(-> & E) | (_ & [_ (E & _) _ _ _])]); auto. Qed.

Lemma grown_n nd s l : grown nd s l -> st_n s = length l.
Proof. intros H. unfold st_n. rewrite (grown_pts H). apply map_length. Qed.

Lemma grown_ready nd s l : (0 < nd)%nat -> grown nd s l -> l <> [] -> ready s.
Proof.
  intros Hnd H Hl. pose proof (grown_pts H) as Ep. destruct H as (End & _ & _ & [(-> & _) | (_ & [I1 I2 I3 I4 I5])]); [congruence|].
  split; [lia|]. split; [rewrite Ep; destruct l; [congruence|discriminate]|].
  split; [rewrite End; exact I3|auto].
Qed.

Lemma grown_att nd s l : grown nd s l -> l <> [] -> st_att s = Some (map it_a l).
Proof. intros (_ & _ & _ & [(-> & _) | (_ & [_ (_ & _ & E) _ _ _])]) Hl; [congruence|auto]. Qed.
