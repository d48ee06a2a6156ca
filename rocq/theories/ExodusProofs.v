(** Proofs about the Exodus writer. *)
From Coq Require Import String QArith Qround.
From Verif Require Import Base Exodus ExodusSpec.
Local Open Scope Z_scope.

Ltac branch E :=
  match type of E with
  | context [bind ?x _] => destruct x eqn:?; cbn in E; try discriminate E
  | context [if ?x then _ else _] => destruct x eqn:?; cbn in E; try discriminate E
  | context [match ?x with _ => _ end] => destruct x eqn:?; cbn in E; try discriminate E
  end.

Ltac open_exec E :=
  cbn in E;
  unfold open_file, initialize_file, set_coordinates_on_axis, set_coordinates,
    set_coordinate_names, define_block, set_block_name, set_block_connectivity,
    set_map, define_node_set, define_side_set, close_file, check, ask in E;
  cbn in E; repeat branch E; inversion E; subst; clear E.

(** Whatever a method does, it adds calls with its identifier; it changes the
    members only when it opens or closes. *)
Lemma exec_shape lib o w h e w' h' :
  exec lib o (w, h) = Ok (e, (w', h')) ->
  exists new, h' = (new ++ h)%list /\
    (forall c r, In (c, r) new -> call_id c = None \/ call_id c = Some (exoid w)).
Proof.
  intros E. destruct o; open_exec E.
  all: try (exists []; split; [reflexivity | intros ? ? []]).
  all: match goal with
       | |- exists new, ?a :: ?b :: ?c :: ?d :: ?h = _ /\ _ => exists [a; b; c; d]
       | |- exists new, ?a :: ?b :: ?c :: ?h = _ /\ _ => exists [a; b; c]
       | |- exists new, ?a :: ?b :: ?h = _ /\ _ => exists [a; b]
       | |- exists new, ?a :: ?h = _ /\ _ => exists [a]
       end.
  all: split; [reflexivity |].
  all: cbn [In]; intros c0 r0 HI.
  all: repeat match goal with
              | H : _ \/ _ |- _ => destruct H as [H | H]
              | H : (_, _) = (_, _) |- _ => inversion H; subst; clear H
              | H : False |- _ => destruct H
              end; cbn; auto.
Qed.

Lemma throws_keeps lib o w h w' h' :
  exec lib o (w, h) = Ok (Throws, (w', h')) -> w' = w.
Proof.
  intros E. destruct o; open_exec E; reflexivity.
Qed.

(** Openness is only changed by creations and closings. *)
Lemma is_open_app new h i :
  (forall c r, In (c, r) new -> match c with CClose j => j <> i | _ => True end) ->
  is_open h i -> is_open (new ++ h) i.
Proof.
  induction new as [| [c r] t IH]; cbn; intros H Ho; auto.
  assert (Ht : is_open (t ++ h) i) by (apply IH; auto; intros; apply H with r0; auto).
  specialize (H c r (or_introl eq_refl)). destruct c; auto.
Qed.

Definition inv (wh : world) : Prop :=
  exoid (fst wh) = -1 \/ (0 <= exoid (fst wh) /\ is_open (snd wh) (exoid (fst wh))).

Lemma exec_inv lib o wh e wh' :
  inv wh -> exec lib o wh = Ok (e, wh') -> inv wh'.
Proof.
  destruct wh as [w h], wh' as [w' h']. unfold inv. cbn. intros HI E.
  destruct o; open_exec E; cbn; auto.
  all: try (destruct HI as [HI | [H0 HI]]; [left; exact HI | right; split; auto; fail]).
  all: right; split; [lia | left; split; [lia | reflexivity]].
Qed.

Lemma run_inv lib ops wh wh' : inv wh -> run lib ops wh = Ok wh' -> inv wh'.
Proof.
  revert wh. induction ops as [| o t IH]; cbn; intros wh HI E.
  - inversion E; subst. exact HI.
  - apply bind_Ok_inv in E as ([e wh1] & E1 & E). cbn in E.
    exact (IH _ (@exec_inv _ _ _ _ _ HI E1) E).
Qed.

(** Every call of a history carries the absent identifier or one open at that moment. *)
Definition all_open (h : history) : Prop :=
  forall h2 c r h1 i, h = (h2 ++ (c, r) :: h1)%list -> call_id c = Some i -> i = -1 \/ is_open h1 i.

Lemma all_open_cons c r h :
  (forall i, call_id c = Some i -> i = -1 \/ is_open h i) -> all_open h -> all_open ((c, r) :: h).
Proof.
  intros Hc Hh [| x h2] c1 r1 h1 i E Hi; cbn in E; inversion E; subst; auto.
  exact (Hh _ _ _ _ _ eq_refl Hi).
Qed.

Lemma exec_all_open lib o wh e wh' :
  inv wh -> all_open (snd wh) -> exec lib o wh = Ok (e, wh') -> all_open (snd wh').
Proof.
  destruct wh as [w h], wh' as [w' h']. unfold inv. cbn. intros HI HA E.
  assert (HI' : exoid w = -1 \/ is_open h (exoid w)) by tauto.
  destruct o; open_exec E; cbn; auto.
  all: repeat (apply all_open_cons; [cbn; intros i Hi; inversion Hi; subst; cbn; tauto |]); auto.
Qed.

Lemma run_all_open lib ops wh wh' :
  inv wh -> all_open (snd wh) -> run lib ops wh = Ok wh' -> all_open (snd wh').
Proof.
  revert wh. induction ops as [| o t IH]; cbn; intros wh HI HA E.
  - inversion E; subst. exact HA.
  - apply bind_Ok_inv in E as ([e wh1] & E1 & E). cbn in E.
    exact (IH _ (@exec_inv _ _ _ _ _ HI E1) (@exec_all_open _ _ _ _ _ HI HA E1) E).
Qed.

Lemma destroy_all_open lib wh wh' :
  inv wh -> all_open (snd wh) -> destroy lib wh = Ok wh' -> all_open (snd wh').
Proof.
  intros HI HA E. unfold destroy in E. destruct (has_open_file (fst wh)) eqn:Eo.
  - apply bind_Ok_inv in E as ([e wh1] & E1 & E). cbn in E. inversion E; subst.
    exact (@exec_all_open lib CloseFile _ _ _ HI HA E1).
  - inversion E; subst. exact HA.
Qed.

(** Without double openings the only open identifier is the one held. *)
Definition only_held (wh : world) : Prop :=
  forall i, is_open (snd wh) i -> i = exoid (fst wh).

Lemma exec_only lib o wh e wh' :
  inv wh -> only_held wh ->
  (forall p, o = OpenFile p -> has_open_file (fst wh) = false) ->
  exec lib o wh = Ok (e, wh') -> only_held wh'.
Proof.
  destruct wh as [w h], wh' as [w' h']. unfold inv, only_held, has_open_file. cbn. intros HI HA HO E.
  assert (Hneg : forall i, is_open h i -> 0 <= i).
  { clear. induction h as [| [c r] t IH]; cbn; intros i H; [destruct H |].
    destruct c; auto; [destruct H as [[H _] | H] |]; auto. apply IH, H. }
  destruct o; open_exec E; cbn; intros i Hi; auto.
  all: try (specialize (HO _ eq_refl)).
  all: repeat match goal with
              | H : _ \/ _ |- _ => destruct H as [H | H]
              | H : _ /\ _ |- _ => destruct H as [? H]
              | H : is_open _ _ |- _ => pose proof (HA _ H); pose proof (Hneg _ H); clear H
              end; try lia; auto.
Qed.

Lemma run_only lib ops wh wh' :
  inv wh -> only_held wh -> no_double_open lib ops wh -> run lib ops wh = Ok wh' ->
  inv wh' /\ only_held wh'.
Proof.
  revert wh. induction ops as [| o t IH]; cbn; intros wh HI HA HN E.
  - inversion E; subst. auto.
  - apply bind_Ok_inv in E as ([e wh1] & E1 & E). cbn in E. destruct HN as [HN HN'].
    rewrite E1 in HN'.
    exact (IH _ (@exec_inv _ _ _ _ _ HI E1) (@exec_only _ _ _ _ _ HI HA HN E1) HN' E).
Qed.

Lemma inv_new : inv (new_writer, []).
Proof. left. reflexivity. Qed.

Lemma destroy_closed lib wh wh' :
  inv wh -> only_held wh -> destroy lib wh = Ok wh' -> forall i, ~ is_open (snd wh') i.
Proof.
  destruct wh as [w h]. unfold inv, only_held, destroy. cbn. intros HI HA E i Ho.
  assert (Hneg : forall j, is_open h j -> 0 <= j).
  { clear. induction h as [| [c r] t IH]; cbn; intros j H; [destruct H |].
    destruct c; auto; [destruct H as [[H _] | H] |]; auto. apply IH, H. }
  destruct (has_open_file w) eqn:Eo.
  - cbn in E. inversion E; subst. cbn in Ho. destruct Ho as [Hne Ho].
    specialize (HA _ Ho). congruence.
  - inversion E; subst. cbn in Ho. unfold has_open_file in Eo.
    pose proof (HA _ Ho). pose proof (Hneg _ Ho). lia.
Qed.

(** Codes. *)
Lemma returns_codes lib o w h w' h' :
  exec lib o (w, h) = Ok (Returns, (w', h')) ->
  exists new, h' = (new ++ h)%list /\
    forall c r, In (c, r) new -> rc r < 0 -> unchecked c = true.
Proof.
  intros E. destruct o; open_exec E.
  all: match goal with
       | |- exists new, ?a :: ?b :: ?c :: ?d :: ?h = _ /\ _ => exists [a; b; c; d]
       | |- exists new, ?a :: ?b :: ?c :: ?h = _ /\ _ => exists [a; b; c]
       | |- exists new, ?a :: ?b :: ?h = _ /\ _ => exists [a; b]
       | |- exists new, ?a :: ?h = _ /\ _ => exists [a]
       end.
  all: split; [reflexivity |].
  all: cbn [In]; intros c0 r0 HIn Hneg.
  all: repeat match goal with
              | H : _ \/ _ |- _ => destruct H as [H | H]
              | H : (_, _) = (_, _) |- _ => inversion H; subst; clear H
              | H : False |- _ => destruct H
              end; cbn; auto; lia.
Qed.

Lemma throws_codes lib o w h w' h' :
  exec lib o (w, h) = Ok (Throws, (w', h')) ->
  exists new, h' = (new ++ h)%list /\
    ((exists c r, In (c, r) new /\ unchecked c = false /\ rc r < 0) \/
     (forall c r, In (c, r) new -> read_only c = true)).
Proof.
  intros E. destruct o; open_exec E.
  all: try (exists []; split; [reflexivity | right; intros ? ? []]).
  all: match goal with
       | |- exists new, ?a :: ?b :: ?c :: ?d :: ?h = _ /\ _ => exists [a; b; c; d]
       | |- exists new, ?a :: ?b :: ?c :: ?h = _ /\ _ => exists [a; b; c]
       | |- exists new, ?a :: ?b :: ?h = _ /\ _ => exists [a; b]
       | |- exists new, ?a :: ?h = _ /\ _ => exists [a]
       end.
  all: split; [reflexivity |].
  all: first
    [ left; do 2 eexists; split; [left; reflexivity | split; [reflexivity | lia]]
    | right; intros c0 r0 [Hin | []]; inversion Hin; reflexivity
    | idtac ].
Qed.

Lemma trunc_int (z : Z) : trunc (inject_Z z) = z.
Proof.
  unfold trunc. destruct (Qle_bool 0 (inject_Z z)); [apply Qfloor_Z | apply Qceiling_Z].
Qed.

Lemma find_type_In name t : find_type name = Some t <-> name = entity_name t.
Proof.
  split.
  - unfold find_type. destruct (find _ _) as [[k v] |] eqn:E; [| discriminate]. intros H. inversion H; subst.
    apply find_some in E as [Hin He]. cbn in He. apply String.eqb_eq in He. subst. cbn [block_type_map In] in Hin.
    repeat (destruct Hin as [Hin | Hin]; [inversion Hin; subst; reflexivity |]). destruct Hin.
  - intros ->. destruct t; reflexivity.
Qed.

Lemma to_ints_trunc l zs :
  to_ints l = Ok zs -> zs = map trunc l /\ Forall (fun q => - 2 ^ 31 <= trunc q < 2 ^ 31) l.
Proof.
  revert zs. induction l as [| q t IH]; cbn [to_ints map]; intros zs E.
  - inversion E; subst. split; auto.
  - apply bind_Ok_inv in E as (z & E1 & E). apply bind_Ok_inv in E as (zt & E2 & E).
    inversion E; subst. destruct (IH _ E2) as [-> HF].
    unfold to_int, in_int in E1. destruct (_ && _) eqn:Er in E1; inversion E1; subst.
    split; auto. constructor; auto. lia.
Qed.
