(** Proofs about text handling. *)
From Coq Require Import Ascii String Reals Lra.
From Verif Require Import Base Num SmartTree Text TextSpec.
Local Open Scope list_scope.

Lemma ch_true a b : ch a b = true <-> a = b.
Proof. unfold ch. now rewrite Ascii.eqb_eq. Qed.
Lemma ch_false a b : ch a b = false <-> a <> b.
Proof. unfold ch. now rewrite Ascii.eqb_neq. Qed.
Lemma text_eqb_true a b : text_eqb a b = true <-> a = b.
Proof. unfold text_eqb. destruct list_eq_dec; split; intros; congruence. Qed.
Lemma text_eqb_false a b : text_eqb a b = false <-> a <> b.
Proof. unfold text_eqb. destruct list_eq_dec; split; intros; congruence. Qed.

(** ** get_tokens *)
Fixpoint split_on (sep : ascii) (l : text) : list text :=
  match l with
  | [] => [[]]
  | a :: t => if ch a sep then [] :: split_on sep t
              else match split_on sep t with [] => [[a]] | h :: r => (a :: h) :: r end
  end.

Lemma split_first sep l :
  (free_of sep l /\ split_on sep l = [l] /\ forall pos, find_char sep l pos = pos + List.length l)
  \/ exists h t, l = h ++ sep :: t /\ free_of sep h /\ split_on sep l = h :: split_on sep t
       /\ forall pos, find_char sep l pos = pos + List.length h.
Proof.
  induction l as [|a l IH].
  - left. split; [intros []|]. split; auto.
  - cbn [split_on find_char]. destruct (ch a sep) eqn:E.
    + apply ch_true in E. subst. right. exists [], l. split; auto. split; [intros []|]. split; auto.
    + apply ch_false in E. destruct IH as [(F & S & P)|(h & t & -> & F & S & P)].
      * left. split; [intros [->|?]; auto|]. rewrite S. split; auto. intros. rewrite P. simpl. lia.
      * right. exists (a :: h), t. split; auto. split; [intros [->|?]; auto|]. rewrite S. split; auto.
        intros. rewrite P. simpl. lia.
Qed.

Lemma token_loop_ok sep fuel : forall pre rest, List.length rest < fuel ->
  token_loop fuel sep (pre ++ rest) (List.length pre) = Ok (split_on sep rest).
Proof.
  induction fuel as [|f IH]; intros pre rest Hf; [lia|]. cbn [token_loop].
  rewrite app_length. destruct (Nat.ltb_spec (List.length pre + List.length rest) (List.length pre)); [lia|].
  rewrite skipn_app, skipn_all, Nat.sub_diag. cbn [app skipn].
  destruct (split_first sep rest) as [(F & Sp & P)|(h & t & E & F & Sp & P)]; rewrite P, Sp.
  - rewrite Nat.eqb_refl. do 2 f_equal. rewrite firstn_all2; [auto|lia].
  - subst rest. rewrite app_length in *. cbn [List.length] in *.
    destruct (Nat.eqb_spec (List.length pre + List.length h) (List.length pre + (List.length h + S (List.length t)))); [lia|].
    replace (pre ++ h ++ sep :: t) with ((pre ++ h ++ [sep]) ++ t) by (now rewrite <- !app_assoc).
    replace (List.length pre + List.length h + 1) with (List.length (pre ++ h ++ [sep]))
      by (rewrite !app_length; simpl; lia).
    rewrite IH; [|lia]. cbn [bind]. do 2 f_equal.
    replace (List.length pre + List.length h - List.length pre) with (List.length h) by lia.
    rewrite firstn_app, Nat.sub_diag, firstn_all. cbn [firstn]. now rewrite app_nil_r.
Qed.

Lemma get_tokens_split sep line : get_tokens sep line = Ok (split_on sep line).
Proof. unfold get_tokens. apply (@token_loop_ok sep (S (List.length line)) [] line). lia. Qed.

Lemma split_nonempty sep l : split_on sep l <> [].
Proof.
  destruct l; simpl; [discriminate|]. destruct ch; [discriminate|]. destruct split_on; discriminate.
Qed.
Lemma join_split sep l : join sep (split_on sep l) = l.
Proof.
  induction l as [|a l IH]; auto. cbn [split_on]. pose proof (split_nonempty sep l).
  destruct (ch a sep) eqn:E.
  - apply ch_true in E. subst. destruct (split_on sep l) as [|b r] eqn:S; [congruence|].
    cbn [join] in *. now rewrite IH.
  - destruct (split_on sep l) as [|b r] eqn:S; [congruence|]. rewrite <- IH. destruct r; auto.
Qed.
Lemma split_free sep l t : In t (split_on sep l) -> free_of sep t.
Proof.
  revert t. induction l as [|a l IH]; intros t Ht.
  - destruct Ht as [<-|[]]. intros [].
  - cbn [split_on] in Ht. destruct (ch a sep) eqn:E.
    + destruct Ht as [<-|Ht]; auto. intros [].
    + apply ch_false in E. pose proof (split_nonempty sep l). destruct (split_on sep l) as [|b r]; [congruence|].
      destruct Ht as [<-|Ht]; [|apply IH; now right].
      intros [->|Hin]; auto. eapply IH; [now left|exact Hin].
Qed.
Lemma split_app_sep sep h t : free_of sep h -> split_on sep (h ++ sep :: t) = h :: split_on sep t.
Proof.
  induction h as [|a h IH]; intros F; cbn [app split_on].
  - now rewrite (proj2 (ch_true sep sep) eq_refl).
  - rewrite (proj2 (ch_false a sep)); [|intros ->; apply F; now left].
    rewrite IH; auto. intros ?; apply F; now right.
Qed.
Lemma split_no_sep sep h : free_of sep h -> split_on sep h = [h].
Proof.
  induction h as [|a h IH]; intros F; cbn [split_on]; auto.
  rewrite (proj2 (ch_false a sep)); [|intros ->; apply F; now left].
  rewrite IH; auto. intros ?; apply F; now right.
Qed.
Lemma split_join sep ts : ts <> [] -> (forall t, In t ts -> free_of sep t) -> split_on sep (join sep ts) = ts.
Proof.
  induction ts as [|a ts IH]; intros N F; [congruence|]. destruct ts as [|b ts].
  - apply split_no_sep, F. now left.
  - cbn [join]. rewrite split_app_sep; [|apply F; now left]. f_equal. apply IH; [discriminate|].
    intros t Ht. apply F. now right.
Qed.

(** Fields after the first begin with a blank in the files the code writes. *)
Definition blanked (l : list text) : list text :=
  match l with [] => [] | a :: t => a :: map (cons blank) t end.
Lemma commas_join l : l <> [] -> commas l = join comma (blanked l).
Proof.
  induction l as [|a l IH]; intros N; [congruence|]. destruct l as [|b l]; auto.
  change (commas (a :: b :: l)) with (a ++ [comma; blank] ++ commas (b :: l)). rewrite IH; [|discriminate].
  change (join comma (blanked (a :: b :: l))) with (a ++ comma :: join comma (map (cons blank) (b :: l))).
  f_equal. cbn [app]. f_equal. destruct l; reflexivity.
Qed.
Lemma tokens_commas l : l <> [] -> (forall t, In t l -> free_of comma t) ->
  get_tokens comma (commas l) = Ok (blanked l).
Proof.
  intros N F. rewrite get_tokens_split, commas_join; auto. rewrite split_join; auto.
  - destruct l; [congruence|discriminate].
  - destruct l as [|a l]; [congruence|]. intros t [<-|Ht]; [apply F; now left|].
    apply in_map_iff in Ht as (u & <- & Hu). intros [E|E]; [discriminate|]. eapply F; [right; exact Hu|exact E].
Qed.

(** ** lines *)
Lemma lines_step cur s rest : free_of newline s ->
  lines_of cur (s ++ newline :: rest) = (rev cur ++ s) :: lines_of [] rest.
Proof.
  revert cur. induction s as [|a s IH]; intros cur F; cbn [app lines_of].
  - rewrite (proj2 (ch_true newline newline) eq_refl). now rewrite app_nil_r.
  - rewrite (proj2 (ch_false a newline)); [|intros ->; apply F; now left].
    rewrite IH; [|intros ?; apply F; now right]. cbn [rev]. now rewrite <- app_assoc.
Qed.
Lemma getlines_unlines ls : (forall l, In l ls -> free_of newline l) -> getlines (unlines ls) = ls.
Proof.
  unfold getlines, unlines. induction ls as [|l ls IH]; intros F; auto.
  cbn [flat_map]. rewrite <- app_assoc. cbn [app]. rewrite lines_step; [|apply F; now left].
  cbn [rev app]. f_equal. apply IH. intros k Hk. apply F. now right.
Qed.

(** ** words *)
Lemma words_cur s : (forall a, In a s -> is_space a = false) -> forall cur rest,
  words_of cur (s ++ rest) = words_of (rev s ++ cur) rest.
Proof.
  induction s as [|a s IH]; intros F cur rest; auto. cbn [app words_of].
  rewrite (F a (or_introl eq_refl)). rewrite IH; [|intros b Hb; apply F; now right].
  cbn [rev]. now rewrite <- app_assoc.
Qed.
Lemma words_last s : is_word s -> words s = [s].
Proof.
  intros (N & F). unfold words. rewrite <- (app_nil_r s) at 1. rewrite words_cur; auto.
  rewrite app_nil_r. cbn [words_of]. destruct (rev s) eqn:E.
  - apply (f_equal (@rev _)) in E. rewrite rev_involutive in E. simpl in E. congruence.
  - rewrite <- E. now rewrite rev_involutive.
Qed.
Lemma words_cons s rest : is_word s -> words (s ++ blank :: rest) = s :: words rest.
Proof.
  intros (N & F). unfold words. rewrite words_cur; auto. rewrite app_nil_r. cbn [words_of].
  change (is_space blank) with true. cbv iota. destruct (rev s) eqn:E.
  - apply (f_equal (@rev _)) in E. rewrite rev_involutive in E. simpl in E. congruence.
  - rewrite <- E. now rewrite rev_involutive.
Qed.
Lemma words_blank rest : words (blank :: rest) = words rest.
Proof. reflexivity. Qed.

(** ** natural numbers *)
Lemma digit_digit_char d : (d < 10)%N -> digit (digit_char d) = Some d.
Proof.
  intros H. unfold digit, digit_char. rewrite nat_ascii_embedding by lia.
  replace ((48 <=? 48 + N.to_nat d) && (48 + N.to_nat d <=? 57)) with true.
  - f_equal. lia.
  - symmetry. apply andb_true_iff. split; apply Nat.leb_le; lia.
Qed.
Definition digits (l : text) : Prop := forall a, In a l -> exists d, (d < 10)%N /\ a = digit_char d.
Lemma show_digits_digits f : forall n, digits (show_digits f n).
Proof.
  induction f as [|f IH]; intros n a Ha; [destruct Ha|]. cbn [show_digits] in Ha.
  destruct (N.ltb_spec n 10).
  - destruct Ha as [<-|[]]. exists n. auto.
  - apply in_app_or in Ha as [Ha|[<-|[]]]; [eapply IH; eauto|]. exists (n mod 10)%N. split; auto.
    apply N.mod_lt. lia.
Qed.
Lemma show_nat_digits n : digits (show_nat n).
Proof. apply show_digits_digits. Qed.
Lemma read_app l : digits l -> forall acc r, read_digits acc (l ++ r) = read_digits (read_digits acc l) r.
Proof.
  induction l as [|a l IH]; intros D acc r; auto. cbn [app read_digits].
  destruct (D a (or_introl eq_refl)) as (d & Hd & ->). rewrite digit_digit_char; auto.
  apply IH. intros b Hb. apply D. now right.
Qed.
Lemma read_show f : forall n, (n < 2 ^ N.of_nat f)%N -> (0 < f) -> read_digits 0 (show_digits f n) = n.
Proof.
  induction f as [|f IH]; intros n Hn Hf; [lia|]. cbn [show_digits].
  destruct (N.ltb_spec n 10) as [H|H].
  - cbn [read_digits]. rewrite digit_digit_char; auto.
  - rewrite read_app by apply show_digits_digits. destruct f as [|f].
    + change (2 ^ N.of_nat 1)%N with 2%N in Hn. lia.
    + rewrite IH; [| |lia].
      * cbn [read_digits]. rewrite digit_digit_char by (apply N.mod_lt; lia).
        pose proof (N.div_mod n 10). lia.
      * rewrite Nat2N.inj_succ, N.pow_succ_r' in Hn. apply N.div_lt_upper_bound; lia.
Qed.
Lemma read_show_nat n : read_digits 0 (show_nat n) = n.
Proof.
  unfold show_nat. apply read_show; [|lia]. destruct (N.eq_dec n 0) as [->|H]; [reflexivity|].
  rewrite Nat2N.inj_succ, N2Nat.id. apply N.log2_spec. lia.
Qed.
Lemma digit_not_space a d : (d < 10)%N -> a = digit_char d ->
  is_space a = false /\ a <> comma /\ a <> "/"%char /\ a <> newline.
Proof.
  intros Hd ->. assert (E : nat_of_ascii (digit_char d) = 48 + N.to_nat d)
    by (unfold digit_char; rewrite nat_ascii_embedding; lia).
  split; [|split; [|split]].
  - unfold is_space. rewrite E. apply orb_false_iff. split; [apply Nat.eqb_neq; lia|].
    apply andb_false_iff. right. apply Nat.leb_gt. lia.
  - intros C. rewrite C in E. change (nat_of_ascii comma) with 44 in E. lia.
  - intros C. rewrite C in E. change (nat_of_ascii "/"%char) with 47 in E. lia.
  - intros C. rewrite C in E. change (nat_of_ascii newline) with 10 in E. lia.
Qed.
Lemma show_nat_nonempty n : show_nat n <> [].
Proof.
  unfold show_nat. cbn [show_digits]. destruct N.ltb; [discriminate|].
  destruct show_digits; discriminate.
Qed.
Lemma show_nat_word n : is_word (show_nat n) /\ free_of comma (show_nat n) /\ free_of "/"%char (show_nat n).
Proof.
  split; [split; [apply show_nat_nonempty|]|split].
  - intros a Ha. destruct (@show_nat_digits n a Ha) as (d & Hd & E).
    now destruct (@digit_not_space _ d Hd E).
  - intros Ha. destruct (@show_nat_digits n _ Ha) as (d & Hd & E).
    destruct (@digit_not_space _ d Hd E) as (_ & C1 & C2 & _). congruence.
  - intros Ha. destruct (@show_nat_digits n _ Ha) as (d & Hd & E).
    destruct (@digit_not_space _ d Hd E) as (_ & C1 & C2 & _). congruence.
Qed.
Lemma word_no_newline s : is_word s -> free_of newline s.
Proof. intros (_ & F) H. apply F in H. discriminate. Qed.
Lemma skip_word s : is_word s -> skip_spaces s = s.
Proof. intros (N & F). destruct s as [|a s]; [congruence|]. cbn. now rewrite (F a (or_introl eq_refl)). Qed.
Lemma size_t_show n : (n < 2 ^ 64)%N -> string_to_size_t (show_nat n) = n.
Proof.
  intros H. unfold string_to_size_t. rewrite skip_word by apply show_nat_word. rewrite read_show_nat.
  destruct (N.ltb_spec n (2 ^ 64)); [auto|lia].
Qed.
Lemma size_t_blank s : string_to_size_t (blank :: s) = string_to_size_t s.
Proof. reflexivity. Qed.
