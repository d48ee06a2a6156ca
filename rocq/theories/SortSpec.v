(** Specification vocabulary for sorting: independent of the model. *)
From Verif Require Import Base.

(** The entries of [l] with positions in [lo..hi] are in nondecreasing order. *)
Definition sorted_range {K} (ltb : K -> K -> bool) (l : list K) (lo hi : nat) : Prop :=
  forall a b ka kb, lo <= a -> a < b -> b <= hi ->
    nth_error l a = Some ka -> nth_error l b = Some kb -> ltb kb ka = false.

(** [l'] agrees with [l] outside [lo..hi]. *)
Definition same_outside {A} (l l' : list A) (lo hi : nat) : Prop :=
  forall k, k < lo \/ hi < k -> nth_error l' k = nth_error l k.
