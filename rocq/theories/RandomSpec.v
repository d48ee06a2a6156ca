(** Specification of the random stream, independent of RandomSampler.v:
    an add-with-carry generator of lags 1220 and 30 in base 2^53, minus a
    subtract-with-borrow generator of lag 2. *)
From Verif Require Import Base.
Local Open Scope Z_scope.

Definition base : Z := 9007199254740992. (* 2^53 *)

(** Subtract with borrow: state (z_{k-1}, z_k, borrow). *)
Definition swb_step (s : Z * Z * Z) : Z * Z * Z :=
  let '(a, b, w) := s in
  (b, (a - b - w) mod base, if a - b - w <? 0 then 1 else 0).

Fixpoint swb (k : nat) (s : Z * Z * Z) : Z * Z * Z :=
  match k with O => s | S m => swb_step (swb m s) end.

(** Add with carry over the whole history [h] (oldest first):
    next = h[n-30] + complement of h[n-1220] + carry. *)
Definition awc_step (s : list Z * Z) : list Z * Z :=
  let '(h, w) := s in
  let n := length h in
  let v := nth (n - 30) h 0 + (base - 1 - nth (n - 1220) h 0) + w in
  (h ++ [v mod base], v / base).

Fixpoint awc (k : nat) (s : list Z * Z) : list Z * Z :=
  match k with O => s | S m => awc_step (awc m s) end.

(** The k-th random number (k = 0, 1, ...) is spec_draw k / 2^53. *)
Definition spec_draw (words : list Z) (zx zy : Z) (k : nat) : Z :=
  let h := fst (awc (S k) (words, 0)) in
  let '(_, z, _) := swb (S k) (zx, zy, 0) in
  (nth (1220 + k) h 0 - z) mod base.

(** ** Seeding *)
Fixpoint iterate {A} (f : A -> A) (n : nat) (a : A) : A :=
  match n with O => a | S m => iterate f m (f a) end.

(** Two 64-bit generators: x -> 69069 x + 123, and xorshift (13, 17, 5). *)
Definition spec_lcg (x : Z) : Z := (69069 * x + 123) mod 2 ^ 64.
Definition spec_xorshift (y : Z) : Z :=
  let y1 := Z.lxor y (Z.shiftl y 13 mod 2 ^ 64) in
  let y2 := Z.lxor y1 (Z.shiftr y1 17) in
  Z.lxor y2 (Z.shiftl y2 5 mod 2 ^ 64).

(** Word i has as its 52 leading fraction bits the bits number 23 of the sums
    of the two generators. *)
Definition spec_bit (x y : Z) (k : nat) : Z :=
  Z.b2z (Z.testbit (iterate spec_lcg (S k) x + iterate spec_xorshift (S k) y) 23).

(** bits k .. k+n-1 as a binary fraction starting at weight 2^w (n <= w+1) *)
Fixpoint spec_word (x y : Z) (k n : nat) (w : Z) : Z :=
  match n with O => 0 | S m => spec_bit x y k * 2 ^ w + spec_word x y (S k) m (w - 1) end.

Definition seed_of (seed : Z) : Z :=
  if seed mod 2 ^ 64 =? 0 then 123456789 else seed mod 2 ^ 64.
Definition spec_words (seed : Z) : list Z :=
  map (fun i => spec_word (seed_of seed) 362436069 (52 * i) 52 52) (seq 0 1220).
