(** Model of MeshingRandomSampler.cpp. *)
From Verif Require Import Base MemoryHandler.
Local Open Scope Z_scope.

(** Arithmetic used by the generator.  The same program text is run over the
    integers scaled by 2^53 (exact arithmetic), over the reals with an arbitrary
    binary64 rounding after every operation, and (for examples) over anything
    else that provides these operations. *)
Record fops (F : Type) := {
  f_add : F -> F -> F;
  f_sub : F -> F -> F;
  f_half : F -> F;              (* 0.5 * t *)
  f_ltb : F -> F -> bool;
  f_zero : F;
  f_one : F;
  f_cc : F;                     (* 1.0 / 9007199254740992.0 *)
  f_zx0 : F;                    (* 5212886298506819.0 / 9007199254740992.0 *)
  f_zy0 : F                     (* 2020898595989513.0 / 9007199254740992.0 *)
}.

(** [unsigned long] (64 bits on the supported platforms). *)
Definition w64 : Z := 2 ^ 64.

Section Generator.
  Context {F : Type} (ops : fops F).

  (** The members of MeshingRandomSampler (MeshingRandomSampler.h). *)
  Record rng := Rng {
    rQ : list F; rc : F; rzc : F; rzx : F; rzy : F; rindx : nat }.

  (** MeshingRandomSampler.cpp:104-107: one step of the congruential and the
      xorshift generator on [unsigned long]. *)
  Definition lcg (x : Z) : Z := (69069 * x + 123) mod w64.
  Definition xorshift (y : Z) : Z :=
    let y1 := Z.lxor y (Z.shiftl y 13 mod w64) in
    let y2 := Z.lxor y1 (Z.shiftr y1 17) in
    Z.lxor y2 (Z.shiftl y2 5 mod w64).

  (** MeshingRandomSampler.cpp:101-109, the j loop (n iterations left). *)
  Fixpoint seed_bits (n : nat) (x y : Z) (s t : F) : F * Z * Z :=
    match n with
    | O => (s, x, y)
    | S m =>
      let t1 := f_half ops t in
      let x1 := lcg x in
      let y1 := xorshift y in
      let s1 := if Z.odd (Z.shiftr ((x1 + y1) mod w64) 23) then f_add ops s t1 else s in
      seed_bits m x1 y1 s1 t1
    end.

  (** MeshingRandomSampler.cpp:97-111, the i loop: the list Q[0..n-1]. *)
  Fixpoint seed_words (n : nat) (x y : Z) : list F :=
    match n with
    | O => []
    | S m => let '(s, x1, y1) := seed_bits 52 x y (f_zero ops) (f_one ops) in
             s :: seed_words m x1 y1
    end.

  (** MeshingRandomSampler.cpp:77-114 initiate_random_number_generator. *)
  Definition initiate (seed : Z) : rng :=
    let x := seed mod w64 in
    let x := if x =? 0 then 123456789 else x in
    let y := 362436069 in
    Rng (seed_words 1220 x y) (f_zero ops) (f_zero ops) (f_zx0 ops) (f_zy0 ops) 1220.

  (** MeshingRandomSampler.cpp:140-155, body of the refill loop. *)
  Definition refill_body (i : nat) (st : list F * F) : res (list F * F) :=
    let '(Q, c) := st in
    let j := if (i <? 30)%nat then (i + 1190)%nat else (i - 30)%nat in
    qj <- get Q j ;;
    qi <- get Q i ;;
    let t := f_add ops (f_sub ops qj qi) c in
    let '(t1, c1) :=
      if f_ltb ops (f_zero ops) t then (f_sub ops t (f_cc ops), f_cc ops)
      else (f_add ops (f_sub ops t (f_cc ops)) (f_one ops), f_zero ops) in
    Q1 <- set Q i t1 ;;
    Ok (Q1, c1).

  (** MeshingRandomSampler.cpp:116-163 generate_uniform_random_number. *)
  Definition generate (g : rng) : res (F * rng) :=
    let t := f_sub ops (f_sub ops (rzx g) (rzy g)) (rzc g) in
    let zx := rzy g in
    let '(zy, zc) :=
      if f_ltb ops t (f_zero ops) then (f_add ops t (f_one ops), f_cc ops) else (t, f_zero ops) in
    '(t, Q, c, indx) <-
      (if (rindx g <? 1220)%nat then
         t <- get (rQ g) (rindx g) ;; Ok (t, rQ g, rc g, (rindx g + 1)%nat)
       else
         '(Q, c) <- for_res 1220 0 refill_body (rQ g, rc g) ;;
         t <- get Q 0 ;; Ok (t, Q, c, 1%nat)) ;;
    let u := if f_ltb ops t zy then f_add ops (f_one ops) (f_sub ops t zy) else f_sub ops t zy in
    Ok (u, Rng Q c zc zx zy indx).

  (** [n] consecutive calls. *)
  Fixpoint draws (n : nat) (g : rng) : res (list F * rng) :=
    match n with
    | O => Ok ([], g)
    | S m => '(u, g1) <- generate g ;; '(us, g2) <- draws m g1 ;; Ok (u :: us, g2)
    end.
End Generator.
Arguments rng : clear implicits.
Arguments Rng {F}.

(** The exact instance: the integer n stands for the double n / 2^53. *)
Definition M53 : Z := 2 ^ 53.
Definition zops : fops Z := {|
  f_add := Z.add; f_sub := Z.sub; f_half := fun t => t / 2; f_ltb := Z.ltb;
  f_zero := 0; f_one := M53; f_cc := 1;
  f_zx0 := 5212886298506819; f_zy0 := 2020898595989513 |}.

(** MeshingRandomSampler.cpp:42-60, seed chosen by the default constructor for
    the [n]-th sampler created in the process ([now] = time(0) or the fixed seed);
    [numOfRandomSamplers > 0.001 * seed] is a comparison of doubles, exact for the
    magnitudes that occur and modelled as 1000 * n > seed. *)
Definition default_seed (now n : Z) : Z :=
  if 1000 * n >? now then now + n else now / n.
(** MeshingRandomSampler.cpp:62-70, seed of the sampler of a thread. *)
Definition thread_seed (now thread_id : Z) : Z := now / (thread_id + 1).
