(** Arithmetic of [double] as a structure of operations.  Models are written
    once over [Num F]; theorems about geometry use the exact instance [RNum];
    executable examples and refutations use the binary64 instance [FNum]
    (Coq's primitive floats, IEEE-754 round-to-nearest-even as in the C++). *)
From Verif Require Import Base.
From Coq Require Import Reals Lra.
From Coq Require PrimFloat Uint63 FloatOps SpecFloat.

Class Num (F : Type) := {
  nadd : F -> F -> F;
  nsub : F -> F -> F;
  nmul : F -> F -> F;
  ndiv : F -> F -> F;
  nopp : F -> F;
  nsqrt : F -> F;
  nabs : F -> F;
  nltb : F -> F -> bool;      (* x < y *)
  nleb : F -> F -> bool;      (* x <= y *)
  neqb : F -> F -> bool;      (* x == y *)
  nofZ : Z -> F;
  ntrunc : F -> Z             (* size_t(x) for x >= 0 *)
}.

Declare Scope num_scope.
Delimit Scope num_scope with num.
Infix "+" := nadd : num_scope.
Infix "-" := nsub : num_scope.
Infix "*" := nmul : num_scope.
Infix "/" := ndiv : num_scope.
Notation "- x" := (nopp x) : num_scope.
Infix "<?" := nltb : num_scope.
Infix "<=?" := nleb : num_scope.
Infix "=?" := neqb : num_scope.
Notation "x >? y" := (nltb y x) (only parsing) : num_scope.
Notation "x >=? y" := (nleb y x) (only parsing) : num_scope.

Definition n0 {F} `{Num F} : F := nofZ 0.
Definition n1 {F} `{Num F} : F := nofZ 1.
Definition n2 {F} `{Num F} : F := nofZ 2.
(** Decimal literal m * 10^(-k), as the C++ literal m E-k. *)
Definition nlit {F} `{Num F} (m : Z) (k : Z) : F := ndiv (nofZ m) (nofZ (10 ^ k)).
(** fmin / fmax on non-NaN values. *)
Definition nmin {F} `{Num F} (x y : F) : F := if nltb y x then y else x.
Definition nmax {F} `{Num F} (x y : F) : F := if nltb x y then y else x.
(** MeshingCommon.h: DBL_MAX. *)
Definition dbl_max {F} `{Num F} : F := nofZ (2 ^ 1024 - 2 ^ 971).

(** Exact arithmetic. *)
Definition Rltb (x y : R) : bool := if Rlt_dec x y then true else false.
Definition Rleb (x y : R) : bool := if Rle_dec x y then true else false.
Definition Reqb (x y : R) : bool := if Req_EM_T x y then true else false.

#[export] Instance RNum : Num R := {|
  nadd := Rplus; nsub := Rminus; nmul := Rmult; ndiv := Rdiv; nopp := Ropp;
  nsqrt := sqrt; nabs := Rabs; nltb := Rltb; nleb := Rleb; neqb := Reqb;
  nofZ := IZR; ntrunc := Int_part |}.

(** IEEE binary64. *)
Module FloatInst.
  Import PrimFloat.
  Definition of_Z (z : Z) : float :=
    (* exact for |z| < 2^62; larger powers are built by scaling *)
    match z with
    | Z0 => zero
    | Zpos p =>
      if (Zpos p <? 4611686018427387904)%Z then of_uint63 (Uint63.of_Z (Zpos p))
      else FloatOps.SF2Prim (SpecFloat.binary_normalize 53 1024 (Zpos p) 0 false)
    | Zneg p =>
      if (Zpos p <? 4611686018427387904)%Z then opp (of_uint63 (Uint63.of_Z (Zpos p)))
      else FloatOps.SF2Prim (SpecFloat.binary_normalize 53 1024 (Zneg p) 0 true)
    end.
  Definition trunc (x : float) : Z :=
    match FloatOps.Prim2SF x with
    | SpecFloat.S754_finite s m e =>
      let v := if (0 <=? e)%Z then (Zpos m * 2 ^ e)%Z else (Zpos m / 2 ^ (- e))%Z in
      if s then (- v)%Z else v
    | _ => 0%Z
    end.
End FloatInst.

#[export] Instance FNum : Num PrimFloat.float := {|
  nadd := PrimFloat.add; nsub := PrimFloat.sub; nmul := PrimFloat.mul;
  ndiv := PrimFloat.div; nopp := PrimFloat.opp; nsqrt := PrimFloat.sqrt;
  nabs := PrimFloat.abs; nltb := PrimFloat.ltb; nleb := PrimFloat.leb;
  neqb := PrimFloat.eqb; nofZ := FloatInst.of_Z; ntrunc := FloatInst.trunc |}.

(* ------------------------------------------------------------------ *)
(** Facts about the exact instance. *)
Lemma Rltb_true x y : Rltb x y = true <-> (x < y)%R.
Proof. unfold Rltb. destruct (Rlt_dec x y); split; intros; try discriminate; auto; contradiction. Qed.
Lemma Rltb_false x y : Rltb x y = false <-> (y <= x)%R.
Proof.
  unfold Rltb. destruct (Rlt_dec x y); split; intros; try discriminate; auto; lra.
Qed.
Lemma Rleb_true x y : Rleb x y = true <-> (x <= y)%R.
Proof. unfold Rleb. destruct (Rle_dec x y); split; intros; try discriminate; auto; contradiction. Qed.
Lemma Rleb_false x y : Rleb x y = false <-> (y < x)%R.
Proof. unfold Rleb. destruct (Rle_dec x y); split; intros; try discriminate; auto; lra. Qed.
Lemma Reqb_true x y : Reqb x y = true <-> x = y.
Proof. unfold Reqb. destruct (Req_EM_T x y); split; intros; try discriminate; auto; contradiction. Qed.
Lemma Reqb_false x y : Reqb x y = false <-> x <> y.
Proof. unfold Reqb. destruct (Req_EM_T x y); split; intros; try discriminate; auto; contradiction. Qed.

Lemma Rltb_sw : strict_weak Rltb.
Proof.
  split; intros.
  - apply Rltb_false. lra.
  - rewrite Rltb_true in *. lra.
  - rewrite Rltb_false in *. lra.
Qed.

Lemma nmin_R (x y : R) : nmin x y = Rmin x y.
Proof.
  unfold nmin. cbn. unfold Rltb, Rmin. destruct (Rlt_dec y x), (Rle_dec x y); lra.
Qed.
Lemma nmax_R (x y : R) : nmax x y = Rmax x y.
Proof.
  unfold nmax. cbn. unfold Rltb, Rmax. destruct (Rlt_dec x y), (Rle_dec x y); lra.
Qed.

(** Case split on a real comparison, turning it into an inequality. *)
Ltac rcase :=
  match goal with
  | |- context [Rltb ?a ?b] => let E := fresh "E" in destruct (Rltb a b) eqn:E;
      [apply Rltb_true in E | apply Rltb_false in E]
  | |- context [Rleb ?a ?b] => let E := fresh "E" in destruct (Rleb a b) eqn:E;
      [apply Rleb_true in E | apply Rleb_false in E]
  | |- context [Reqb ?a ?b] => let E := fresh "E" in destruct (Reqb a b) eqn:E;
      [apply Reqb_true in E | apply Reqb_false in E]
  end.
Tactic Notation "rbool" "in" hyp(H) :=
  first [ apply Rltb_true in H | apply Rltb_false in H | apply Rleb_true in H
        | apply Rleb_false in H | apply Reqb_true in H | apply Reqb_false in H ].
