(** Model of get_point_angle, over the reals only (atan and pi are transcendental; the
    code's PI constant is replaced by pi). *)
From Coq Require Import Reals Lra.
From Verif Require Import Base Num.
Local Open Scope R_scope.

(** MeshingGeometricalMethods.cpp:50-65 get_point_angle. *)
Definition point_angle (x y : R) : R :=
  if Rltb (Rabs x) (nlit 1 10) && Rltb (Rabs y) (nlit 1 10) then dbl_max
  else
    let angle := if Rltb (Rabs y) (Rabs x) then atan (Rabs y / Rabs x)
                 else / 2 * PI - atan (Rabs x / Rabs y) in
    if Rltb (- nlit 1 10) x && Rltb (- nlit 1 10) y then angle
    else if Rltb (- nlit 1 10) x then 2 * PI - angle
    else if Rltb (- nlit 1 10) y then PI - angle
    else PI + angle.
