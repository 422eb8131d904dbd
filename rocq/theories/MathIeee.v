(** * MathIeee: isfinite and isnormal of UReal<double>

    Model of /repo/uncertainties/math.hpp 232-247, on doubles. *)

From Coq Require Import ZArith Bool.
From Flocq Require Import Core BinarySingleNaN.
From Verif Require Import Base Num UReal Ieee.

(** std::isfinite *)
Definition d_isfinite (a : double) : bool :=
  match a with B754_zero _ | B754_finite _ _ _ _ => true | B754_infinity _ | B754_nan => false end.
(** std::isnormal: neither zero, subnormal, infinite nor NaN; the mantissa of a normal
    number has all its 53 bits. *)
Definition d_isnormal (a : double) : bool :=
  match a with B754_finite _ m _ _ => (2 ^ 52 <=? Zpos m)%Z | _ => false end.

(** math.hpp 235-239: [isfinite(const UReal<Real> &)]; [x.s()] is the const version. *)
Definition u_isfinite (x : ureal DN) : bool := d_isfinite (u_n x) && d_isfinite (u_s x).
(** math.hpp 243-247: [isnormal(const UReal<Real> &)]. *)
Definition u_isnormal (x : ureal DN) : bool := d_isnormal (u_n x) && d_isnormal (u_s x).
