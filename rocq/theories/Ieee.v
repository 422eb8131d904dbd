(** * Ieee: the numeric type double

    The template parameter [Real] instantiated with IEEE 754 binary64 numbers, as
    formalised by Flocq, rounding to nearest with ties to even.  Simplifications: there is one
    NaN; no extended precision and no contraction of a * b + c into one rounding; sqrt is
    correctly rounded, as IEEE 754 requires. *)

From Coq Require Import ZArith Reals.
From Flocq Require Import Core BinarySingleNaN.
From Verif Require Import Base Num.

#[global] Instance prec53 : Prec_gt_0 53 := eq_refl.
#[global] Instance emax1024 : Prec_lt_emax 53 1024 := eq_refl.

Definition double : Type := binary_float 53 1024.
Definition dadd (a b : double) : double := Bplus mode_NE a b.
Definition dsub (a b : double) : double := Bminus mode_NE a b.
Definition dmul (a b : double) : double := Bmult mode_NE a b.
Definition ddiv (a b : double) : double := Bdiv mode_NE a b.
Definition dopp (a : double) : double := Bopp a.
Definition dabs (a : double) : double := Babs a.
Definition dsqrt (a : double) : double := Bsqrt mode_NE a.
(** conversion from an int (exact up to 2^53) *)
Definition dofZ (z : Z) : double := binary_normalize 53 1024 prec53 emax1024 mode_NE z 0 false.
Definition dzero : double := B754_zero false.

Definition DN : Num := {|
  T := double; n0 := dzero; n1 := dofZ 1;
  nadd := dadd; nsub := dsub; nmul := dmul; ndiv := ddiv; nopp := dopp;
  nltb := Bltb; nleb := Bleb; neqb := Beqb;
  nabs := dabs; nsqrt := dsqrt; nofZ := dofZ |}.
