(** * SpecIoIeee: what format prints when the numeric type is double *)

From Coq Require Import List ZArith Reals Ascii String.
From Flocq Require Import Core BinarySingleNaN.
From Verif Require Import Base Num Ieee SpecIeee Math SpecMathIeee Io SpecIo.
Local Open Scope R_scope.

(** A <cmath> whose functions err by at most [e], at most four units roundoff. *)
Definition good_lib (M : cmath DN) (e : R) : Prop := uround <= e <= pow2 (-51) /\ accurate M e.

(** [v] is a multiple of 10^k, as near to [|x|] as possible up to a relative error [h] of [x]. *)
Definition nearly (x : R) (k : Z) (v h : R) : Prop := exists z : Z, v = IZR z * ten k /\ Rabs (v - Rabs x) <= ten k / 2 + h * Rabs x.

(** [|x|] is a power of ten or differs from all of them by more than 4 parts in 10^13: computing
    the logarithm does not put [x] in the wrong decade. *)
Definition margin : R := 4 * ten (-13).
Definition clear (x : R) : Prop := forall k, Rabs x = ten k \/ margin * ten k < Rabs (Rabs x - ten k).
(** Rounding [x] to a multiple of 10^k does not reach a power of ten, and it is not one. *)
Definition far (x : R) (k : Z) : Prop := forall j, Rabs x < ten j - 6 / 10 * ten k \/ ten j * (1 + margin) < Rabs x.

(** The numbers of digits considered: below two, or two, or three. *)
Definition few_digits (errdig : binary_float 24 128) : Prop :=
  is_finite errdig = true /\ (1 < B2R errdig < 2 \/ B2R errdig = 2 \/ B2R errdig = 3).
(** The deviation is not near the ends of the range of double, and the mean is not so much larger
    that its digits exceed the precision of double. *)
Definition printable (mu s : R) : Prop :=
  ten (-300) <= s <= ten 300 /\ (Rabs mu <= ten 9 * s \/ (clear mu /\ Rabs mu <= ten 10 * s)).

(** The number of digits [n] chosen for a deviation [s], when its mantissa is not within 10^-4 (of
    its logarithm) of the boundary set by the fractional part of [errdig], nor near the number
    where rounding reaches the next power of ten. *)
Definition chosen_digits (s errdig : R) (n : Z) : Prop :=
  forall i f x, int_frac errdig i f -> decade s x ->
    (s <= ten x * Rpower 10 (f - ten (-4)) -> n = (i + 1)%Z) /\
    (ten x * Rpower 10 (f + ten (-4)) <= s <= 94 / 10 * ten x -> n = i) /\
    (0 < f -> 96 / 10 * ten x <= s -> x <> (-1)%Z -> n = (i + 1)%Z).

(** The text of a number printed without uncertainty: nan, inf, -inf or 0; or the absolute value with
    six significant digits. *)
Definition value_text (h : R) (x : double) (out : str) : Prop :=
  match x with
  | B754_nan => out = lit "nan"
  | B754_infinity b => out = if b then lit "-inf" else lit "inf"
  | B754_zero _ => out = lit "0"
  | B754_finite _ _ _ _ => exists Mt e v p, plain out Mt e /\ numeral Mt v p /\ digits v p 6 /\ nearly (real_of x) (e - Z.of_nat p) (v * ten e) h
  end.

(** A <cmath> whose log10 and powers of ten are rounded correctly. *)
Definition best_lib (M : cmath DN) : Prop :=
  accurate M uround /\
  (forall a, finite a -> 0 < real_of a -> real_of (c_log10 M a) = nearest (log10 (real_of a))) /\
  (forall k, (-307 <= k <= 307)%Z -> real_of (c_pow M (dofZ 10) (dofZ k)) = nearest (ten k)).
