(** * SpecIo: decimal numerals and rounding *)

From Coq Require Import List ZArith Bool Reals Ascii String.
From Verif Require Import Base Num Io.
Import ListNotations.
Local Open Scope R_scope.

(** Decimal digits, and the natural number written by a sequence of digits. *)
Definition is_digit (c : ascii) : Prop := (48 <= nat_of_ascii c <= 57)%nat.
Definition digit_val (c : ascii) : Z := Z.of_nat (nat_of_ascii c) - 48.
Definition decimal (s : str) : Z := fold_left (fun v c => 10 * v + digit_val c)%Z s 0%Z.

(** [s] is a numeral with [places] digits after the dot (and no dot if there are none),
    denoting [v]. *)
Definition numeral (s : str) (v : R) (places : nat) : Prop :=
  exists I F, I <> [] /\ List.Forall is_digit I /\ List.Forall is_digit F /\ List.length F = places /\
    s = I ++ (match F with [] => [] | _ => "."%char :: F end) /\
    v = IZR (decimal (I ++ F)) / 10 ^ places.

(** [x] denotes the nonzero integer [e], written with its sign. *)
Definition exponent_text (x : str) (e : Z) : Prop :=
  exists c D, x = c :: D /\ D <> [] /\ List.Forall is_digit D /\
    ((0 < e)%Z /\ c = "+"%char /\ decimal D = e \/ (e < 0)%Z /\ c = "-"%char /\ decimal D = (- e)%Z).

(** The text made of the numerals [M] and [S], the mean with a minus sign if [neg], and the
    common power of ten [e]. *)
Definition layout (out sep : str) (neg : bool) (M S : str) (e : Z) : Prop :=
  let sign := if neg then ["-"%char] else [] in
  (e = 0%Z /\ out = sign ++ M ++ sep ++ S) \/
  (exists x, exponent_text x e /\ out = ["("%char] ++ sign ++ M ++ sep ++ S ++ [")"%char; "e"%char] ++ x).

(** Powers of ten. *)
Definition ten (k : Z) : R := powerRZ 10 k.

(** [v] is [|x|] rounded to a multiple of 10^k, halves away from zero. *)
Definition rounded (x : R) (k : Z) (v : R) : Prop :=
  exists z : Z, v = IZR z * ten k /\ IZR z - / 2 <= Rabs x / ten k < IZR z + / 2.

(** [x] lies in the decade that starts at 10^e. *)
Definition decade (x : R) (e : Z) : Prop := ten e <= Rabs x < ten (e + 1).

(** Rounding [x] to a multiple of 10^k does not reach the next power of ten. *)
Definition no_carry (x : R) (k : Z) : Prop := forall e, decade x e -> Rabs x + ten k / 2 < ten (e + 1).

(** The number of significant digits asked for by [errdig], for a deviation [s]: the lower
    integer, or the upper one if the mantissa of [s] is less than 10^(fractional part), also
    if it becomes so (that is, 1) by rounding. *)
Definition int_frac (errdig : R) (i : Z) (f : R) : Prop := errdig = IZR i + f /\ 0 <= f < 1.
Definition wanted_digits (s errdig : R) (n : Z) : Prop :=
  exists i f e, int_frac errdig i f /\ decade s e /\
    let small := Rabs s / ten e < Rpower 10 f \/ (0 < f /\ ten (e + 1) <= Rabs s + ten (e - i + 1) / 2) in
    (small -> n = (i + 1)%Z) /\ (~ small -> n = i).

(** The integer made of all the digits of a numeral has [n] digits. *)
Definition digits (v : R) (places : nat) (n : Z) : Prop := ten (n - 1) <= v * 10 ^ places < ten n.

(** Rounding the mantissa of [s] to the lower number of digits does not bring it across
    10^(fractional part), nor to the next power of ten. *)
Definition steady (s errdig : R) : Prop :=
  exists i f e, int_frac errdig i f /\ decade s e /\
    (Rabs s / ten e < Rpower 10 f \/ exists v, rounded s (e - i + 1) v /\ Rpower 10 f <= v / ten e < 10).

(** The numbers of digits for which the deviation is printed correctly: below two, integer,
    or such that the rounding of the deviation does not change the choice. *)
Definition covered (s errdig : R) : Prop := 1 < errdig /\ (errdig < 2 \/ (exists i, errdig = IZR i) \/ steady s errdig).

(** A text without uncertainty: a numeral, with an exponent if [e] is not zero. *)
Definition plain (out M : str) (e : Z) : Prop :=
  (e = 0%Z /\ out = M) \/ exists x, exponent_text x e /\ out = M ++ ["e"%char] ++ x.
(** [out] denotes |x| rounded to six significant digits. *)
Definition six_digits (out : str) (x : R) : Prop :=
  exists M e v p, plain out M e /\ numeral M v p /\ digits v p 6 /\ rounded x (e - Z.of_nat p) (v * ten e).
