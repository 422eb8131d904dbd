(** * IoIeee: io.hpp with Real = double

    The same functions as in Io.v, computed in floating point: Real is binary64, [errdig] and
    the logarithm compared with it are binary32, as in the code.  The functions log10 and pow
    of <cmath> are parameters ([cmath DN] of Math.v); floor, round and fmod are exact, as IEEE
    754 and the C standard define them.  Converting a NaN, an infinity or a number out of
    range to an int is undefined behaviour.  Simplifications: the arithmetic on ints (numbers of
    digits and exponents) does not overflow; one NaN.  [insert_dot] and [format_exp], which
    do not depend on the numeric type, are those of Io.v. *)

From Coq Require Import List ZArith Bool Reals Ascii String.
From Flocq Require Import Core BinarySingleNaN.
From Verif Require Import Base Num Ieee Math Io.
Import ListNotations.
Local Open Scope Z_scope.

#[global] Instance prec24 : Prec_gt_0 24 := eq_refl.
#[global] Instance emax128 : Prec_lt_emax 24 128 := eq_refl.
(** float *)
Definition single : Type := binary_float 24 128.
Definition fofZ (z : Z) : single := binary_normalize 24 128 prec24 emax128 mode_NE z 0 false.
(** float(x), x double *)
Definition f_of_d (a : double) : single :=
  match a with
  | B754_zero s => B754_zero s
  | B754_infinity s => B754_infinity s
  | B754_nan => B754_nan
  | B754_finite s m e _ => binary_normalize 24 128 prec24 emax128 mode_NE (cond_Zopp s (Zpos m)) e s
  end.

(** int(x): the integer part, if it is in the range of int *)
Definition to_int {p q} (a : binary_float p q) : outcome Z :=
  if is_finite a && ((-2147483648 <=? Btrunc a) && (Btrunc a <=? 2147483647)) then Ret (Btrunc a) else UB.
(** std::floor, std::round *)
Definition dfloor (a : double) : double := Bnearbyint mode_DN a.
Definition dround (a : double) : double := Bnearbyint mode_NA a.
Definition ffloor (a : single) : single := Bnearbyint mode_DN a.
Definition fsub (a b : single) : single := Bminus mode_NE a b.
(** std::fmod(x, 10): exact, with the sign of x *)
Definition dfmod10 (a : double) : double :=
  match a with
  | B754_zero s => B754_zero s
  | B754_infinity _ | B754_nan => B754_nan
  | B754_finite s m e _ =>
      if 0 <=? e then binary_normalize 53 1024 prec53 emax1024 mode_NE (cond_Zopp s (Zpos m * 2 ^ e mod 10)) 0 s
      else binary_normalize 53 1024 prec53 emax1024 mode_NE (cond_Zopp s (Zpos m mod (10 * 2 ^ (- e)))) e s
  end.

Section Lib.
Variable M : cmath DN.

(** pow(Real(10), k), k int *)
Definition dpow10 (k : Z) : double := c_pow M (dofZ 10) (dofZ k).

(** io.hpp 51-57: [exponent]. *)
Definition d_exponent (x : double) : outcome Z := to_int (dfloor (c_log10 M (dabs x))).

(** io.hpp 59-64: [int_mantissa]. *)
Definition d_int_mantissa (x : double) (n e : Z) : double := dround (dmul x (dpow10 (n - 1 - e))).

(** io.hpp 66-84: [int_mantissa_string].  The loop is a recursion on [fuel]; a finite double
    has at most 309 digits. *)
Fixpoint d_ims_loop (fuel : nat) (x : double) (s : str) : outcome str :=
  if Bleb (dofZ 1) x then
    match fuel with
    | O => UB
    | S f =>
        let fd := dfmod10 x in
        d <- to_int fd;;
        _ <- assert_ (Beqb (dofZ d) fd);;
        d_ims_loop f (dfloor (ddiv x (dofZ 10))) (s ++ to_string d)
    end
  else Ret s.
Definition d_int_mantissa_string (x : double) : outcome str :=
  s <- d_ims_loop 400 (dabs x) [];;
  match s with
  | [] => Ret (lit "0")
  | _ => Ret (rev s)
  end.

(** io.hpp 86-96: [naive_ndigits]. *)
Definition d_naive_ndigits (x : double) (n : single) : outcome Z :=
  let log10x := f_of_d (c_log10 M (dabs x)) in
  n_int <- to_int (ffloor n);;
  let n_frac := fsub n (fofZ n_int) in
  let log10x_frac := fsub log10x (ffloor log10x) in
  Ret (n_int + (if Bltb log10x_frac n_frac then 1 else 0)).

(** io.hpp 98-112: [ndigits]; returns the number of digits and the new value of [*x]. *)
Definition d_ndigits (x : double) (n : single) : outcome (Z * double) :=
  ndig <- d_naive_ndigits x n;;
  xexp <- d_exponent x;;
  let rounded_x := dmul (d_int_mantissa x ndig xexp) (dpow10 xexp) in
  if Bltb x rounded_x then
    rounded_ndig <- d_naive_ndigits rounded_x n;;
    if ndig <? rounded_ndig then Ret (rounded_ndig, rounded_x) else Ret (ndig, x)
  else Ret (ndig, x).

(** io.hpp 114-124: [mantissa]; returns the string and the new value of [*e]. *)
Definition d_mantissa (x : double) (n e : Z) : outcome (str * Z) :=
  let m := d_int_mantissa x n e in
  s <- d_int_mantissa_string m;;
  let size := Z.of_nat (List.length s) in
  _ <- assert_ ((size =? n) || (size =? n + 1) || (Beqb m dzero && (n <? 0)));;
  if (1 <=? n) && (size =? n + 1) then Ret (removelast s, e + 1) else Ret (s, e).

(** io.hpp 129-147: [tostring]. *)
Definition d_tostring (x : double) : outcome str :=
  match x with
  | B754_nan => Ret (lit "nan")
  | B754_infinity false => Ret (lit "inf")
  | B754_infinity true => Ret (lit "-inf")
  | _ =>
      if Beqb x dzero then Ret (lit "0") else
      let n := 6 in
      e <- d_exponent x;;
      '(m, e) <- d_mantissa x n e;;
      let use_exp := (n <=? e) || (e <? -1) in
      if use_exp then Ret (insert_dot m n 0 ++ lit "e" ++ format_exp e)
      else Ret (insert_dot m n e)
  end.

(** io.hpp 150-189: [format] of a number with nom(x) = mu and sdev(x) = s. *)
Definition d_format (mu s : double) (errdig : single) (sep : str) : outcome str :=
  if Bleb errdig (fofZ 1) then Throw InvalidArgument else
  if negb (is_finite mu) || negb (is_finite s) || Beqb s dzero then
    a <- d_tostring mu;; b <- d_tostring s;; Ret (a ++ sep ++ b)
  else
  '(sndig, s) <- d_ndigits s errdig;;
  sexp <- d_exponent s;;
  muexp <- (if negb (Beqb mu dzero) then d_exponent mu else Ret (sexp - sndig - 1));;
  '(smant, sexp) <- d_mantissa s sndig sexp;;
  let mundig := sndig + muexp - sexp in
  '(mumant, muexp) <- d_mantissa mu mundig muexp;;
  let musign := if Bltb mu dzero then lit "-" else [] in
  let use_exp := if sndig <=? mundig then (mundig <=? muexp) || (muexp <? -1) else (sndig <=? sexp) || (sexp <? -1) in
  let base_exp := if sndig <=? mundig then muexp else sexp in
  if use_exp then
    Ret (lit "(" ++ musign ++ insert_dot mumant mundig (muexp - base_exp) ++ sep ++
         insert_dot smant sndig (sexp - base_exp) ++ lit ")e" ++ format_exp base_exp)
  else
    Ret (musign ++ insert_dot mumant mundig muexp ++ sep ++ insert_dot smant sndig sexp).
End Lib.
