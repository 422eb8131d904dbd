(** * Io: model of /repo/uncertainties/io.hpp and of the string functions of
    /repo/uncertainties/impl.hpp

    Simplifications: numbers are real numbers or one of the non-finite values of floating
    point; [log10], [pow], [round], [fmod] are exact; exponents are mathematical integers
    (the code stores them in an int); [errdig] and the logarithm compared with it are real
    numbers (the code uses float).  A std::string is a list of characters. *)

From Coq Require Import List ZArith Bool Reals Ascii String.
From Verif Require Import Base Num.
Import ListNotations.
Local Open Scope R_scope.

Definition str : Type := list ascii.
(** C++ string literal *)
Definition lit (s : string) : str := list_ascii_of_string s.

(** A value of a floating point type. *)
Inductive xreal : Type := Fin (r : R) | PInf | NInf | NotNum.

Definition log10 (x : R) : R := ln x / ln 10.
(** std::floor, as an integer *)
Definition floorZ (x : R) : Z := Int_part x.
(** pow(Real(10), k) *)
Definition p10 (k : Z) : R := powerRZ 10 k.
(** std::round: to nearest, half away from zero *)
Definition round_away (x : R) : R :=
  if Rltb x 0 then - IZR (floorZ (- x + / 2)) else IZR (floorZ (x + / 2)).

(** io.hpp 51-57: [exponent]. *)
Definition exponent (x : R) : Z := floorZ (log10 (Rabs x)).

(** io.hpp 59-64: [int_mantissa]. *)
Definition int_mantissa (x : R) (n e : Z) : R := round_away (x * p10 (n - 1 - e)).

(** std::to_string of an int *)
Definition digit_char (d : Z) : ascii := ascii_of_nat (48 + Z.to_nat d).
Fixpoint nat_digits (fuel : nat) (z : Z) (acc : str) : str :=
  match fuel with
  | O => acc
  | S f => if (z <? 10)%Z then digit_char z :: acc else nat_digits f (z / 10) (digit_char (z mod 10) :: acc)
  end.
Definition to_string (z : Z) : str :=
  if (z <? 0)%Z then lit "-" ++ nat_digits (S (Z.to_nat (Z.log2 (- z)))) (- z) []
  else nat_digits (S (Z.to_nat (Z.log2 z))) z [].

(** io.hpp 66-84: [int_mantissa_string].  The loop is a recursion on [fuel]; it is started
    with more fuel than it can use (this is proved), so that running out of fuel, reported
    as undefined behaviour, does not happen. *)
Fixpoint ims_loop (fuel : nat) (x : R) (s : str) : outcome str :=
  if Rleb 1 x then
    match fuel with
    | O => UB
    | S f =>
        let fd := x - 10 * IZR (floorZ (x / 10)) in
        let d := floorZ fd in
        _ <- assert_ (Rleb (IZR d) fd && Rleb fd (IZR d));;
        ims_loop f (IZR (floorZ (x / 10))) (s ++ to_string d)
    end
  else Ret s.
Definition int_mantissa_string (x : R) : outcome str :=
  s <- ims_loop (Z.to_nat (up (Rabs x))) (Rabs x) [];;
  match s with
  | [] => Ret (lit "0")
  | _ => Ret (rev s)
  end.

(** io.hpp 86-96: [naive_ndigits]. *)
Definition naive_ndigits (x n : R) : Z :=
  let log10x := log10 (Rabs x) in
  let n_int := floorZ n in
  let n_frac := n - IZR n_int in
  let log10x_frac := log10x - IZR (floorZ log10x) in
  (n_int + (if Rltb log10x_frac n_frac then 1 else 0))%Z.

(** io.hpp 98-112: [ndigits]; returns the number of digits and the new value of [*x]. *)
Definition ndigits (x n : R) : Z * R :=
  let ndig := naive_ndigits x n in
  let xexp := exponent x in
  let rounded_x := int_mantissa x ndig xexp * p10 xexp in
  if Rltb x rounded_x then
    let rounded_ndig := naive_ndigits rounded_x n in
    if (ndig <? rounded_ndig)%Z then (rounded_ndig, rounded_x) else (ndig, x)
  else (ndig, x).

(** io.hpp 114-124: [mantissa]; returns the string and the new value of [*e].  The
    comparisons of s.size() (unsigned) with n and n + 1 are equalities of integers: a
    negative n becomes larger than any size. *)
Definition mantissa (x : R) (n e : Z) : outcome (str * Z) :=
  let m := int_mantissa x n e in
  s <- int_mantissa_string m;;
  let size := Z.of_nat (List.length s) in
  _ <- assert_ ((size =? n) || (size =? n + 1) || ((Rleb m 0 && Rleb 0 m) && (n <? 0)))%Z;;
  if ((1 <=? n) && (size =? n + 1))%Z then Ret (removelast s, e + 1)%Z else Ret (s, e).

(** impl.hpp 48-59: [insert_dot]; returns the new value of [*s]. *)
Definition insert_at (k : nat) (t s : str) : str := firstn k s ++ t ++ skipn k s.
Definition insert_dot (s : str) (n e : Z) : str :=
  let e := (e + (Z.of_nat (List.length s) - n))%Z in
  let n := Z.of_nat (List.length s) in
  if (n - 1 <=? e)%Z then s
  else if (0 <=? e)%Z then insert_at (Z.to_nat (1 + e)) (lit ".") s
  else if (e <=? -1)%Z then insert_at 1 (lit ".") (insert_at 0 (repeat "0"%char (Z.to_nat (- e))) s)
  else s.

(** impl.hpp 61-63: [format_exp]. *)
Definition format_exp (e : Z) : str := (if (0 <? e)%Z then lit "+" else lit "-") ++ to_string (Z.abs e).

(** io.hpp 129-147: [tostring]. *)
Definition tostring (x : xreal) : outcome str :=
  match x with
  | NotNum => Ret (lit "nan")
  | PInf => Ret (lit "inf")
  | NInf => Ret (lit "-inf")
  | Fin x =>
      if Rleb x 0 && Rleb 0 x then Ret (lit "0") else
      let n := 6%Z in
      '(m, e) <- mantissa x n (exponent x);;
      let use_exp := ((n <=? e) || (e <? -1))%Z in
      if use_exp then Ret (insert_dot m n 0 ++ lit "e" ++ format_exp e)
      else Ret (insert_dot m n e)
  end.

(** io.hpp 150-189: [format] of a number with nom(x) = mu and sdev(x) = s. *)
Definition format_finite (mu s errdig : R) (sep : str) : outcome str :=
  let '(sndig, s) := ndigits s errdig in
  let sexp := exponent s in
  let muexp := (if Rleb mu 0 && Rleb 0 mu then sexp - sndig - 1 else exponent mu)%Z in
  '(smant, sexp) <- mantissa s sndig sexp;;
  let mundig := (sndig + muexp - sexp)%Z in
  '(mumant, muexp) <- mantissa mu mundig muexp;;
  let musign := if Rltb mu 0 then lit "-" else [] in
  let use_exp := if (sndig <=? mundig)%Z then ((mundig <=? muexp) || (muexp <? -1))%Z
                 else ((sndig <=? sexp) || (sexp <? -1))%Z in
  let base_exp := if (sndig <=? mundig)%Z then muexp else sexp in
  if use_exp then
    Ret (lit "(" ++ musign ++ insert_dot mumant mundig (muexp - base_exp) ++ sep ++
         insert_dot smant sndig (sexp - base_exp) ++ lit ")e" ++ format_exp base_exp)
  else
    Ret (musign ++ insert_dot mumant mundig muexp ++ sep ++ insert_dot smant sndig sexp).
Definition format (mu s : xreal) (errdig : R) (sep : str) : outcome str :=
  if Rleb errdig 1 then Throw InvalidArgument else
  match mu, s with
  | Fin mu', Fin s' =>
      if Rleb s' 0 && Rleb 0 s' then a <- tostring mu;; b <- tostring s;; Ret (a ++ sep ++ b)
      else format_finite mu' s' errdig sep
  | _, _ => a <- tostring mu;; b <- tostring s;; Ret (a ++ sep ++ b)
  end.
