(** * SpecAcc6: moments about the mean from moments about zero (C84) *)

From Coq Require Import List ZArith Bool Reals.
From Flocq Require Import Core BinarySingleNaN.
From Verif Require Import Base Num Ieee SpecIeee SpecAcc2 SpecAcc5.
Import ListNotations.
Local Open Scope R_scope.

(** Binomial coefficients. *)
Fixpoint pascal (n k : nat) : Z :=
  match n, k with
  | _, O => 1
  | O, S _ => 0
  | S n', S k' => pascal n' k' + pascal n' k
  end.
(** The moment of order [n] about the mean, from those about zero, [z 0 = 1], ..., [z n]. *)
Definition central (z : nat -> R) (n : nat) : R :=
  fold_right Rplus 0 (map (fun k => IZR (pascal n k) * z k * (- z 1%nat) ^ (n - k)) (seq 0 (S n))).

(** Size of the terms, [eta] for each product that can underflow.  The terms 0 and 1 are both
    multiples of the power [n] of the mean. *)
Fixpoint size_power (eta m : R) (n : nat) : R :=
  match n with
  | O => 1
  | S n' => times eta (size_power eta m n') m
  end.
Definition size_central (eta : R) (z : nat -> R) (n : nat) : R :=
  let m := Rabs (z 1%nat) in
  times eta (IZR (Z.of_nat n - 1)) (size_power eta m n) +
  fold_right Rplus 0 (map (fun k => times eta (times eta (IZR (pascal n k)) (Rabs (z k))) (size_power eta m (n - k))) (seq 2 (n - 2))) +
  Rabs (z n).
