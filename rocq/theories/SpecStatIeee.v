(** * SpecStatIeee: matrices of covariances of doubles *)

From Coq Require Import List ZArith Reals Bool.
From Verif Require Import Base Num UReal World Ieee SpecIeee SpecIeee2 Sums.
Import ListNotations.
Local Open Scope R_scope.

(** The number in row [i], column [j] of a matrix with [n] columns. *)
Definition entry (n : nat) (V : list double) (i j : nat) : R := real_of (nth (n * i + j) V (dofZ 0)).
(** The quadratic form of the matrix: the variance of the combination with coefficients [a], in
    exact arithmetic. *)
Definition form (n : nat) (V : list double) (a : nat -> R) : R :=
  rsum (seq 0 n) (fun i => rsum (seq 0 n) (fun j => a i * a j * entry n V i j)).
(** The exact standard deviation for the coefficients stored by [x]. *)
Definition exact_dev (x : ureal DN) : R := sqrt (sum_sq (coefs x)).
(** Coefficients that are numbers and not too large. *)
Definition bounded (x : ureal DN) : Prop := List.Forall finite (coefs x) /\ sum_sq (coefs x) <= pow2 1020.
(** An uncertain variable with coefficients which are not too large or too small. *)
Definition regular_dev (x : ureal DN) : Prop := no_underflow (coefs x) /\ 0 < sum_sq (coefs x) <= pow2 1020.
