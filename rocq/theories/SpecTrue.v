(** * SpecTrue: the variable a program computes, without approximation

    For C90.  If the independent variables of a program are random, what the program
    computes is the random variable obtained by running it on their values; its mean,
    standard deviation and covariances are what the library approximates. *)

From Coq Require Import List ZArith Reals.
From Coquelicot Require Import Coquelicot.
From Verif Require Import Base Num SpecProb SpecAD.
Local Open Scope R_scope.

(** The values of the independent variables a part [t] of the way from the means [m] to the
    values [m i + sd i * X i]. *)
Definition part_way (m sd X : env) (t : R) : env := fun i => m i + t * (sd i * X i).

(** On the way from 0 to 1 the derivative of order [k] of [g] exists and does not exceed [B]. *)
Definition bends (k : nat) (g : R -> R) (B : R) : Prop :=
  forall t, 0 <= t <= 1 -> (forall j, (j <= k)%nat -> ex_derive_n g j t) /\ Rabs (Derive_n g k t) <= B.

(** Uncorrelated variables of mean zero and variance one. *)
Definition standardized (P : prob) (last : Z) (X : Z -> Om P -> R) : Prop :=
  forall i, (1 <= i <= last)%Z -> int P (X i) /\ Ex P (X i) = 0 /\
    forall j, (1 <= j <= last)%Z -> int P (fun o => X i o * X j o) /\ Ex P (fun o => X i o * X j o) = if Z.eq_dec i j then 1 else 0.

(** Products of variables with finite variance have an expectation. *)
Definition with_products (P : prob) : Prop :=
  forall f g : Om P -> R, int P f -> int P g -> int P (fun o => f o * f o) -> int P (fun o => g o * g o) -> int P (fun o => f o * g o).
Definition finite_variance (P : prob) (f : Om P -> R) : Prop := int P f /\ int P (fun o => f o * f o).
Definition true_cov (P : prob) (f g : Om P -> R) : R := Ex P (fun o => (f o - Ex P f) * (g o - Ex P g)).
Definition true_sd (P : prob) (f : Om P -> R) : R := sqrt (true_cov P f f).
Definition rms (P : prob) (f : Om P -> R) : R := sqrt (Ex P (fun o => f o * f o)).
