(** * SpecLDLTIeee: a pivoted LDL^T decomposition computed with doubles

    [LDLT] on doubles: P A P^T is L D L^T only up to an error, which is a parameter. *)

From Coq Require Import List Reals.
From Verif Require Import Base Num UReals Sums SpecLDLT Ieee SpecIeee SpecMathIeee.
Import ListNotations.
Local Open Scope R_scope.

(** The exact entry (i, j) of L D L^T. *)
Definition lower (d : ldlt DN) (i k : nat) : R := unit_lower (fun i k => real_of (ld_L d i k)) i k.
Definition product (n : nat) (d : ldlt DN) (i j : nat) : R :=
  rsum (seq 0 n) (fun k => lower d i k * real_of (ld_D d k) * lower d j k).

(** [d] is a decomposition of [A] with nonnegative [D], with error [delta i j] in entry (i, j);
    the numbers L(i, k) sqrt(D(k)) neither overflow nor underflow. *)
Definition decomposes_up_to (n : nat) (A delta : nat -> nat -> R) (d : ldlt DN) : Prop :=
  (forall k, (k < n)%nat -> (ld_T d k < n)%nat) /\
  (forall k, (k < n)%nat -> finite (ld_D d k) /\ 0 <= real_of (ld_D d k)) /\
  (forall i k, (k < i < n)%nat -> finite (ld_L d i k) /\ regular (real_of (ld_L d i k) * sqrt (real_of (ld_D d k)))) /\
  (forall i, (i < n)%nat -> product n d i i <= pow2 1000) /\
  (forall i j, (i < n)%nat -> (j < n)%nat ->
     Rabs (A (row_of (ld_T d) n i) (row_of (ld_T d) n j) - product n d i j)
     <= delta (row_of (ld_T d) n i) (row_of (ld_T d) n j)).
