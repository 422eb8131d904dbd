(** * PropsMath2: the UReal2 part of math.hpp (C23)

    Generated from tools/PropsMath2.in.  [computes1_2nd] and [computes2_2nd] are in
    SpecMath2.v. *)

From Coq Require Import List ZArith Bool Reals Lra Lia.
From Coquelicot Require Import Coquelicot.
From Flocq Require Import Core.
From Verif Require Import Base Num Map UReal World HessGrad UReal2 World2 SpecU2 SpecU2Run Nan Math Math2 SpecMath2 Demo2 Math2Proofs.
Import ListNotations.
Local Open Scope R_scope.

(** Variables of every mean exist, so every point of every domain below is met. *)
Example math2_case : forall a b : R, exists w, reachable2 no_eig w /\
  u2_first_order_n (w2_var w 0%nat) = a /\ j_g (jet_of (w2_var w 0%nat)) 1%Z = 1 /\
  u2_first_order_n (w2_var w 1%nat) = b /\ j_g (jet_of (w2_var w 1%nat)) 2%Z = 2 /\
  single (jet_of (w2_var w 0%nat)) /\ single (jet_of (w2_var w 1%nat)).
Proof.
  intros a b. destruct (reach2_3 a 1 b 2 0) as (w & Hw & E0 & E1 & _); [lra|lra|].
  exists w. rewrite E0, E1. split; [exact Hw|]. do 4 (split; [reflexivity|]).
  split; intros i j; cbn; intuition congruence.
Qed.

(** ** C23 *)
@C23_unary_functions
(** the real cube root is twice differentiable except in zero *)
@C23_cbrt
@C23_binary_functions
@C23_atan2
(** pow with a number as exponent and a negative mean as base *)
@C23_pow_integer_exponent
Example C23_pow_case : exists w, reachable2 no_eig w /\ u2_first_order_n (w2_var w 0%nat) = -3 /\
  w2_var w 2%nat = u2_const (IZR 5).
Proof.
  destruct (reach2_3 (-3) 1 0 2 5) as (w & Hw & E0 & _ & E2); [lra|lra|]. exists w. rewrite E0, E2. auto.
Qed.
@C23_pow_zero_base_refuted
