(** * PropsMath: the UReal part of math.hpp (C21, C22)

    Generated from tools/PropsMath.in.  [computes1] and [computes2] are in SpecMath.v. *)

From Coq Require Import List ZArith Bool Reals Lra Lia.
From Coquelicot Require Import Coquelicot.
From Flocq Require Import Core.
From Verif Require Import Base Num Map UReal World SpecObs Nan Math SpecMath MathProofs.
Import ListNotations.
Local Open Scope R_scope.

(** Variables of every mean exist, so every point of every domain below is met. *)
Example math_case : forall a b : R, exists w, reachable w /\
  u_n (w_var w 0%nat) = a /\ u_s (w_var w 0%nat) = 1 /\ u_n (w_var w 1%nat) = b /\ u_s (w_var w 1%nat) = 2.
Proof.
  intros a b. destruct (reach3 a 1 b 2 0) as (w & Hw & E0 & E1 & _); [lra|lra|].
  exists w. rewrite E0, E1. split; [exact Hw|]. cbn. rewrite !Rabs_pos_eq by lra. auto.
Qed.

(** ** C21 *)
@C21_unary_derivatives
(** cbrt; missing: negative means, see the next theorem. *)
@C21_cbrt_partial
@C21_cbrt_negative_refuted

(** ** C22 *)
@C22_binary_derivatives
(** pow with a number as exponent and a negative mean as base *)
@C22_pow_integer_exponent
Example C22_pow_case : exists w, reachable w /\ u_n (w_var w 0%nat) = -3 /\ w_var w 2%nat = u_const (IZR 5).
Proof.
  destruct (reach3 (-3) 1 0 2 5) as (w & Hw & E0 & _ & E2); [lra|lra|]. exists w. rewrite E0, E2. auto.
Qed.
@C22_pow_zero_base_refuted
@C22_atan2_negated_derivatives
@C22_atan2_refuted
