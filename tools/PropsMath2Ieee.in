(** * PropsMath2Ieee: math.hpp and the operators on UReal2<double> (C78)

    Generated from tools/PropsMath2Ieee.in.  [accurate1_2nd] and [accurate2_2nd] are in SpecMath2Ieee.v; [accurate], in
    SpecMathIeee.v, says that the functions of <cmath> have relative error [e]. *)

From Coq Require Import List ZArith Bool Reals Lra Lia.
From Coquelicot Require Import Coquelicot.
From Flocq Require Import Core BinarySingleNaN.
From Verif Require Import Base Num UReal World HessGrad UReal2 World2 SpecU2Run Ieee IeeeFacts SpecIeee IeeeProofs3 Nan Math SpecMathIeee MathAcc2 MathAcc5.
From Verif Require Import Derivs Derivs2d Math2 SpecMath2 SpecAcc3 SpecMath2Ieee Math2Acc6 DemoAcc2 DemoMath2.
Import ListNotations.
Local Open Scope R_scope.

(** x = 1/2 +- 1, y = 2 +- 3 and z = x y x = 1/2, with derivatives 2 and 3/4 and second derivatives 2
    and 0 (halved, in units of the deviations); 1/2 or 2 is inside the domain of every function. *)
Example C78_case : let x := w2_var m2_world 0%nat in let y := w2_var m2_world 1%nat in let z := w2_var m2_world 3%nat in
  accurate rounded_cmath uround /\ reachable2 no_eig m2_world /\
  finite (u2_first_order_n x) /\ real_of (u2_first_order_n x) = / 2 /\ finite (u2_first_order_n y) /\ real_of (u2_first_order_n y) = 2 /\
  finite (u2_first_order_n z) /\ real_of (u2_first_order_n z) = / 2 /\
  (real_of (grad_at z 1) = 2 /\ real_of (hess_at z 1 1) = 2) /\ (real_of (grad_at z 2) = 3 / 4 /\ real_of (hess_at z 2 2) = 0) /\
  plain_at z 1 /\ plain_at z 2 /\ plain_at x 1 /\ plain_at y 2 /\
  plain (/ 2) /\ plain 2 /\ plain (ln 2) /\ plain (Rpower 2 (/ 2)) /\ plain (2 * (/ 2) / 2 ^ 3) /\
  8 * uround <= pow2 (-20) * (1 - / 2 * / 2) /\ 4 * (2 * 2) * uround <= pow2 (-20) * (2 * 2 - 1) /\ (11 + 3 * (/ 2 * / 2)) * uround <= pow2 (-20).
Proof.
  intros x y z. split; [exact rounded_accurate|]. split; [exists m2_demo; split; [exact m2_demo_legal|exact m2_demo_run]|].
  destruct m2_mean as (E0 & E1 & E3). destruct m2_at3 as [A1 A2].
  split; [vm_compute; reflexivity|]. split; [exact E0|]. split; [vm_compute; reflexivity|]. split; [exact E1|]. split; [vm_compute; reflexivity|]. split; [exact E3|].
  split; [split; apply A1|]. split; [split; apply A2|].
  assert (P0 : plain 0) by now left. assert (P1 : plain 1) by (apply plain_mid; rewrite Rabs_pos_eq; lra). assert (P2 : plain 2) by (apply plain_mid; rewrite Rabs_pos_eq; lra).
  assert (P3 : plain 3) by (apply plain_mid; rewrite Rabs_pos_eq; lra). assert (P4 : plain (3 / 4)) by (apply plain_mid; rewrite Rabs_pos_eq; lra).
  split; [exact (at_plain _ _ _ _ A1 P2 P2)|]. split; [exact (at_plain _ _ _ _ A2 P4 P0)|]. split; [exact (at_plain _ _ _ _ m2_at0 P1 P0)|].
  split; [exact (at_plain _ _ _ _ m2_at1 P3 P0)|]. split; [apply plain_mid; rewrite Rabs_pos_eq; lra|]. split; [exact P2|]. split.
  { destruct ln2_rng as [L1 L2]. change (pow2 (-1)) with (/ 2) in L1. change (pow2 0) with 1 in L2. apply plain_mid. rewrite Rabs_pos_eq; lra. }
  split; [rewrite Rpower_sqrt by lra; apply plain_mid; assert (1 <= sqrt 2) by (rewrite <- sqrt_1; apply sqrt_le_1_alt; lra);
    assert (sqrt 2 <= 2) by (rewrite <- (sqrt_square 2) at 2 by lra; apply sqrt_le_1_alt; lra); rewrite Rabs_pos_eq; lra|].
  split; [apply plain_mid; rewrite Rabs_pos_eq; lra|].
  change uround with (/ 9007199254740992). change (pow2 (-20)) with (/ 1048576). repeat split; lra.
Qed.

(** ** C78 *)
@C78_functions
@C78_cancelling
@C78_two_arguments
@C78_quotient
