(** * PropsMath2Ieee: math.hpp and the operators on UReal2<double> (C78)

    Generated from tools/PropsMath2Ieee.in.  [accurate1_2nd] and [accurate2_2nd] are in SpecMath2Ieee.v; [accurate], in
    SpecMathIeee.v, says that the functions of <cmath> have relative error [e]. *)

From Coq Require Import List ZArith Bool Reals Lra Lia.
From Coquelicot Require Import Coquelicot.
From Flocq Require Import Core BinarySingleNaN.
From Verif Require Import Base Num UReal World HessGrad UReal2 World2 SpecU2Run Ieee IeeeFacts SpecIeee IeeeProofs3 Nan Math SpecMathIeee MathAcc2 MathAcc5.
From Verif Require Import Derivs Derivs2d Math2 SpecMath2 SpecAcc3 SpecMath2Ieee Math2Acc6 DemoAcc2 DemoMath2.
Import ListNotations.
Local Open Scope R_scope.

(** x = 1/2 +- 1, y = 2 +- 3 and z = x y x = 1/2, with derivatives 2 and 3/4 and second derivatives 2
    and 0 (halved, in units of the deviations); 1/2 or 2 is inside the domain of every function. *)
Example C78_case : let x := w2_var m2_world 0%nat in let y := w2_var m2_world 1%nat in let z := w2_var m2_world 3%nat in
  accurate rounded_cmath uround /\ reachable2 no_eig m2_world /\
  finite (u2_first_order_n x) /\ real_of (u2_first_order_n x) = / 2 /\ finite (u2_first_order_n y) /\ real_of (u2_first_order_n y) = 2 /\
  finite (u2_first_order_n z) /\ real_of (u2_first_order_n z) = / 2 /\
  (real_of (grad_at z 1) = 2 /\ real_of (hess_at z 1 1) = 2) /\ (real_of (grad_at z 2) = 3 / 4 /\ real_of (hess_at z 2 2) = 0) /\
  plain_at z 1 /\ plain_at z 2 /\ plain_at x 1 /\ plain_at y 2 /\
  plain (/ 2) /\ plain 2 /\ plain (ln 2) /\ plain (Rpower 2 (/ 2)) /\ plain (2 * (/ 2) / 2 ^ 3) /\
  8 * uround <= pow2 (-20) * (1 - / 2 * / 2) /\ 4 * (2 * 2) * uround <= pow2 (-20) * (2 * 2 - 1) /\ (11 + 3 * (/ 2 * / 2)) * uround <= pow2 (-20).
Proof.
  intros x y z. split; [exact rounded_accurate|]. split; [exists m2_demo; split; [exact m2_demo_legal|exact m2_demo_run]|].
  destruct m2_mean as (E0 & E1 & E3). destruct m2_at3 as [A1 A2].
  split; [vm_compute; reflexivity|]. split; [exact E0|]. split; [vm_compute; reflexivity|]. split; [exact E1|]. split; [vm_compute; reflexivity|]. split; [exact E3|].
  split; [split; apply A1|]. split; [split; apply A2|].
  assert (P0 : plain 0) by now left. assert (P1 : plain 1) by (apply plain_mid; rewrite Rabs_pos_eq; lra). assert (P2 : plain 2) by (apply plain_mid; rewrite Rabs_pos_eq; lra).
  assert (P3 : plain 3) by (apply plain_mid; rewrite Rabs_pos_eq; lra). assert (P4 : plain (3 / 4)) by (apply plain_mid; rewrite Rabs_pos_eq; lra).
  split; [exact (at_plain _ _ _ _ A1 P2 P2)|]. split; [exact (at_plain _ _ _ _ A2 P4 P0)|]. split; [exact (at_plain _ _ _ _ m2_at0 P1 P0)|].
  split; [exact (at_plain _ _ _ _ m2_at1 P3 P0)|]. split; [apply plain_mid; rewrite Rabs_pos_eq; lra|]. split; [exact P2|]. split.
  { destruct ln2_rng as [L1 L2]. change (pow2 (-1)) with (/ 2) in L1. change (pow2 0) with 1 in L2. apply plain_mid. rewrite Rabs_pos_eq; lra. }
  split; [rewrite Rpower_sqrt by lra; apply plain_mid; assert (1 <= sqrt 2) by (rewrite <- sqrt_1; apply sqrt_le_1_alt; lra);
    assert (sqrt 2 <= 2) by (rewrite <- (sqrt_square 2) at 2 by lra; apply sqrt_le_1_alt; lra); rewrite Rabs_pos_eq; lra|].
  split; [apply plain_mid; rewrite Rabs_pos_eq; lra|].
  change uround with (/ 9007199254740992). change (pow2 (-20)) with (/ 1048576). repeat split; lra.
Qed.

(** ** C78 *)
Theorem C78_functions :
  accurate1_2nd (fun _ => g2_abs) (fun _ a => a <> 0) Rabs (fun _ => 2) (fun _ => 6) /\
  accurate1_2nd g2_exp (fun _ _ => True) exp (fun _ => 3) (fun _ => 7) /\
  accurate1_2nd g2_exp2 (fun _ _ => True) (fun x => Rpower 2 x) (fun _ => 5) (fun _ => 11) /\
  accurate1_2nd g2_expm1 (fun _ _ => True) (fun x => exp x - 1) (fun _ => 3) (fun _ => 7) /\
  accurate1_2nd g2_log (fun _ a => pow2 (-500) <= a <= pow2 500) ln (fun _ => 3) (fun _ => 8) /\
  accurate1_2nd g2_log10 (fun _ a => pow2 (-500) <= a <= pow2 500) (fun x => ln x / ln 10) (fun _ => 5) (fun _ => 10) /\
  accurate1_2nd g2_log2 (fun _ a => pow2 (-500) <= a <= pow2 500) (fun x => ln x / ln 2) (fun _ => 5) (fun _ => 10) /\
  accurate1_2nd g2_log1p (fun _ a => pow2 (-500) <= 1 + a <= pow2 500) (fun x => ln (1 + x)) (fun _ => 4) (fun _ => 11) /\
  accurate1_2nd (fun _ => g2_sqrt) (fun _ a => pow2 (-500) <= a <= pow2 500) sqrt (fun _ => 5) (fun _ => 10) /\
  accurate1_2nd g2_cbrt (fun _ a => pow2 (-750) <= Rabs a <= pow2 750) R_cbrt (fun _ => 7) (fun _ => 13) /\
  accurate1_2nd g2_sin (fun _ _ => True) sin (fun _ => 3) (fun _ => 7) /\
  accurate1_2nd g2_cos (fun _ _ => True) cos (fun _ => 3) (fun _ => 7) /\
  accurate1_2nd g2_tan (fun _ a => cos a <> 0 /\ Rabs (tan a) <= pow2 500) tan (fun _ => 7) (fun _ => 14) /\
  accurate1_2nd g2_atan (fun _ a => plain a) atan (fun _ => 6) (fun _ => 17) /\
  accurate1_2nd g2_sinh (fun _ _ => True) sinh (fun _ => 3) (fun _ => 7) /\
  accurate1_2nd g2_cosh (fun _ _ => True) cosh (fun _ => 3) (fun _ => 7) /\
  accurate1_2nd g2_asinh (fun _ a => plain a) R_asinh (fun _ => 7) (fun _ => 17).
Proof. exact C78_functions_proof. Qed.
Print Assumptions C78_functions.
Theorem C78_cancelling :
  accurate1_2nd g2_asin (fun e a => plain a /\ 8 * e <= pow2 (-20) * (1 - a * a)) asin (fun a => 40 / (1 - a * a)) (fun a => 104 / (1 - a * a)) /\
  accurate1_2nd g2_acos (fun e a => plain a /\ 8 * e <= pow2 (-20) * (1 - a * a)) acos (fun a => 40 / (1 - a * a)) (fun a => 104 / (1 - a * a)) /\
  accurate1_2nd g2_atanh (fun e a => plain a /\ 8 * e <= pow2 (-20) * (1 - a * a)) R_atanh (fun a => 32 / (1 - a * a)) (fun a => 104 / (1 - a * a)) /\
  accurate1_2nd g2_tanh (fun e a => 8 * e <= pow2 (-20) * (1 - tanh a * tanh a)) tanh
    (fun a => 24 / (1 - tanh a * tanh a)) (fun a => 80 / (1 - tanh a * tanh a)) /\
  accurate1_2nd g2_acosh (fun e a => 1 < a <= pow2 250 /\ 4 * (a * a) * e <= pow2 (-20) * (a * a - 1)) R_acosh
    (fun a => 20 * (a * a) / (a * a - 1)) (fun a => 52 * (a * a) / (a * a - 1)) /\
  accurate1_2nd g2_erf (fun e a => plain a /\ Rabs a <= 22 /\ (11 + 3 * (a * a)) * e <= pow2 (-20)) R_erf (fun a => 33 + 9 * (a * a)) (fun a => 99 + 27 * (a * a)) /\
  accurate1_2nd g2_erfc (fun e a => plain a /\ Rabs a <= 22 /\ (11 + 3 * (a * a)) * e <= pow2 (-20)) (fun x => 1 - R_erf x)
    (fun a => 33 + 9 * (a * a)) (fun a => 99 + 27 * (a * a)).
Proof. exact C78_cancelling_proof. Qed.
Print Assumptions C78_cancelling.
Theorem C78_two_arguments :
  accurate2_2nd (fun _ => u2_add) (fun _ _ _ => True) Rplus (fun _ _ => 0) (fun _ _ => 0) (fun _ _ => 0) 1 6 19 /\
  accurate2_2nd (fun _ => u2_sub) (fun _ _ _ => True) Rminus (fun _ _ => 0) (fun _ _ => 0) (fun _ _ => 0) 1 7 20 /\
  accurate2_2nd (fun _ => u2_mul) (fun _ _ _ => True) Rmult (fun _ _ => 0) (fun _ _ => 0) (fun _ _ => 1) 2 6 19 /\
  accurate2_2nd (fun _ => u2_div) (fun _ a b => b <> 0 /\ plain a /\ plain b) Rdiv
    (fun _ _ => 0) (fun a b => Rabs (2 * a / b ^ 3)) (fun a b => / b ^ 2) 2 11 27 /\
  accurate2_2nd g2_pow (fun _ a b => 0 < a /\ plain a /\ plain b /\ plain (ln a) /\ plain (Rpower a b)) Rpower
    (fun a b => Rabs (Rpower a b * / a * b * / a * (b - 1))) (fun a b => Rabs (Rpower a b * ln a * ln a))
    (fun a b => Rabs (Rpower a b * / a) + Rabs (Rpower a b * / a * b * ln a)) 1 11 28 /\
  accurate2_2nd g2_hypot (fun _ a b => (a <> 0 \/ b <> 0) /\ plain a /\ plain b) (fun a b => sqrt (a * a + b * b))
    (fun a b => / sqrt (a * a + b * b)) (fun a b => / sqrt (a * a + b * b)) (fun a b => / sqrt (a * a + b * b)) 1 10 53 /\
  accurate2_2nd g2_atan2 (fun _ a b => (a <> 0 \/ 0 < b) /\ plain a /\ plain b) R_atan2
    (fun a b => Rabs (2 * (a * / (a * a + b * b)) * (b * / (a * a + b * b)))) (fun a b => Rabs (2 * (a * / (a * a + b * b)) * (b * / (a * a + b * b))))
    (fun a b => / (a * a + b * b)) 1 11 39 /\
  accurate2_2nd g2_fmax (fun _ a b => a <> b) Rmax (fun _ _ => 0) (fun _ _ => 0) (fun _ _ => 0) 0 6 19 /\
  accurate2_2nd g2_fmin (fun _ a b => a <> b) Rmin (fun _ _ => 0) (fun _ _ => 0) (fun _ _ => 0) 0 6 19.
Proof. exact C78_two_arguments_proof. Qed.
Print Assumptions C78_two_arguments.
Theorem C78_quotient :
  accurate2_2nd g2_fmod (fun _ a b => b <> 0 /\ (forall n, n <> 0%Z -> a / b <> IZR n) /\ regular (a / b) /\ Ztrunc (nearest (a / b)) = Ztrunc (a / b))
    (fun x y => x - IZR (Ztrunc (x / y)) * y) (fun _ _ => 0) (fun _ _ => 0) (fun _ _ => 0) 1 8 21 /\
  accurate2_2nd g2_remainder (fun _ a b => b <> 0 /\ (forall n, a / b <> IZR n + / 2) /\ regular (a / b) /\ ZnearestA (nearest (a / b)) = ZnearestA (a / b))
    (fun x y => x - IZR (ZnearestE (x / y)) * y) (fun _ _ => 0) (fun _ _ => 0) (fun _ _ => 0) 1 8 21.
Proof. exact C78_quotient_proof. Qed.
Print Assumptions C78_quotient.
