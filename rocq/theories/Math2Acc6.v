(** * Math2Acc6: C78 *)

From Coq Require Import List ZArith Reals Bool Lra Lia.
From Coquelicot Require Import Coquelicot.
From Flocq Require Import Core BinarySingleNaN.
From Verif Require Import Base Num Map UReal World HessGrad UReal2 World2 SpecU2Run Ieee SpecIeee IeeeProofs3 Nan Math SpecMathIeee.
From Verif Require Import Derivs Derivs2d Math2 SpecMath2 SpecAcc3 SpecMath2Ieee Math2Acc Math2Acc2 Math2Acc3 Math2Acc4 Math2Acc5.
Import ListNotations.
Local Open Scope R_scope.

Lemma C78_functions_proof :
  accurate1_2nd (fun _ => g2_abs) (fun _ a => a <> 0) Rabs (fun _ => 2) (fun _ => 6) /\
  accurate1_2nd g2_exp (fun _ _ => True) exp (fun _ => 3) (fun _ => 7) /\
  accurate1_2nd g2_exp2 (fun _ _ => True) (fun x => Rpower 2 x) (fun _ => 5) (fun _ => 11) /\
  accurate1_2nd g2_expm1 (fun _ _ => True) (fun x => exp x - 1) (fun _ => 3) (fun _ => 7) /\
  accurate1_2nd g2_log (fun _ a => pow2 (-500) <= a <= pow2 500) ln (fun _ => 3) (fun _ => 8) /\
  accurate1_2nd g2_log10 (fun _ a => pow2 (-500) <= a <= pow2 500) (fun x => ln x / ln 10) (fun _ => 5) (fun _ => 10) /\
  accurate1_2nd g2_log2 (fun _ a => pow2 (-500) <= a <= pow2 500) (fun x => ln x / ln 2) (fun _ => 5) (fun _ => 10) /\
  accurate1_2nd g2_log1p (fun _ a => pow2 (-500) <= 1 + a <= pow2 500) (fun x => ln (1 + x)) (fun _ => 4) (fun _ => 11) /\
  accurate1_2nd (fun _ => g2_sqrt) (fun _ a => pow2 (-500) <= a <= pow2 500) sqrt (fun _ => 5) (fun _ => 10) /\
  accurate1_2nd g2_cbrt (fun _ a => pow2 (-750) <= Rabs a <= pow2 750) R_cbrt (fun _ => 7) (fun _ => 13) /\
  accurate1_2nd g2_sin (fun _ _ => True) sin (fun _ => 3) (fun _ => 7) /\
  accurate1_2nd g2_cos (fun _ _ => True) cos (fun _ => 3) (fun _ => 7) /\
  accurate1_2nd g2_tan (fun _ a => cos a <> 0 /\ Rabs (tan a) <= pow2 500) tan (fun _ => 7) (fun _ => 14) /\
  accurate1_2nd g2_atan (fun _ a => plain a) atan (fun _ => 6) (fun _ => 17) /\
  accurate1_2nd g2_sinh (fun _ _ => True) sinh (fun _ => 3) (fun _ => 7) /\
  accurate1_2nd g2_cosh (fun _ _ => True) cosh (fun _ => 3) (fun _ => 7) /\
  accurate1_2nd g2_asinh (fun _ a => plain a) R_asinh (fun _ => 7) (fun _ => 17).
Proof.
  exact (conj B_abs (conj B_exp (conj B_exp2 (conj B_expm1 (conj B_log (conj B_log10 (conj B_log2 (conj B_log1p (conj B_sqrt (conj B_cbrt
    (conj B_sin (conj B_cos (conj B_tan (conj B_atan (conj B_sinh (conj B_cosh B_asinh)))))))))))))))).
Qed.
Lemma C78_cancelling_proof :
  accurate1_2nd g2_asin (fun e a => plain a /\ 8 * e <= pow2 (-20) * (1 - a * a)) asin (fun a => 40 / (1 - a * a)) (fun a => 104 / (1 - a * a)) /\
  accurate1_2nd g2_acos (fun e a => plain a /\ 8 * e <= pow2 (-20) * (1 - a * a)) acos (fun a => 40 / (1 - a * a)) (fun a => 104 / (1 - a * a)) /\
  accurate1_2nd g2_atanh (fun e a => plain a /\ 8 * e <= pow2 (-20) * (1 - a * a)) R_atanh (fun a => 32 / (1 - a * a)) (fun a => 104 / (1 - a * a)) /\
  accurate1_2nd g2_tanh (fun e a => 8 * e <= pow2 (-20) * (1 - tanh a * tanh a)) tanh
    (fun a => 24 / (1 - tanh a * tanh a)) (fun a => 80 / (1 - tanh a * tanh a)) /\
  accurate1_2nd g2_acosh (fun e a => 1 < a <= pow2 250 /\ 4 * (a * a) * e <= pow2 (-20) * (a * a - 1)) R_acosh
    (fun a => 20 * (a * a) / (a * a - 1)) (fun a => 52 * (a * a) / (a * a - 1)) /\
  accurate1_2nd g2_erf (fun e a => plain a /\ Rabs a <= 22 /\ (11 + 3 * (a * a)) * e <= pow2 (-20)) R_erf (fun a => 33 + 9 * (a * a)) (fun a => 99 + 27 * (a * a)) /\
  accurate1_2nd g2_erfc (fun e a => plain a /\ Rabs a <= 22 /\ (11 + 3 * (a * a)) * e <= pow2 (-20)) (fun x => 1 - R_erf x)
    (fun a => 33 + 9 * (a * a)) (fun a => 99 + 27 * (a * a)).
Proof. exact (conj B_asin (conj B_acos (conj B_atanh (conj B_tanh (conj B_acosh (conj B_erf B_erfc)))))). Qed.
Lemma C78_two_arguments_proof :
  accurate2_2nd (fun _ => u2_add) (fun _ _ _ => True) Rplus (fun _ _ => 0) (fun _ _ => 0) (fun _ _ => 0) 1 6 19 /\
  accurate2_2nd (fun _ => u2_sub) (fun _ _ _ => True) Rminus (fun _ _ => 0) (fun _ _ => 0) (fun _ _ => 0) 1 7 20 /\
  accurate2_2nd (fun _ => u2_mul) (fun _ _ _ => True) Rmult (fun _ _ => 0) (fun _ _ => 0) (fun _ _ => 1) 2 6 19 /\
  accurate2_2nd (fun _ => u2_div) (fun _ a b => b <> 0 /\ plain a /\ plain b) Rdiv
    (fun _ _ => 0) (fun a b => Rabs (2 * a / b ^ 3)) (fun a b => / b ^ 2) 2 11 27 /\
  accurate2_2nd g2_pow (fun _ a b => 0 < a /\ plain a /\ plain b /\ plain (ln a) /\ plain (Rpower a b)) Rpower
    (fun a b => Rabs (Rpower a b * / a * b * / a * (b - 1))) (fun a b => Rabs (Rpower a b * ln a * ln a))
    (fun a b => Rabs (Rpower a b * / a) + Rabs (Rpower a b * / a * b * ln a)) 1 11 28 /\
  accurate2_2nd g2_hypot (fun _ a b => (a <> 0 \/ b <> 0) /\ plain a /\ plain b) (fun a b => sqrt (a * a + b * b))
    (fun a b => / sqrt (a * a + b * b)) (fun a b => / sqrt (a * a + b * b)) (fun a b => / sqrt (a * a + b * b)) 1 10 53 /\
  accurate2_2nd g2_atan2 (fun _ a b => (a <> 0 \/ 0 < b) /\ plain a /\ plain b) R_atan2
    (fun a b => Rabs (2 * (a * / (a * a + b * b)) * (b * / (a * a + b * b)))) (fun a b => Rabs (2 * (a * / (a * a + b * b)) * (b * / (a * a + b * b))))
    (fun a b => / (a * a + b * b)) 1 11 39 /\
  accurate2_2nd g2_fmax (fun _ a b => a <> b) Rmax (fun _ _ => 0) (fun _ _ => 0) (fun _ _ => 0) 0 6 19 /\
  accurate2_2nd g2_fmin (fun _ a b => a <> b) Rmin (fun _ _ => 0) (fun _ _ => 0) (fun _ _ => 0) 0 6 19.
Proof. exact (conj E_add (conj E_sub (conj E_mul (conj E_div (conj E_pow (conj E_hypot (conj E_atan2 (conj E_fmax E_fmin)))))))). Qed.
Lemma C78_quotient_proof :
  accurate2_2nd g2_fmod (fun _ a b => b <> 0 /\ (forall n, n <> 0%Z -> a / b <> IZR n) /\ regular (a / b) /\ Ztrunc (nearest (a / b)) = Ztrunc (a / b))
    (fun x y => x - IZR (Ztrunc (x / y)) * y) (fun _ _ => 0) (fun _ _ => 0) (fun _ _ => 0) 1 8 21 /\
  accurate2_2nd g2_remainder (fun _ a b => b <> 0 /\ (forall n, a / b <> IZR n + / 2) /\ regular (a / b) /\ ZnearestA (nearest (a / b)) = ZnearestA (a / b))
    (fun x y => x - IZR (ZnearestE (x / y)) * y) (fun _ _ => 0) (fun _ _ => 0) (fun _ _ => 0) 1 8 21.
Proof. exact (conj E_fmod E_remainder). Qed.
