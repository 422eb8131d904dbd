(** * PropsMath2: the UReal2 part of math.hpp (C23)

    Generated from tools/PropsMath2.in.  [computes1_2nd] and [computes2_2nd] are in
    SpecMath2.v. *)

From Coq Require Import List ZArith Bool Reals Lra Lia.
From Coquelicot Require Import Coquelicot.
From Flocq Require Import Core.
From Verif Require Import Base Num Map UReal World HessGrad UReal2 World2 SpecU2 SpecU2Run Nan Math Math2 SpecMath2 Demo2 Math2Proofs.
Import ListNotations.
Local Open Scope R_scope.

(** Variables of every mean exist, so every point of every domain below is met. *)
Example math2_case : forall a b : R, exists w, reachable2 no_eig w /\
  u2_first_order_n (w2_var w 0%nat) = a /\ j_g (jet_of (w2_var w 0%nat)) 1%Z = 1 /\
  u2_first_order_n (w2_var w 1%nat) = b /\ j_g (jet_of (w2_var w 1%nat)) 2%Z = 2 /\
  single (jet_of (w2_var w 0%nat)) /\ single (jet_of (w2_var w 1%nat)).
Proof.
  intros a b. destruct (reach2_3 a 1 b 2 0) as (w & Hw & E0 & E1 & _); [lra|lra|].
  exists w. rewrite E0, E1. split; [exact Hw|]. do 4 (split; [reflexivity|]).
  split; intros i j; cbn; intuition congruence.
Qed.

(** ** C23 *)
Theorem C23_unary_functions :
  computes1_2nd m2_abs (fun x => x <> 0) Rabs /\
  computes1_2nd m2_exp (fun _ => True) exp /\
  computes1_2nd m2_exp2 (fun _ => True) (fun x => Rpower 2 x) /\
  computes1_2nd m2_expm1 (fun _ => True) (fun x => exp x - 1) /\
  computes1_2nd m2_log (fun x => 0 < x) ln /\
  computes1_2nd m2_log10 (fun x => 0 < x) (fun x => ln x / ln 10) /\
  computes1_2nd m2_log2 (fun x => 0 < x) (fun x => ln x / ln 2) /\
  computes1_2nd m2_log1p (fun x => -1 < x) (fun x => ln (1 + x)) /\
  computes1_2nd m2_sqrt (fun x => 0 < x) sqrt /\
  computes1_2nd m2_sin (fun _ => True) sin /\
  computes1_2nd m2_cos (fun _ => True) cos /\
  computes1_2nd m2_tan (fun x => cos x <> 0) tan /\
  computes1_2nd m2_asin (fun x => -1 < x < 1) asin /\
  computes1_2nd m2_acos (fun x => -1 < x < 1) acos /\
  computes1_2nd m2_atan (fun _ => True) atan /\
  computes1_2nd m2_sinh (fun _ => True) sinh /\
  computes1_2nd m2_cosh (fun _ => True) cosh /\
  computes1_2nd m2_tanh (fun _ => True) tanh /\
  computes1_2nd m2_asinh (fun _ => True) (fun x => ln (x + sqrt (x * x + 1))) /\
  computes1_2nd m2_acosh (fun x => 1 < x) (fun x => ln (x + sqrt (x * x - 1))) /\
  computes1_2nd m2_atanh (fun x => -1 < x < 1) (fun x => ln ((1 + x) / (1 - x)) / 2) /\
  computes1_2nd m2_erf (fun _ => True) (fun x => 2 / sqrt PI * RInt (fun t => exp (- (t * t))) 0 x) /\
  computes1_2nd m2_erfc (fun _ => True) (fun x => 1 - 2 / sqrt PI * RInt (fun t => exp (- (t * t))) 0 x).
Proof. exact C23_unary_functions_proof. Qed.
Print Assumptions C23_unary_functions.
(** the real cube root is twice differentiable except in zero *)
Theorem C23_cbrt : exists cbrt : R -> R, (forall x, cbrt x * cbrt x * cbrt x = x) /\
  computes1_2nd m2_cbrt (fun x => x <> 0) cbrt.
Proof. exact C23_cbrt_proof. Qed.
Print Assumptions C23_cbrt.
Theorem C23_binary_functions :
  computes2_2nd m2_fmod (fun x y => y <> 0 /\ forall k, k <> 0%Z -> x / y <> IZR k)
    (fun x y => x - IZR (Ztrunc (x / y)) * y) /\
  computes2_2nd m2_remainder (fun x y => y <> 0 /\ forall k, x / y <> IZR k + / 2)
    (fun x y => x - IZR (ZnearestE (x / y)) * y) /\
  computes2_2nd m2_fmax (fun x y => x <> y) Rmax /\
  computes2_2nd m2_fmin (fun x y => x <> y) Rmin /\
  computes2_2nd m2_pow (fun x y => 0 < x) Rpower /\
  computes2_2nd m2_hypot (fun x y => x <> 0 \/ y <> 0) (fun x y => sqrt (x * x + y * y)).
Proof. exact C23_binary_functions_proof. Qed.
Print Assumptions C23_binary_functions.
Theorem C23_atan2 : exists angle : R -> R -> R,
  (forall x y, x <> 0 \/ y <> 0 ->
     - PI < angle x y <= PI /\ y = sqrt (x * x + y * y) * cos (angle x y) /\ x = sqrt (x * x + y * y) * sin (angle x y)) /\
  computes2_2nd m2_atan2 (fun x y => x <> 0 \/ 0 < y) angle.
Proof. exact C23_atan2_proof. Qed.
Print Assumptions C23_atan2.
(** pow with a number as exponent and a negative mean as base *)
Theorem C23_pow_integer_exponent : forall eig w u v k, reachable2 eig w ->
  let x := w2_var w u in let y := w2_var w v in let a := u2_first_order_n x in
  a < 0 -> y = u2_const (IZR k) ->
  exists z d1 d2, m2_pow (lift2 x) (lift2 y) = Ret (lift2 z) /\
    twice_derivable (fun t => powerRZ t k) a d1 d2 /\
    jet_eq_diag (jet_of z) (jet_unary (jet_of x) (powerRZ a k) d1 d2) /\
    (d2 = 0 \/ single (jet_of x) -> jet_eq (jet_of z) (jet_unary (jet_of x) (powerRZ a k) d1 d2)) /\
    (forall t, reachable2 eig (w2_set w t z)).
Proof. exact C23_pow_integer_exponent_proof. Qed.
Print Assumptions C23_pow_integer_exponent.
Example C23_pow_case : exists w, reachable2 no_eig w /\ u2_first_order_n (w2_var w 0%nat) = -3 /\
  w2_var w 2%nat = u2_const (IZR 5).
Proof.
  destruct (reach2_3 (-3) 1 0 2 5) as (w & Hw & E0 & _ & E2); [lra|lra|]. exists w. rewrite E0, E2. auto.
Qed.
Theorem C23_pow_zero_base_refuted : exists eig w, reachable2 eig w /\
  let x := w2_var w 0%nat in let y := w2_var w 2%nat in
  u2_first_order_n x = 0 /\ j_g (jet_of x) 1%Z = 1 /\ y = u2_const (2 : RN) /\
  twice_derivable (fun t => powerRZ t 2) 0 0 2 /\
  exists z, m2_pow (lift2 x) (lift2 y) = Ret z /\ ~ all_numbers2 z.
Proof. exact C23_pow_zero_base_refuted_proof. Qed.
Print Assumptions C23_pow_zero_base_refuted.
