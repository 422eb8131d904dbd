(** * PropsMath: the UReal part of math.hpp (C21, C22)

    Generated from tools/PropsMath.in.  [computes1] and [computes2] are in SpecMath.v. *)

From Coq Require Import List ZArith Bool Reals Lra Lia.
From Coquelicot Require Import Coquelicot.
From Flocq Require Import Core.
From Verif Require Import Base Num Map UReal World SpecObs Nan Math SpecMath MathProofs.
Import ListNotations.
Local Open Scope R_scope.

(** Variables of every mean exist, so every point of every domain below is met. *)
Example math_case : forall a b : R, exists w, reachable w /\
  u_n (w_var w 0%nat) = a /\ u_s (w_var w 0%nat) = 1 /\ u_n (w_var w 1%nat) = b /\ u_s (w_var w 1%nat) = 2.
Proof.
  intros a b. destruct (reach3 a 1 b 2 0) as (w & Hw & E0 & E1 & _); [lra|lra|].
  exists w. rewrite E0, E1. split; [exact Hw|]. cbn. rewrite !Rabs_pos_eq by lra. auto.
Qed.

(** ** C21 *)
Theorem C21_unary_derivatives :
  computes1 m_abs (fun x => x <> 0) Rabs /\
  computes1 m_exp (fun _ => True) exp /\
  computes1 m_exp2 (fun _ => True) (fun x => Rpower 2 x) /\
  computes1 m_expm1 (fun _ => True) (fun x => exp x - 1) /\
  computes1 m_log (fun x => 0 < x) ln /\
  computes1 m_log10 (fun x => 0 < x) (fun x => ln x / ln 10) /\
  computes1 m_log2 (fun x => 0 < x) (fun x => ln x / ln 2) /\
  computes1 m_log1p (fun x => -1 < x) (fun x => ln (1 + x)) /\
  computes1 m_sqrt (fun x => 0 < x) sqrt /\
  computes1 m_sin (fun _ => True) sin /\
  computes1 m_cos (fun _ => True) cos /\
  computes1 m_tan (fun x => cos x <> 0) tan /\
  computes1 m_asin (fun x => -1 < x < 1) asin /\
  computes1 m_acos (fun x => -1 < x < 1) acos /\
  computes1 m_atan (fun _ => True) atan /\
  computes1 m_sinh (fun _ => True) sinh /\
  computes1 m_cosh (fun _ => True) cosh /\
  computes1 m_tanh (fun _ => True) tanh /\
  computes1 m_asinh (fun _ => True) (fun x => ln (x + sqrt (x * x + 1))) /\
  computes1 m_acosh (fun x => 1 < x) (fun x => ln (x + sqrt (x * x - 1))) /\
  computes1 m_atanh (fun x => -1 < x < 1) (fun x => ln ((1 + x) / (1 - x)) / 2) /\
  computes1 m_erf (fun _ => True) (fun x => 2 / sqrt PI * RInt (fun t => exp (- (t * t))) 0 x) /\
  computes1 m_erfc (fun _ => True) (fun x => 1 - 2 / sqrt PI * RInt (fun t => exp (- (t * t))) 0 x).
Proof. exact C21_unary_derivatives_proof. Qed.
Print Assumptions C21_unary_derivatives.
(** cbrt; missing: negative means, see the next theorem. *)
Theorem C21_cbrt_partial : exists cbrt : R -> R, (forall x, cbrt x * cbrt x * cbrt x = x) /\
  computes1 m_cbrt (fun x => 0 < x) cbrt.
Proof. exact C21_cbrt_partial_proof. Qed.
Print Assumptions C21_cbrt_partial.
Theorem C21_cbrt_negative_refuted : exists w (cbrt : R -> R), reachable w /\
  (forall x, cbrt x * cbrt x * cbrt x = x) /\
  u_n (w_var w 0%nat) = -8 /\ u_s (w_var w 0%nat) = 1 /\
  is_derive cbrt (-8) (1 / 12) /\
  ~ all_numbers (m_cbrt (lift (w_var w 0%nat))).
Proof. exact C21_cbrt_negative_refuted_proof. Qed.
Print Assumptions C21_cbrt_negative_refuted.

(** ** C22 *)
Theorem C22_binary_derivatives :
  computes2 m_fmod (fun x y => y <> 0 /\ forall k, k <> 0%Z -> x / y <> IZR k)
    (fun x y => x - IZR (Ztrunc (x / y)) * y) /\
  computes2 m_remainder (fun x y => y <> 0 /\ forall k, x / y <> IZR k + / 2)
    (fun x y => x - IZR (ZnearestE (x / y)) * y) /\
  computes2 m_fmax (fun x y => x <> y) Rmax /\
  computes2 m_fmin (fun x y => x <> y) Rmin /\
  computes2 m_pow (fun x y => 0 < x) Rpower /\
  computes2 m_hypot (fun x y => x <> 0 \/ y <> 0) (fun x y => sqrt (x * x + y * y)).
Proof. exact C22_binary_derivatives_proof. Qed.
Print Assumptions C22_binary_derivatives.
(** pow with a number as exponent and a negative mean as base *)
Theorem C22_pow_integer_exponent : forall w u v k, reachable w ->
  let x := w_var w u in let y := w_var w v in u_n x < 0 -> y = u_const (IZR k) ->
  exists z d, m_pow (lift x) (lift y) = Ret (lift z) /\
    is_derive (fun t => powerRZ t k) (u_n x) d /\
    u_n z = powerRZ (u_n x) k /\
    (forall t, u_cov z (w_var w t) = d * u_cov x (w_var w t)) /\
    (forall t, reachable (w_set w t z)).
Proof. exact C22_pow_integer_exponent_proof. Qed.
Print Assumptions C22_pow_integer_exponent.
Example C22_pow_case : exists w, reachable w /\ u_n (w_var w 0%nat) = -3 /\ w_var w 2%nat = u_const (IZR 5).
Proof.
  destruct (reach3 (-3) 1 0 2 5) as (w & Hw & E0 & _ & E2); [lra|lra|]. exists w. rewrite E0, E2. auto.
Qed.
Theorem C22_pow_zero_base_refuted : exists w, reachable w /\
  let x := w_var w 0%nat in let y := w_var w 2%nat in
  u_n x = 0 /\ u_s x = 1 /\ y = u_const (2 : RN) /\
  is_derive (fun t => powerRZ t 2) 0 0 /\
  exists z, m_pow (lift x) (lift y) = Ret z /\ ~ all_numbers z.
Proof. exact C22_pow_zero_base_refuted_proof. Qed.
Print Assumptions C22_pow_zero_base_refuted.
Theorem C22_atan2_negated_derivatives : forall w u v, reachable w ->
  let x := w_var w u in let y := w_var w v in u_n x <> 0 ->
  exists z dx dy, m_atan2 (lift x) (lift y) = Ret (lift z) /\
    differentiable_pt_lim R_atan2 (u_n x) (u_n y) dx dy /\
    u_n z = R_atan2 (u_n x) (u_n y) /\
    forall t, u_cov z (w_var w t) = - (dx * u_cov x (w_var w t) + dy * u_cov y (w_var w t)).
Proof. exact C22_atan2_negated_derivatives_proof. Qed.
Print Assumptions C22_atan2_negated_derivatives.
Theorem C22_atan2_refuted : exists w, reachable w /\
  let x := w_var w 0%nat in let y := w_var w 1%nat in
  u_n x = 1 /\ u_n y = 1 /\ u_var x = 1 /\ u_cov y x = 0 /\
  differentiable_pt_lim R_atan2 1 1 (1 / 2) (- (1 / 2)) /\
  exists z, m_atan2 (lift x) (lift y) = Ret (lift z) /\ u_cov z x = - (1 / 2).
Proof. exact C22_atan2_refuted_proof. Qed.
Print Assumptions C22_atan2_refuted.
