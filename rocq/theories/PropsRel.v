(** * PropsRel: programs on doubles whose sums do not cancel (C87)

    Generated from tools/PropsRel.in. *)

From Coq Require Import List ZArith Reals Bool.
From Verif Require Import Base Num Map UReal World SpecLin Ieee SpecIeee SpecMathIeee2 SpecObs SpecAcc3 SpecAcc4 SpecRel RelProg2 RelDemo.
Import ListNotations.
Local Open Scope R_scope.

(** ** C87: programs with +, -, *, /, sqrt, negation and the compound assignments, whose sums do not cancel and whose
    products neither overflow nor underflow: means and coefficients have a small relative error. *)
Theorem C87_values : forall ss, (count_new (map call_of ss) <= max_new)%nat -> tame_program ss ->
  exists w, run w_init (map call_of ss) = Ret w /\ w_last w = s_last (exact_steps ss) /\
  forall v, let x := w_var w v in let r := s_var (exact_steps ss) v in
    (forall i, In i (ids x) <-> l_dep r i) /\
    relative (rel_rounds ss v) (u_n x) (l_mean r) /\ forall i, relative (rel_rounds ss v) (coef_on x i) (l_coef r i).
Proof. exact C87_values_proof. Qed.
Print Assumptions C87_values.
(** So have standard deviations and variances. *)
Theorem C87_deviation : forall ss w, (count_new (map call_of ss) <= max_new)%nat -> tame_program ss -> run w_init (map call_of ss) = Ret w ->
  forall v, let x := w_var w v in let r := s_var (exact_steps ss) v in let last := s_last (exact_steps ss) in
  let k := (2 * rel_rounds ss v + length (coefs x))%nat in
  (forall i, l_coef r i = 0 \/ pow2 (-509) <= Rabs (l_coef r i)) -> lin_var last r <= pow2 1018 ->
  relative (k + 3) (u_s x) (lin_sdev last r) /\ relative (k + 4) (u_var x) (lin_var last r).
Proof. exact C87_deviation_proof. Qed.
Print Assumptions C87_deviation.
(** The square root in these programs is the function of math.hpp. *)
Theorem C87_sqrt_step : forall (w : world DN) v x, exec w (call_of (Sqrt v x)) = (w_set w v (Math.g_sqrt (N := DN) (w_var w x)), Ret tt).
Proof. exact C87_sqrt_step_proof. Qed.
Print Assumptions C87_sqrt_step.
(** A program with all of these operations. *)
Example C87_case : (count_new (map call_of rel_demo) <= max_new)%nat /\ tame_program rel_demo /\ rel_rounds rel_demo 2%nat = 22%nat /\
  let r := s_var (exact_steps rel_demo) 2%nat in l_mean r = 10 /\ l_coef r 1 = 9 / 4 /\ l_coef r 2 = - (5 / 2) /\ l_coef r 3 = 5 / 2 /\
  (forall i, l_coef r i = 0 \/ pow2 (-509) <= Rabs (l_coef r i)) /\ lin_var (s_last (exact_steps rel_demo)) r = 281 / 16 /\ 281 / 16 <= pow2 1018.
Proof. exact rel_case. Qed.
