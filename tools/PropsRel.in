(** * PropsRel: programs on doubles whose sums do not cancel (C87)

    Generated from tools/PropsRel.in. *)

From Coq Require Import List ZArith Reals Bool.
From Verif Require Import Base Num Map UReal World SpecLin Ieee SpecIeee SpecMathIeee2 SpecObs SpecAcc3 SpecAcc4 SpecRel RelProg2 RelDemo.
Import ListNotations.
Local Open Scope R_scope.

(** ** C87: programs with +, -, *, /, sqrt, negation and the compound assignments, whose sums do not cancel and whose
    products neither overflow nor underflow: means and coefficients have a small relative error. *)
@C87_values
(** So have standard deviations and variances. *)
@C87_deviation
(** The square root in these programs is the function of math.hpp. *)
@C87_sqrt_step
(** A program with all of these operations. *)
Example C87_case : (count_new (map call_of rel_demo) <= max_new)%nat /\ tame_program rel_demo /\ rel_rounds rel_demo 2%nat = 22%nat /\
  let r := s_var (exact_steps rel_demo) 2%nat in l_mean r = 10 /\ l_coef r 1 = 9 / 4 /\ l_coef r 2 = - (5 / 2) /\ l_coef r 3 = 5 / 2 /\
  (forall i, l_coef r i = 0 \/ pow2 (-509) <= Rabs (l_coef r i)) /\ lin_var (s_last (exact_steps rel_demo)) r = 281 / 16 /\ 281 / 16 <= pow2 1018.
Proof. exact rel_case. Qed.
