(** * PropsUPoly: programs of +, - and * on UReal<double> against exact arithmetic (C83)

    Generated from tools/PropsUPoly.in. *)

From Coq Require Import List ZArith Bool Reals Lra Lia.
From Flocq Require Import Core BinarySingleNaN.
From Verif Require Import Base Num Map UReal World SpecObs SpecLin Ieee SpecIeee SpecMathIeee2 SpecAcc2 SpecAcc3 SpecAcc4 SpecAcc5 UPoly6
  IeeeProofs5 DemoIeee DemoIeee2 DemoUPoly.
From Verif Require Import SpecMathIeee2.
Import ListNotations.
Local Open Scope R_scope.

(** ** C83 *)
@C83_values
@C83_covariances
@C83_deviation
@C83_relative
(** x = 3 +- 1, y = 7 +- 2; z = x + y, whose deviation is asked; z *= x.  Nothing cancels: the
    deviation of z is sqrt 205 up to ten roundings. *)
Example C83_case : dlegal ddemo /\ List.Forall upoly ddemo /\ List.Forall (fun c => self_assign c = false) ddemo /\ run w_init ddemo = Ret dworld /\
  urounds ddemo 2%nat = 4%nat /\ no_underflow (coefs (w_var dworld 2%nat)) /\ sum_sq (coefs (w_var dworld 2%nat)) <= pow2 1020 /\
  let r := s_var (exact_run ddemo) 2%nat in l_mean r = 30 /\ l_coef r 1 = 13 /\ l_coef r 2 = 6 /\
  forall i, l_coef (s_var (size_run tiny ddemo) 2%nat) i <= (1 + uround) * Rabs (l_coef r i).
Proof.
  split; [exact ddemo_legal|]. split; [exact ddemo_upoly|]. split; [exact ddemo_no_self|]. split; [exact ddemo_run|]. split; [exact z_rounds|].
  split; [apply no_underflow_big; [exact z_finite|rewrite z_coefs; repeat constructor; lra]|].
  split; [|exact z_spec].
  rewrite sum_sq_reals, z_coefs. cbn [fold_right]. assert (B := pow2_big). assert (B1 : pow2 1000 <= pow2 1020) by (apply bpow_le; lia). lra.
Qed.
