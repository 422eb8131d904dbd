(** * PropsFunIeee: numerical derivatives of functions.hpp on doubles (C70)

    Generated from tools/PropsFunIeee.in.  The predicates and error bounds are in SpecFunIeee.v. *)

From Coq Require Import List ZArith Bool Reals Lra Lia.
From Coquelicot Require Import Coquelicot.
From Verif Require Import Base Num Map UReal World HessGrad UReal2 Ieee SpecIeee IeeeProofs5 SpecFun SpecFunIeee Functions FunAcc5 FunAcc6.
Import ListNotations.
Local Open Scope R_scope.

(** The square of 1 +- 1, with the default step. *)
Example C70_variable_case : let w := after one_one in let x := w_var w 0%nat in
  dlegal one_one /\ List.Forall (fun c => self_assign c = false) one_one /\ run w_init one_one = Ret w /\
  finite (u_n x) /\ real_of (u_n x) = 1 /\ coefs x = [dofZ 1].
Proof. exact one_one_case. Qed.
Example C70_forward_case : let h := real_of step1 in let P := near 1 (2 * h) in let err := forward_err 1 h 2 2 (2 * uround) in
  good_step 1 step1 /\ computes P (2 * uround) (fun t => dmul t t) (fun t => t * t) /\
  derivs_on P (fun t => t * t) [fun t => 2 * t; fun _ => 2] /\ bounded_on P (fun _ => 2) 2 /\
  forward_size h 2 2 (2 * uround) /\ err <= / 3 * Rabs 2 /\ err <= / 8388608 /\
  List.Forall (fun c => finite c /\ (real_of c = 0 \/ pow2 (-500) <= Rabs (2 * real_of c))) [dofZ 1] /\
  2 * 2 * sum_sq [dofZ 1] <= pow2 1000.
Proof. exact forward_case. Qed.
(** The same with the default step for second derivatives. *)
Example C70_central_case : let h := real_of step2 in let P := near 1 (2 * h) in
  good_step 1 step2 /\ computes P (2 * uround) (fun t => dmul t t) (fun t => t * t) /\
  derivs_on P (fun t => t * t) [fun t => 2 * t; fun _ => 2; fun _ => 0; fun _ => 0] /\ bounded_on P (fun _ => 0) 0 /\
  central_size1 h 2 2 0 (2 * uround) /\ central_size2 h 1 2 2 0 0 (2 * uround) /\
  central_err1 1 h 2 2 0 (2 * uround) <= / 68719476736 /\ central_err2 1 h 1 2 2 0 0 (2 * uround) <= / 4194304.
Proof. exact central_case. Qed.
(** The product of two variables with mean 1. *)
Example C70_two_case : let h := real_of step2 in let P := near 1 (2 * h) in
  computes2 P P (2 * uround) (fun s t => dmul s t) (fun s t => s * t) /\
  derivs_on P (fun t => t * 1) [fun _ => 1; fun _ => 0; fun _ => 0; fun _ => 0] /\
  derivs_on P (fun t => 1 * t) [fun _ => 1; fun _ => 0; fun _ => 0; fun _ => 0] /\ bounded_on P (fun _ => 0) 0 /\
  (forall s t, P s -> P t -> is_derive (fun s => s * t) s t) /\ (forall s t, P s -> P t -> is_derive (fun t => t) t 1) /\
  (forall s t, P s -> P t -> Rabs (1 - 1) <= 0) /\ (forall s t, P s -> P t -> Rabs (s * t) <= 2) /\
  central_size1 h 1 0 0 (2 * uround) /\ central_size2 h (1 * 1) 1 0 0 0 (2 * uround) /\ mixed_size h 2 1 0 (2 * uround) /\
  mixed_err 1 1 h 2 1 0 (2 * uround) <= / 2097152.
Proof. exact product_case. Qed.

(** ** C70 *)
@C70_default_step
@C70_forward
@C70_deviation
@C70_forward_two
@C70_second_forward
@C70_second_forward_two
@C70_central
@C70_central_two
@C70_step_lost
@C70_large_mean_refuted
