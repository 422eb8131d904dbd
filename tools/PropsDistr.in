(** * PropsDistr: distribution factories (C37, C38, C39)

    Generated from tools/PropsDistr.in. *)

From Coq Require Import List ZArith Bool Reals Lra Lia.
From Coquelicot Require Import Coquelicot.
From Verif Require Import Base Num Map UReal Stat World HessGrad Moments CheckMoments UReal2 World2 Distr Sums
  SpecProb SpecMom SpecHankel SpecDistr DistrProofs DistrProofs2 Demo3 Demo4.
Import ListNotations.
Local Open Scope R_scope.

(** ** C37 *)
@C37_normal
@C37_chisquare
@C37_uniform
@C37_queries
@C37_invalid_parameters
@C37_degenerate
(** Factories that return: a solver that accepts everything, three degrees of freedom. *)
Example C37_case : exists eig last l x, d_chisquare (N := RN) eig last 3 = (l, Ret x).
Proof.
  destruct solver_exists as [eig H]. destruct (C39_valid_parameters_accepted_proof eig 0 H) as (_ & K & _).
  destruct (K 3%Z ltac:(lia)) as [x Ex]. eauto.
Qed.

(** ** C38 *)
@C38_binomial_coefficients
@C38_central_moments
@C38_standardized_moments
(** The raw moments of a fair coin with values 0 and 1. *)
Example C38_case : (forall k, (k <= 8)%nat -> int coin (fun o => ((1 + toss o) / 2) ^ k)) /\ 
  0 < Ex coin (fun o => ((1 + toss o) / 2 - Ex coin (fun o => (1 + toss o) / 2)) ^ 2).
Proof. split; [intros; exact I|]. cbn. unfold toss. lra. Qed.

(** ** C39 *)
@C39_valid_parameters_accepted
Example C39_case : exists eig, solver_correct eig.
Proof. exact solver_exists. Qed.
