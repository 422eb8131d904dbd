(** * PropsAcc2: accuracy of the moments of UReal2 on doubles (C75)

    Generated from tools/PropsAcc2.in. *)

From Coq Require Import List ZArith Bool Reals Lra Lia.
From Flocq Require Import Core BinarySingleNaN.
From Verif Require Import Base Num Map UReal World HessGrad Moments CheckMoments UReal2 World2 SpecObs SpecU2 SpecU2Run SpecCast SpecProb SpecMom
  Ieee SpecIeee SpecAcc2 AccFinal DemoAcc2.
Import ListNotations.
Local Open Scope R_scope.

(** ** C75 *)
@C75_moments
@C75_mean
@C75_covariance
@C75_exact_moments
@C75_exact_covariance
@C75_no_overflow
@C75_linear_variance
(** x = 3 +- 2, y = 5 +- 1 with the moments of exponential variables; z = x y x has second
    derivatives, s = x + y has none. *)
Example C75_case : legal2 acc_demo /\ run2 no_eig w2_init acc_demo = Ret acc_world /\
  ordinary (w2_var acc_world 3%nat) /\ n_ids (w2_var acc_world 3%nat) = 2%nat /\ depth 2 2 = 17%nat /\
  ordinary (w2_var acc_world 4%nat) /\ (forall i j, j_h (jet_of (exactly (w2_var acc_world 4%nat))) i j = 0).
Proof.
  split; [exact acc_demo_legal|]. split; [exact acc_demo_run|]. split; [exact z_ordinary|]. split; [vm_compute; reflexivity|]. split; [reflexivity|].
  split; [exact s_ordinary|exact s_linear].
Qed.
