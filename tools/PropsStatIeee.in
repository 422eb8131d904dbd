(** * PropsStatIeee: matrices of covariances and correlations on doubles (C81)

    Generated from tools/PropsStatIeee.in. *)

From Coq Require Import List ZArith Bool Reals Lra Lia.
From Flocq Require Import Core BinarySingleNaN.
From Verif Require Import Base Num Map UReal World Sums Stat Stat2 HessGrad Moments CheckMoments UReal2 World2 SpecObs SpecU2 SpecU2Run
  Ieee IeeeFacts IoAcc1 SpecIeee SpecIeee2 IeeeProofs5 SpecAcc2 SpecStatIeee DemoAcc2 StatAcc StatAcc2 StatAcc3.
Import ListNotations.
Local Open Scope R_scope.

(** ** C81 *)
@C81_cov_matrix
@C81_positive_partial
@C81_positive_refuted
@C81_corr_matrix
@C81_corr2cov_partial
@C81_corr2cov_refuted
@C81_second_order_matrix_partial
@C81_second_order_symmetric_refuted
(** x = 0 +- 67108865 and 3 x, on UReal; z = x y x and s = x + y of exponential variables, on UReal2. *)
Example C81_case : dlegal triple /\ List.Forall (fun c => self_assign c = false) triple /\ run w_init triple = Ret (after triple) /\
  (forall u, In u [0%nat; 2%nat] -> regular_dev (w_var (after triple) u)) /\
  legal2 acc_demo /\ run2 no_eig w2_init acc_demo = Ret acc_world /\ forall u, In u [3%nat; 4%nat] -> ordinary (w2_var acc_world u).
Proof.
  split; [exact triple_legal|]. split; [repeat constructor|]. split; [exact triple_run|]. split; [exact triple_regular|].
  split; [exact acc_demo_legal|]. split; [exact acc_demo_run|]. intros u [<-|[<-|[]]]; [exact z_ordinary|exact s_ordinary].
Qed.
