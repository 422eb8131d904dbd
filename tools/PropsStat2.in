(** * PropsStat2: the matrices of UReal2 variables (C73)

    Generated from tools/PropsStat2.in. *)

From Coq Require Import List ZArith Bool Reals Lra Lia.
From Verif Require Import Base Num Map UReal World HessGrad Moments CheckMoments UReal2 World2 Sums SpecObs SpecU2 SpecU2Run
  SpecProb SpecMom Stat Stat2 Stat2Proofs Demo Demo2 Demo3 Demo3Stat.
Import ListNotations.
Local Open Scope R_scope.

(** ** C73 *)
@C73_matrices
@C73_positive
@C73_corr2cov
(** The history a = 0 +- 1; b = 0 +- 1; c = a + b with the moments of a fair coin, and the
    matrix of a and c. *)
Example C73_case : legal2 demo3 /\
  (forall i s m, given no_eig w2_init demo3 i = Some (s, m) -> s <> 0 -> realizable m) /\
  exists w, run2 no_eig w2_init demo3 = Ret w /\ reachable2 no_eig w /\
    cov_matrix2 (map (w2_var w) [0%nat; 2%nat]) = Ret [1; 1; 1; 2] /\
    forall u, In u [0%nat; 2%nat] -> exists s, u2_s (w2_var w u) = Ret s /\ s <> 0.
Proof.
  split; [exact demo3_legal|]. split; [exact demo3_realizable|].
  destruct demo3_stat as (w & E & V & S0 & S2). exists w. split; [exact E|].
  split; [exists demo3; split; [exact demo3_legal|exact E]|]. split; [exact V|].
  intros u [<-|[<-|[]]]; eexists; (split; [eassumption|]).
  - lra.
  - apply Rgt_not_eq. apply sqrt_lt_R0. lra.
Qed.
