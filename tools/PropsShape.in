(** * PropsShape: deviation, skewness, kurtosis and correlation of UReal2 on doubles (C82)

    Generated from tools/PropsShape.in. *)

From Coq Require Import List ZArith Bool Reals Lra Lia.
From Flocq Require Import Core BinarySingleNaN.
From Verif Require Import Base Num Map UReal World HessGrad Moments CheckMoments UReal2 World2 SpecObs SpecU2 SpecU2Run SpecCast SpecProb SpecMom
  Ieee SpecIeee SpecAcc2 SpecShape ShapeAcc ShapeAcc2 DemoAcc2 DemoShape.
Import ListNotations.
Local Open Scope R_scope.

(** ** C82 *)
@C82_moments_exist
@C82_deviation_partial
@C82_correlation_partial
@C82_linear
@C82_deviation_refuted
(** x = 3 +- 2, y = 5 +- 1 with the moments of exponential variables; z = x y x. *)
Example C82_case : let x := w2_var acc_world 3%nat in legal2 acc_demo /\ run2 no_eig w2_init acc_demo = Ret acc_world /\ ordinary x /\
  exact_moment x 2 11825 (merr x 2 12625) /\ exact_moment x 3 7161906 (merr x 3 8644906) /\ exact_moment x 4 8809708905 (merr x 4 10133253865) /\
  conditioned 11825 (merr x 2 12625) /\
  Rabs 7161906 + merr x 3 8644906 <= pow2 1000 * (sqrt 11825 * 11825) /\ Rabs 8809708905 + merr x 4 10133253865 <= pow2 1000 * (11825 * 11825).
Proof.
  cbv zeta. split; [exact acc_demo_legal|]. split; [exact acc_demo_run|]. split; [exact z_ordinary|].
  destruct z_moments as (A & B & C). destruct z_case as (D & E & F). auto 10.
Qed.
