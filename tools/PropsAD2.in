(** * PropsAD2: whole programs on UReal2 and Taylor polynomials (C60)

    Generated from tools/PropsAD2.in. *)

From Coq Require Import List ZArith Reals Bool Lra Lia.
From Coquelicot Require Import Coquelicot.
From Verif Require Import Base Num Map UReal World SpecLin SpecAD SpecObs HessGrad Moments CheckMoments UReal2 World2 SpecU2 SpecU2Run SpecProb SpecMom
  SpecMath2 SpecOrder SpecAD2 ADProofs2 Demo2 OrderDemo ADDemo2.
Import ListNotations.
Local Open Scope R_scope.

(** ** C60: a program on UReal2 computes the Taylor polynomial of degree two of the
    function the program is, and the moments of that polynomial. *)
@C60_second_order_taylor_partial
@C60_moments_of_the_taylor_polynomial_partial
@C60_covariance_of_the_taylor_polynomials_partial
(** Two variables, a UReal, a product and a quotient meet the hypotheses. *)
Example C60_case : legal2 ord3 /\ accepted no_eig w2_init ord3 /\ covered_run no_eig w2_init ord3 /\ derivs2_ok ad_init ord3 /\
  ad_fun (ad2_run ad_init ord3) 3%nat = (fun e => e 1%Z / e 2%Z).
Proof.
  split; [exact ord3_legal|]. split; [exact ord3_accepted|]. split; [exact ord3_covered|]. split; [exact ord3_derivs|exact ord3_value].
Qed.
(** Not so for x + x^2 at x = a*b + c. *)
@C60_second_order_taylor_refuted
