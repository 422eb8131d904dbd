(** * PropsTrue: distance between propagated and true means, deviations and covariances (C90)

    Generated from tools/PropsTrue.in. *)

From Coq Require Import List ZArith Bool Reals Lra Lia.
From Coquelicot Require Import Coquelicot.
From Verif Require Import Base Num Map UReal World HessGrad Moments CheckMoments UReal2 World2 SpecLin SpecObs SpecAD SpecU2 SpecU2Run SpecProb SpecMom
  SpecMath2 SpecOrder SpecAD2 Demo2 Demo3 SpecTrue TrueProofs TrueProofs2 TrueDemo SpecAffine TrueAffine SpecDegree TrueQuad.
Import ListNotations.
Local Open Scope R_scope.

(** ** C90: let the independent variables be random, uncorrelated, with the given means and deviations, and let [Y] be
    what the program computes from their values.  If on the way from the means to the values the second derivative of the
    program does not exceed [B], then n() differs from the mean of [Y] by at most half of the mean of [B], and s() from the
    standard deviation of [Y] by at most half of the root mean square of [B]. *)
@C90_first_order
@C90_first_order_covariance
(** The square of 3 +- 1/2, for a fair coin: s() is within 1/4 of the deviation. *)
Example C90_case_square : let p := ad_run ad_init square_prog in
  List.Forall nary_ok square_prog /\ (count_new square_prog <= max_new)%nat /\ derivs_ok ad_init square_prog /\
  standardized coin (ad_last p) (fun _ => toss) /\ with_products coin /\
  (forall o : bool, bends 2 (fun t => ad_fun p 1%nat (part_way (ad_mean p) (ad_sd p) (fun _ => toss o) t)) (1 / 2)) /\
  (forall f : bool -> R, finite_variance coin f) /\
  rms coin (fun _ => 1 / 2) = 1 / 2.
Proof. exact square_case. Qed.
(** Sums, differences and products with numbers: the mean, the deviation and the covariances are exactly those of what the
    program computes, whatever the distributions. *)
@C90_affine_exact
Example C90_case_affine : let p := ad_run ad_init affine_prog in
  List.Forall nary_ok affine_prog /\ (count_new affine_prog <= max_new)%nat /\ derivs_ok ad_init affine_prog /\
  affine_run ad_init affine_prog /\ standardized coin (ad_last p) (fun _ => toss) /\ with_products coin.
Proof. exact affine_case. Qed.
(** For UReal2, with third derivatives and a sixth: the mean with its correction, and the deviation.  What is missing: programs
    that take the second derivative of a function of several variables. *)
@C90_second_order_partial
@C90_second_order_covariance_partial
(** The cube of 1 +- 1/2. *)
Example C90_case_cube : let p := ad2_run ad_init cube_prog in
  legal2 cube_prog /\ accepted no_eig w2_init cube_prog /\ covered_run no_eig w2_init cube_prog /\ derivs2_ok ad_init cube_prog /\
  independent coin [1%Z] (fun _ => toss) (fun _ => stdmom pm1) /\ with_products coin /\
  given no_eig w2_init cube_prog 1 = Some (1 / 2, pm1) /\
  (forall w, run2 no_eig w2_init cube_prog = Ret w -> involves_only (jet_of (w2_var w 1%nat)) [1%Z]) /\
  (forall o : bool, bends 3 (fun t => ad_fun p 1%nat (part_way (ad_mean p) (ad_sd p) (fun _ => toss o) t)) (3 / 4)).
Proof. exact cube_case. Qed.
(** Programs of sums, differences and products of degree at most two: the mean, the moments up to the fourth, the deviation
    and the covariances are exactly those of what the program computes. *)
@C90_polynomials_exact
(** More generally if along every line from the means the program is a polynomial of degree two.  What is missing: programs that
    take the second derivative of a function of several variables. *)
@C90_quadratic_exact_partial
Example C90_case_polynomial :
  legal2 quad_prog /\ accepted no_eig w2_init quad_prog /\ List.Forall ring_call quad_prog /\ degree quad_prog 3%nat = 2%nat /\
  independent coin [1%Z] (fun _ => toss) (fun _ => stdmom pm1) /\
  given no_eig w2_init quad_prog 1 = Some (1 / 2, pm1) /\
  (forall w, run2 no_eig w2_init quad_prog = Ret w -> involves_only (jet_of (w2_var w 3%nat)) [1%Z]).
Proof. exact quad_case. Qed.
(** Not so for (a + b)^2, a polynomial of degree two: the deviation is 2 and the library says 0. *)
@C90_second_order_refuted
