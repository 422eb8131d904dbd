(** * PropsDistrIeee: distribution factories on doubles (C77)

    Generated from tools/PropsDistrIeee.in. *)

From Coq Require Import List ZArith Bool Reals Lra Lia.
From Coquelicot Require Import Coquelicot.
From Flocq Require Import Core BinarySingleNaN.
From Verif Require Import Base Num Map UReal World HessGrad CheckMoments UReal2 Distr SpecObs Sums SpecProb SpecHankel SpecDistr
  Ieee SpecIeee SpecMathIeee SpecDistrIeee DistrAcc DistrAcc2 DemoDistr.
Import ListNotations.
Local Open Scope R_scope.

(** ** C77 *)
@C77_normal
@C77_chisquare
@C77_uniform
@C77_accepted
@C77_uniform_throws_refuted
@C77_uniform_mean_refuted
(** A solver accurate to 2^-50, and the interval [0, 1]. *)
Example C77_case : exists eig, solver_close (pow2 (-50)) eig /\ pow2 (-50) <= pow2 (-32) /\
  exists x, d_uniform (N := DN) eig 0 (dofZ 0) (dofZ 1) = (1%Z, Ret x).
Proof. exact uniform_case. Qed.
