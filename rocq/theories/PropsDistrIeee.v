(** * PropsDistrIeee: distribution factories on doubles (C77)

    Generated from tools/PropsDistrIeee.in. *)

From Coq Require Import List ZArith Bool Reals Lra Lia.
From Coquelicot Require Import Coquelicot.
From Flocq Require Import Core BinarySingleNaN.
From Verif Require Import Base Num Map UReal World HessGrad CheckMoments UReal2 Distr SpecObs Sums SpecProb SpecHankel SpecDistr
  Ieee SpecIeee SpecMathIeee SpecDistrIeee DistrAcc DistrAcc2 DemoDistr.
Import ListNotations.
Local Open Scope R_scope.

(** ** C77 *)
Theorem C77_normal : forall mu sigma : double, exists m : moms DN,
  (forall eig last, d_normal (N := DN) eig last mu sigma = u2_new_std (N := DN) eig last mu sigma m (dofZ 0)) /\
  (finite sigma -> 0 < real_of sigma ->
     parameters (normal_density (real_of mu) (real_of sigma)) minus_infinity plus_infinity (real_of mu) (real_of sigma) 0 0 sigma m).
Proof. exact C77_normal_proof. Qed.
Print Assumptions C77_normal.
Theorem C77_chisquare : forall k, (0 < k < 2 ^ 31)%Z -> exists (mu s : double) (m : moms DN),
  (forall eig last, d_chisquare (N := DN) eig last k = u2_new_std (N := DN) eig last mu s m (dofZ 0)) /\
  finite mu /\ real_of mu = IZR k /\
  parameters (chisquare_density (IZR k)) zero_plus plus_infinity (IZR k) (sqrt (2 * IZR k)) (4 * uround) (9 * uround) s m.
Proof. exact C77_chisquare_proof. Qed.
Print Assumptions C77_chisquare.
Theorem C77_uniform : forall left right : double, finite left -> finite right ->
  Rabs (real_of left) <= pow2 1020 -> Rabs (real_of right) <= pow2 1020 ->
  let l := real_of left in let r := real_of right in exists (mu s : double) (m : moms DN),
    (forall eig last, d_uniform (N := DN) eig last left right = u2_new_std (N := DN) eig last mu s m (dofZ 0)) /\
    finite mu /\ (l <= r -> l <= real_of mu <= r) /\
    Rabs (real_of mu - (l + r) / 2) <= uround * Rabs ((l + r) / 2) + pow2 (-1075) /\
    (l = r -> finite s /\ real_of s = 0) /\
    (pow2 (-1000) <= l - r -> forall eig last, d_uniform (N := DN) eig last left right = (last, Throw InvalidArgument)) /\
    (pow2 (-1000) <= r - l -> exists dev,
       parameters uniform_density (at_point l) (at_point r) ((l + r) / 2) dev (5 * uround) (2 * uround) s m).
Proof. exact C77_uniform_proof. Qed.
Print Assumptions C77_uniform.
Theorem C77_accepted : forall e eig last, e <= pow2 (-32) -> solver_close e eig ->
  (forall mu sigma : double, finite sigma -> 0 <= real_of sigma ->
     exists x, d_normal (N := DN) eig last mu sigma = (wrap32 (last + 1), Ret x)) /\
  (forall k, (0 < k < 2 ^ 31)%Z -> exists x, d_chisquare (N := DN) eig last k = (wrap32 (last + 1), Ret x)) /\
  (forall left right : double, finite left -> finite right -> Rabs (real_of left) <= pow2 1020 -> Rabs (real_of right) <= pow2 1020 ->
     real_of left <= real_of right -> exists x, d_uniform (N := DN) eig last left right = (wrap32 (last + 1), Ret x)).
Proof. exact C77_accepted_proof. Qed.
Print Assumptions C77_accepted.
Theorem C77_uniform_throws_refuted : exists left right : double, finite left /\ finite right /\ real_of right < real_of left /\
  forall eig last l x, d_uniform (N := DN) eig last (dofZ 0) (dofZ 1) = (l, Ret x) ->
    exists y, d_uniform (N := DN) eig last left right = (l, Ret y).
Proof. exact C77_uniform_throws_refuted_proof. Qed.
Print Assumptions C77_uniform_throws_refuted.
Theorem C77_uniform_mean_refuted : exists left right : double, finite left /\ finite right /\ 0 < real_of left < real_of right /\
  forall eig last l x, d_uniform (N := DN) eig last (dofZ 0) (dofZ 1) = (l, Ret x) ->
    exists y, d_uniform (N := DN) eig last left right = (l, Ret y) /\ ~ finite (u2_first_order_n (N := DN) y).
Proof. exact C77_uniform_mean_refuted_proof. Qed.
Print Assumptions C77_uniform_mean_refuted.
(** A solver accurate to 2^-50, and the interval [0, 1]. *)
Example C77_case : exists eig, solver_close (pow2 (-50)) eig /\ pow2 (-50) <= pow2 (-32) /\
  exists x, d_uniform (N := DN) eig 0 (dofZ 0) (dofZ 1) = (1%Z, Ret x).
Proof. exact uniform_case. Qed.
