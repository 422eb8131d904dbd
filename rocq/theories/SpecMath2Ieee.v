(** * SpecMath2Ieee: accuracy of the functions of math.hpp on UReal2<double> *)

From Coq Require Import List ZArith Reals.
From Coquelicot Require Import Coquelicot.
From Flocq Require Import Core BinarySingleNaN.
From Verif Require Import Base Num Map UReal HessGrad UReal2 World2 SpecU2Run Ieee SpecIeee Nan Math Math2 SpecMath2 SpecMathIeee SpecAcc3.
Import ListNotations.
Local Open Scope R_scope.

(** Zero, or far from overflow and underflow. *)
Definition plain (r : R) : Prop := r = 0 \/ pow2 (-250) <= Rabs r <= pow2 250.

(** The independent variables [x] depends on. *)
Definition depends (x : ureal2 DN) (i : Z) : Prop := In i (map fst (diagmap (u2hg x))).

(** [m] computes [F] on doubles to second order, if the functions of <cmath> have relative error
    [e].  For every variable [x] a program can hold whose (first order) mean is in [dom], it returns a
    variable [z] whose mean is the one of <cmath>, which depends on the same independent variables; its first derivatives
    are those of the chain rule with the true derivative [d1] of [F], up to a relative
    error [k1 a * e]; and its second derivatives with respect to one
    independent variable are those of the chain rule with the true derivatives [d1] and [d2], up to [k2 a * e] relative to
    the sizes of the two terms.  (The derivatives stored by a variable are in units of the standard
    deviations, and the second ones are halved.) *)
Definition accurate1_2nd (m : cmath DN -> ureal2 DN -> outcome (ureal2 DN)) (dom : R -> R -> Prop) (F : R -> R) (k1 k2 : R -> R) : Prop :=
  forall M e, uround <= e <= pow2 (-20) -> accurate M e ->
  forall eig (w : world2 DN), reachable2 eig w ->
  forall v, let x := w2_var w v in let a := real_of (u2_first_order_n x) in
  finite (u2_first_order_n x) -> dom e a -> regular (F a) ->
  exists z d1 d2, m M x = Ret z /\ twice_derivable F a d1 d2 /\
    close e (u2_first_order_n z) (F a) /\
    (forall i, depends z i <-> depends x i) /\
    (regular d1 -> forall i, let g := real_of (grad_at x i) in
     finite (grad_at x i) -> regular (d1 * g) -> close (k1 a * e) (grad_at z i) (d1 * g)) /\
    (regular d1 -> regular d2 -> regular (d2 / 2) -> forall i,
     let g := real_of (grad_at x i) in let h := real_of (hess_at x i i) in
     finite (grad_at x i) -> finite (hess_at x i i) ->
     regular (d1 * h) -> regular (d2 / 2 * g) -> regular (d2 / 2 * g * g) -> Rabs (d1 * h) + Rabs (d2 / 2 * g * g) <= pow2 1021 ->
     finite (hess_at z i i) /\
     Rabs (real_of (hess_at z i i) - (d1 * h + d2 / 2 * g * g)) <= k2 a * e * (Rabs (d1 * h) + Rabs (d2 / 2 * g * g))).

(** The derivatives of [x] with respect to the independent variable [i] are zero or far from
    overflow and underflow. *)
Definition plain_at (x : ureal2 DN) (i : Z) : Prop :=
  finite (grad_at x i) /\ plain (real_of (grad_at x i)) /\ finite (hess_at x i i) /\ plain (real_of (hess_at x i i)).

(** The same for a function of two variables.  [sxx], [syy] and [sxy] are the sizes of the terms from which the second derivatives
    are computed; they are the second derivatives themselves if there is no cancellation. *)
Definition accurate2_2nd (m : cmath DN -> ureal2 DN -> ureal2 DN -> outcome (ureal2 DN)) (dom : R -> R -> R -> Prop) (F : R -> R -> R)
  (sxx syy sxy : R -> R -> R) (k0 k1 k2 : R) : Prop :=
  forall M e, uround <= e <= pow2 (-20) -> accurate M e ->
  forall eig (w : world2 DN), reachable2 eig w ->
  forall u v, let x := w2_var w u in let y := w2_var w v in
  let a := real_of (u2_first_order_n x) in let b := real_of (u2_first_order_n y) in
  finite (u2_first_order_n x) -> finite (u2_first_order_n y) -> dom e a b -> regular (F a b) ->
  exists z dx dy dxx dyy dxy, m M x y = Ret z /\ twice_differentiable F a b dx dy dxx dyy dxy /\
    close (k0 * e) (u2_first_order_n z) (F a b) /\
    (forall i, depends z i <-> depends x i \/ depends y i) /\
    (plain dx -> plain dy -> plain (sxx a b) -> plain (syy a b) -> plain (sxy a b) ->
     forall i, plain_at x i -> plain_at y i ->
     let gx := real_of (grad_at x i) in let gy := real_of (grad_at y i) in
     let hx := real_of (hess_at x i i) in let hy := real_of (hess_at y i i) in
     finite (grad_at z i) /\
     Rabs (real_of (grad_at z i) - (dx * gx + dy * gy)) <= k1 * e * (Rabs (dx * gx) + Rabs (dy * gy)) /\
     finite (hess_at z i i) /\
     Rabs (real_of (hess_at z i i) - (dx * hx + dy * hy + dxx / 2 * (gx * gx) + dyy / 2 * (gy * gy) + dxy * (gx * gy))) <=
       k2 * e * (Rabs (dx * hx) + Rabs (dy * hy) + sxx a b / 2 * (gx * gx) + syy a b / 2 * (gy * gy) + sxy a b * Rabs (gx * gy))).
