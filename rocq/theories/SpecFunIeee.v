(** * SpecFunIeee: numerical derivatives on doubles *)

From Coq Require Import List ZArith Reals.
From Coquelicot Require Import Coquelicot.
From Verif Require Import Base Num UReal World Ieee SpecIeee SpecFun.
Import ListNotations.
Local Open Scope R_scope.

(** The function [f] on doubles computes the real function [F] at the points of [P], with error at
    most [del]. *)
Definition computes (P : R -> Prop) (del : R) (f : double -> double) (F : R -> R) : Prop :=
  forall t, finite t -> P (real_of t) -> finite (f t) /\ Rabs (real_of (f t) - F (real_of t)) <= del.
(** The same, along the two lines through a point. *)
Definition computes_x (P : R -> Prop) (del : R) (f : double -> double -> double) (F : R -> R -> R) (my : double) : Prop :=
  computes P del (fun t => f t my) (fun t => F t (real_of my)).
Definition computes_y (P : R -> Prop) (del : R) (f : double -> double -> double) (F : R -> R -> R) (mx : double) : Prop :=
  computes P del (fun t => f mx t) (fun t => F (real_of mx) t).

(** A step which can be used at the point [a]: positive, and not so small that adding it to [a] loses
    it to rounding. *)
Definition good_step (a : R) (step : double) : Prop :=
  finite step /\ pow2 (-240) <= real_of step <= pow2 240 /\ Rabs a <= pow2 50 * real_of step.
(** The relative error of the step actually taken from [a] to [a + h]. *)
Definition step_err (a h : R) : R := uround * (Rabs a / h + 1).

(** Error of a forward difference: step actually taken and roundings (times the derivative [d1]), curvature
    [M], error [del] of the values, underflow. *)
Definition forward_err (a h d1 M del : R) : R :=
  (step_err a h + 3 * uround) * Rabs d1 + M * h + 3 * del / h + pow2 (-1074).
(** Error of a central difference for the first derivative. *)
Definition central_err1 (a h d1 d2 M3 del : R) : R :=
  (step_err a h + 3 * uround) * Rabs d1 + 2 * step_err a h * h * Rabs d2 + M3 * h * h / 2 + 2 * del / h + pow2 (-1074).
(** Error of a central difference for the second derivative; [v] is the value of the function. *)
Definition central_err2 (a h v d1 d2 d3 M4 del : R) : R :=
  (3 * step_err a h + 8 * uround) * Rabs d2 + 3 * step_err a h * Rabs d1 / h + 2 * step_err a h * h * Rabs d3 +
  M4 * h * h / 4 + (5 * del + 3 * uround * Rabs v) / (h * h) + pow2 (-1073).

(** Sizes for which nothing overflows. *)
Definition forward_size (h d1 M del : R) : Prop := Rabs d1 + M * h + 3 * del / h <= pow2 490.
Definition central_size1 (h d1 d2 M3 del : R) : Prop := Rabs d1 + h * Rabs d2 + M3 * h * h + 2 * del / h <= pow2 490.
Definition central_size2 (h v d1 d2 d3 M4 del : R) : Prop :=
  Rabs v + del <= pow2 480 /\ Rabs d2 + Rabs d1 / h + h * Rabs d3 + M4 * h * h + 4 * del / (h * h) <= pow2 490.

(** The function [f] computes [F] at the points of a rectangle. *)
Definition computes2 (P Q : R -> Prop) (del : R) (f : double -> double -> double) (F : R -> R -> R) : Prop :=
  forall s t, finite s -> finite t -> P (real_of s) -> Q (real_of t) ->
  finite (f s t) /\ Rabs (real_of (f s t) - F (real_of s) (real_of t)) <= del.
(** Error of the mixed difference; [V] bounds the function, [d] is the mixed derivative and [L] its variation
    in the rectangle. *)
Definition mixed_err (a b h V d L del : R) : R :=
  (2 * (step_err a h + step_err b h) + 8 * uround) * Rabs d + 2 * L + (5 * del + 9 * uround * V) / (h * h) + pow2 (-1074).
Definition mixed_size (h V d L del : R) : Prop := V + del <= pow2 480 /\ Rabs d + L + 4 * del / (h * h) <= pow2 490.
