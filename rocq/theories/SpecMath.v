(** * SpecMath: what it means that a library function computes a mathematical function *)

From Coq Require Import List ZArith Reals.
From Coquelicot Require Import Coquelicot.
From Verif Require Import Base Num UReal World SpecObs Nan.
Local Open Scope R_scope.

(** [m] computes [f] on [dom]: applied to any variable [x] a program can hold whose mean
    is in [dom], it returns a variable [z] without non-numbers; its mean is [f] of the
    mean of [x]; its standard deviation and its covariance with every variable of the
    program follow [x] with the true derivative of [f]; and the program can store [z] in
    any variable and go on. *)
Definition computes1 (m : ureal FN -> ureal FN) (dom : R -> Prop) (f : R -> R) : Prop :=
  forall w v, reachable w -> let x := w_var w v in dom (u_n x) ->
  exists z d, m (lift x) = lift z /\
    is_derive f (u_n x) d /\
    u_n z = f (u_n x) /\
    u_s z = Rabs d * u_s x /\
    (forall t, u_cov z (w_var w t) = d * u_cov x (w_var w t)) /\
    (forall t, reachable (w_set w t z)).

(** The same for functions of two variables. *)
Definition computes2 (m : ureal FN -> ureal FN -> outcome (ureal FN)) (dom : R -> R -> Prop)
  (f : R -> R -> R) : Prop :=
  forall w u v, reachable w -> let x := w_var w u in let y := w_var w v in dom (u_n x) (u_n y) ->
  exists z dx dy, m (lift x) (lift y) = Ret (lift z) /\
    differentiable_pt_lim f (u_n x) (u_n y) dx dy /\
    u_n z = f (u_n x) (u_n y) /\
    u_var z = dx * dx * u_var x + 2 * dx * dy * u_cov x y + dy * dy * u_var y /\
    (forall t, u_cov z (w_var w t) = dx * u_cov x (w_var w t) + dy * u_cov y (w_var w t)) /\
    (forall t, reachable (w_set w t z)).

(** A variable without non-numbers *)
Definition all_numbers (x : ureal FN) : Prop := exists x', x = lift x'.
