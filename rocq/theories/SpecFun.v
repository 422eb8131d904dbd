(** * SpecFun: what the function factories of functions.hpp are compared to *)

From Coq Require Import List ZArith Reals.
From Coquelicot Require Import Coquelicot.
From Verif Require Import Base Num UReal World SpecObs HessGrad UReal2 World2 SpecU2 SpecU2Run SpecMath2.
Import ListNotations.
Local Open Scope R_scope.

(** [z] has mean [m] and follows [x] with slope [d]. *)
Definition follows1 (w : world RN) (x z : ureal RN) (m d : R) : Prop :=
  u_n z = m /\ u_s z = Rabs d * u_s x /\
  (forall t, u_cov z (w_var w t) = d * u_cov x (w_var w t)) /\
  (forall t, reachable (w_set w t z)).
Definition follows2 (w : world RN) (x y z : ureal RN) (m dx dy : R) : Prop :=
  u_n z = m /\
  u_var z = dx * dx * u_var x + 2 * dx * dy * u_cov x y + dy * dy * u_var y /\
  (forall t, u_cov z (w_var w t) = dx * u_cov x (w_var w t) + dy * u_cov y (w_var w t)) /\
  (forall t, reachable (w_set w t z)).
(** The same for UReal2, to second order (the mixed second derivatives subject to the
    restriction of C27). *)
Definition follows1_2nd eig (w : world2 RN) (x z : ureal2 RN) (m d1 d2 : R) : Prop :=
  jet_eq_diag (jet_of z) (jet_unary (jet_of x) m d1 d2) /\
  (d2 = 0 \/ single (jet_of x) -> jet_eq (jet_of z) (jet_unary (jet_of x) m d1 d2)) /\
  (forall t, reachable2 eig (w2_set w t z)).
Definition follows2_2nd eig (w : world2 RN) (x y z : ureal2 RN) (m dx dy dxx dyy dxy : R) : Prop :=
  jet_eq_diag (jet_of z) (jet_binary (jet_of x) (jet_of y) m dx dy dxx dyy dxy) /\
  (dxx = 0 \/ single (jet_of x) -> dyy = 0 \/ single (jet_of y) ->
   jet_eq (jet_of z) (jet_binary (jet_of x) (jet_of y) m dx dy dxx dyy dxy)) /\
  (forall t, reachable2 eig (w2_set w t z)).

(** The points at distance at most [step] from [a]. *)
Definition near (a step t : R) : Prop := Rabs (t - a) <= Rabs step.
(** [l] are the first, second... derivatives of [f] at the points of [P]. *)
Fixpoint derivs_on (P : R -> Prop) (f : R -> R) (l : list (R -> R)) : Prop :=
  match l with
  | [] => True
  | f1 :: l' => (forall t : R, P t -> is_derive f t (f1 t)) /\ derivs_on P f1 l'
  end.
Definition bounded_on (P : R -> Prop) (f : R -> R) (M : R) : Prop := forall t, P t -> Rabs (f t) <= M.
