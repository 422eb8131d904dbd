(** * SpecMath2: what it means that a library function on UReal2 computes a function *)

From Coq Require Import List ZArith Reals.
From Coquelicot Require Import Coquelicot.
From Verif Require Import Base Num UReal World HessGrad UReal2 World2 SpecU2 SpecU2Run Nan Math2.
Local Open Scope R_scope.

(** [f] has first derivative [d1] and second derivative [d2] at [a]. *)
Definition twice_derivable (f : R -> R) (a d1 d2 : R) : Prop :=
  exists f1 : R -> R, locally a (fun t : R => is_derive f t (f1 t)) /\ f1 a = d1 /\ is_derive f1 a d2.
(** The same for a function of two variables; [dxy] is the mixed derivative. *)
Definition twice_differentiable (f : R -> R -> R) (a b dx dy dxx dyy dxy : R) : Prop :=
  exists fx fy : R -> R -> R,
    locally_2d (fun u v => differentiable_pt_lim f u v (fx u v) (fy u v)) a b /\
    fx a b = dx /\ fy a b = dy /\
    differentiable_pt_lim fx a b dxx dxy /\ differentiable_pt_lim fy a b dxy dyy.

Definition w2_set (w : world2 RN) (t : nat) (z : ureal2 RN) : world2 RN :=
  mkW2 (w2_w w) (upd2 (w2_var w) t z).

(** [m] computes [f] on [dom] to second order: applied to any variable [x] a program can
    hold whose (first-order) mean is in [dom], it returns a variable [z] without
    non-numbers, the same as [unary] with the true value and the true first and second
    derivatives of [f]; [z] follows the chain rule with these derivatives (the mixed second
    derivatives subject to the restriction of C27); and the program can store [z] in any
    variable and go on. *)
Definition computes1_2nd (m : ureal2 FN -> outcome (ureal2 FN)) (dom : R -> Prop) (f : R -> R) : Prop :=
  forall eig w v, reachable2 eig w ->
  let x := w2_var w v in let a := u2_first_order_n x in dom a ->
  exists z d1 d2, m (lift2 x) = Ret (lift2 z) /\
    twice_derivable f a d1 d2 /\
    u2_unary x (f a : RN) (d1 : RN) (d2 : RN) = Ret z /\
    jet_eq_diag (jet_of z) (jet_unary (jet_of x) (f a) d1 d2) /\
    (d2 = 0 \/ single (jet_of x) -> jet_eq (jet_of z) (jet_unary (jet_of x) (f a) d1 d2)) /\
    (forall t, reachable2 eig (w2_set w t z)).

Definition computes2_2nd (m : ureal2 FN -> ureal2 FN -> outcome (ureal2 FN)) (dom : R -> R -> Prop)
  (f : R -> R -> R) : Prop :=
  forall eig w u v, reachable2 eig w ->
  let x := w2_var w u in let y := w2_var w v in
  let a := u2_first_order_n x in let b := u2_first_order_n y in dom a b ->
  exists z dx dy dxx dyy dxy, m (lift2 x) (lift2 y) = Ret (lift2 z) /\
    twice_differentiable f a b dx dy dxx dyy dxy /\
    u2_binary x y (f a b : RN) (dx : RN) (dy : RN) (dxx : RN) (dyy : RN) (dxy : RN) = Ret z /\
    jet_eq_diag (jet_of z) (jet_binary (jet_of x) (jet_of y) (f a b) dx dy dxx dyy dxy) /\
    (dxx = 0 \/ single (jet_of x) -> dyy = 0 \/ single (jet_of y) ->
     jet_eq (jet_of z) (jet_binary (jet_of x) (jet_of y) (f a b) dx dy dxx dyy dxy)) /\
    (forall t, reachable2 eig (w2_set w t z)).

(** A variable without non-numbers *)
Definition all_numbers2 (x : ureal2 FN) : Prop := exists x', x = lift2 x'.
