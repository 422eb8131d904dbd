(** * SpecRel: programs whose sums do not cancel, and relative errors (C87)

    Independent of the way UReal stores its numbers: the exact values are the linear forms of
    SpecLin. *)

From Coq Require Import List ZArith Bool Reals.
From Flocq Require Import Core BinarySingleNaN.
From Verif Require Import Base Num UReal World Sums SpecLin Ieee SpecIeee SpecMathIeee SpecAcc3 SpecAcc4.
Import ListNotations.
Local Open Scope R_scope.

(** The steps of a program: a call of UReal, or v = sqrt(x) of math.hpp. *)
Inductive step : Type :=
| Plain (c : call DN)
| Sqrt (v x : nat).
(** math.hpp 119-123: the value is sqrt(x.n()), the derivative 1 / (2 * sqrt(x.n())). *)
Definition call_of (s : step) : call DN :=
  match s with
  | Plain c => c
  | Sqrt v x => CUnary v x (nsqrt (n := DN)) (fun a => ndiv (n := DN) (nofZ 1) (nmul (n := DN) (nofZ 2) (nsqrt a)))
  end.
(** The same step on the real numbers. *)
Definition exact_step (s : step) : call RN :=
  match s with
  | Plain (CDiv v x y) => CDiv v x y
  | Plain (CDivA v x) => CDivA v x
  | Plain c => exact_ucall c
  | Sqrt v x => CUnary (N := RN) v x sqrt (fun m : R => / (2 * sqrt m))
  end.
Definition exact_steps (ss : list step) : sworld := spec_run s_init (map exact_step ss).

(** Two numbers added by the library have the same sign and their sum is no more than half the
    largest double. *)
Definition add_ok (a b : R) : Prop := 0 <= a * b /\ Rabs (a + b) <= pow2 1022.
(** v = x op y: neither the mean nor a coefficient is computed with cancellation, overflow or
    underflow. *)
Definition sum_ok (x y : lin) (sign : R) : Prop :=
  add_ok (l_mean x) (sign * l_mean y) /\ forall i, add_ok (l_coef x i) (sign * l_coef y i).
Definition terms_ok (x y : lin) (dx dy : R) : Prop :=
  forall i, regular (dx * l_coef x i) /\ regular (dy * l_coef y i) /\ add_ok (dx * l_coef x i) (dy * l_coef y i).
Definition mul_ok (x y : lin) : Prop :=
  regular (l_mean x * l_mean y) /\ terms_ok x y (l_mean y) (l_mean x).
Definition div_ok (x y : lin) : Prop :=
  l_mean y <> 0 /\ regular (/ l_mean y) /\ regular (l_mean x / l_mean y) /\ regular (- l_mean x / (l_mean y * l_mean y)) /\
  terms_ok x y (/ l_mean y) (- l_mean x / (l_mean y * l_mean y)).
Definition sqrt_ok (x : lin) : Prop :=
  0 < l_mean x /\ regular (sqrt (l_mean x)) /\ regular (2 * sqrt (l_mean x)) /\ regular (/ (2 * sqrt (l_mean x))) /\
  forall i, regular (/ (2 * sqrt (l_mean x)) * l_coef x i).
Definition tame (w : sworld) (s : step) : Prop :=
  let g := s_var w in
  match s with
  | Sqrt v x => sqrt_ok (g x)
  | Plain c =>
      match c with
      | CNew _ n s => finite n /\ finite s /\ 0 <= real_of s
      | CConst _ n | CChangeNom _ _ n => finite n
      | CDefault _ | CCopy _ _ | CNeg _ _ | CS _ | CVar _ => True
      | CAdd _ x y => sum_ok (g x) (g y) 1
      | CSub _ x y => sum_ok (g x) (g y) (-1)
      | CMul _ x y => mul_ok (g x) (g y)
      | CDiv _ x y => div_ok (g x) (g y)
      | CAddA v x => v <> x /\ sum_ok (g v) (g x) 1
      | CSubA v x => v <> x /\ sum_ok (g v) (g x) (-1)
      | CMulA v x => v <> x /\ mul_ok (g v) (g x)
      | CDivA v x => v <> x /\ div_ok (g v) (g x)
      | _ => False
      end
  end.

(** Roundings in the numbers of the variables. *)
Definition rel_rounded (f : nat -> nat) (s : step) : nat -> nat :=
  match s with
  | Sqrt v x => put f v (2 * f x + 4)
  | Plain c =>
      match c with
      | CNew v _ _ | CConst v _ | CDefault v => put f v 0
      | CCopy v x | CChangeNom v x _ | CNeg v x => put f v (f x)
      | CAdd v x y | CSub v x y => put f v (Nat.max (f x) (f y) + 1)
      | CAddA v x | CSubA v x => put f v (Nat.max (f v) (f x) + 1)
      | CMul v x y => put f v (f x + f y + 2)
      | CMulA v x => put f v (f v + f x + 2)
      | CDiv v x y => put f v (f x + 3 * f y + 6)
      | CDivA v x => put f v (f v + 3 * f x + 6)
      | _ => f
      end
  end%nat.
Definition rel_rounds (ss : list step) : nat -> nat := fold_left rel_rounded ss (fun _ => 0%nat).

(** Every step of the program is as above, and no variable ever has more than 900 roundings. *)
Fixpoint tame_from (w : sworld) (f : nat -> nat) (ss : list step) : Prop :=
  match ss with
  | [] => True
  | s :: ss' =>
      tame w s /\ (forall v, (rel_rounded f s v <= 900)%nat) /\ tame_from (spec_exec w (exact_step s)) (rel_rounded f s) ss'
  end.
Definition tame_program (ss : list step) : Prop := tame_from s_init (fun _ => 0%nat) ss.

(** [a] is [r] with [k] relative errors of at most 2^-53. *)
Definition relative (k : nat) (a : double) (r : R) : Prop :=
  finite a /\ exists t, real_of a = r * t /\ (1 - uround) ^ k <= t <= / (1 - uround) ^ k.
