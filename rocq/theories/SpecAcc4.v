(** * SpecAcc4: programs on UReal<double> made of +, - and *, and their exact counterparts (C83) *)

From Coq Require Import List ZArith Bool Reals.
From Flocq Require Import Core BinarySingleNaN.
From Verif Require Import Base Num Map UReal World Ieee SpecIeee SpecAcc2 SpecAcc3.
Import ListNotations.
Local Open Scope R_scope.

(** Programs that create variables with a deviation which is not negative, copy them, change
    their mean, apply +, -, * and the compound assignments to them, and ask for deviations and
    variances (which the variables store). *)
Definition upoly (k : call DN) : Prop :=
  match k with
  | CNew _ _ s => nltb (n := DN) s n0 = false
  | CConst _ _ | CDefault _ | CCopy _ _ | CChangeNom _ _ _ | CNeg _ _ | CAdd _ _ _ | CSub _ _ _ | CMul _ _ _
  | CAddA _ _ | CSubA _ _ | CMulA _ _ | CS _ | CVar _ => True
  | _ => False
  end.

(** The same program on another numeric type. *)
Definition ucall_on (M : Num) (c : DN -> M) (k : call DN) : call M :=
  match k with
  | CNew v n s => CNew v (c n) (c s)
  | CConst v n => CConst v (c n)
  | CDefault v => CDefault v
  | CCopy v x => CCopy v x
  | CChangeNom v x n => CChangeNom v x (c n)
  | CNeg v x => CNeg v x
  | CAdd v x y => CAdd v x y
  | CSub v x y => CSub v x y
  | CMul v x y => CMul v x y
  | CAddA v x => CAddA v x
  | CSubA v x => CSubA v x
  | CMulA v x => CMulA v x
  | CS v => CS v
  | CVar v => CVar v
  | _ => CDefault 0
  end.
Definition exact_ucall : call DN -> call RN := ucall_on RN real_of.

(** The magnitudes of SpecAcc2, except that no number is ever found equal to another: the
    compound assignments omit the product with a derivative equal to 1, here it is counted. *)
Definition sizes (eta : R) : Num := {|
  T := R; n0 := n0 (n := mag eta); n1 := n1 (n := mag eta);
  nadd := nadd (n := mag eta); nsub := nsub (n := mag eta); nmul := nmul (n := mag eta); ndiv := ndiv (n := mag eta); nopp := nopp (n := mag eta);
  nltb := nltb (n := mag eta); nleb := nleb (n := mag eta); neqb := fun _ _ => false;
  nabs := nabs (n := mag eta); nsqrt := nsqrt (n := mag eta); nofZ := nofZ (n := mag eta) |}.
Definition sized_ucall (eta : R) : call DN -> call (sizes eta) := ucall_on (sizes eta) (fun d : double => Rabs (real_of d)).

(** Roundings in the numbers stored by the variables. *)
Definition urounded (f : nat -> nat) (c : call DN) : nat -> nat :=
  match c with
  | CNew v _ _ | CConst v _ | CDefault v => put f v 0
  | CCopy v x | CChangeNom v x _ => put f v (f x)
  | CNeg v x => put f v (f x + 1)
  | CAdd v x y | CSub v x y => put f v (Nat.max (f x) (f y) + 2)
  | CMul v x y => put f v (f x + f y + 2)
  | CAddA v x | CSubA v x => put f v (Nat.max (f v) (f x) + 2)
  | CMulA v x => put f v (f v + f x + 2)
  | _ => f
  end%nat.
Definition urounds (cs : list (call DN)) : nat -> nat := fold_left urounded cs (fun _ => 0%nat).

(** The coefficient of a variable on the independent variable [i]: 0 if there is none. *)
Definition coef_on {N : Num} (x : ureal N) (i : Z) : N :=
  if (0 <? uid x)%Z then (if (i =? uid x)%Z then usdev x else n0)
  else if (uid x <? 0)%Z then mget n0 i (usigma x) else n0.

(** All the numbers of a variable multiplied by (1 + 2^-53)^k. *)
Definition inflate1 (eta : R) (k : nat) (x : ureal (sizes eta)) : ureal (sizes eta) :=
  u_convert (N := sizes eta) (M := sizes eta) (fun a : R => (1 + uround) ^ k * a) x.
