(** * SpecAcc3: polynomial programs on doubles and their exact counterparts *)

From Coq Require Import List ZArith Bool Reals.
From Flocq Require Import Core BinarySingleNaN.
From Verif Require Import Base Num Map UReal World HessGrad Moments CheckMoments UReal2 World2 SpecU2 Ieee SpecIeee SpecAcc2.
Import ListNotations.
Local Open Scope R_scope.

(** Programs on UReal2 that create variables from standardized moments without validation (a
    negative threshold) and with a deviation which is not negative, and apply +, - and * to them. *)
Definition polynomial (k : call2 DN) : Prop :=
  match k with
  | ENewStd _ _ s _ thr => nltb (n := DN) s n0 = false /\ nltb (n := DN) thr n0 = true
  | EConst _ _ | EDefault _ | ECopy _ _ | ENeg _ _ | EAdd _ _ _ | ESub _ _ _ | EMul _ _ _ => True
  | _ => False
  end.

(** The same program on another numeric type; [thr] is a negative threshold. *)
Definition call_on (M : Num) (c : DN -> M) (thr : M) (k : call2 DN) : call2 M :=
  match k with
  | ENewStd v n s m _ => ENewStd v (c n) (c s) (moms_convert (N := DN) (M := M) c m) thr
  | EConst v n => EConst v (c n)
  | EDefault v => EDefault v
  | ECopy v x => ECopy v x
  | ENeg v x => ENeg v x
  | EAdd v x y => EAdd v x y
  | ESub v x y => ESub v x y
  | EMul v x y => EMul v x y
  | _ => EDefault 0
  end.
(** On real numbers, and on magnitudes. *)
Definition exactly_call : call2 DN -> call2 RN := call_on RN real_of (-1).
Definition sized_call (eta : R) : call2 DN -> call2 (mag eta) := call_on (mag eta) (fun d : double => Rabs (real_of d)) (-1).

(** Roundings in the numbers stored by the variables. *)
Definition put (f : nat -> nat) (v k : nat) : nat -> nat := fun u => if Nat.eqb u v then k else f u.
Definition rounded (f : nat -> nat) (c : call2 DN) : nat -> nat :=
  match c with
  | ENewStd v _ _ _ _ | EConst v _ | EDefault v => put f v 0
  | ECopy v x => put f v (f x)
  | ENeg v x => put f v (f x + 1)
  | EAdd v x y | ESub v x y => put f v (Nat.max (f x) (f y) + 2)
  | EMul v x y => put f v (f x + f y + 4)
  | _ => f
  end%nat.
Definition rounds (cs : list (call2 DN)) : nat -> nat := fold_left rounded cs (fun _ => 0%nat).

(** What a variable stores: derivatives that are missing are 0. *)
Definition grad_at {N : Num} (x : ureal2 N) (i : Z) : N := dgrad (hg_diag_get (u2hg x) i).
Definition hess_at {N : Num} (x : ureal2 N) (i j : Z) : N :=
  if Z.eqb i j then dhh (hg_diag_get (u2hg x) i) else mget n0 (Z.min i j, Z.max i j) (trimap (u2hg x)).

(** All the numbers of a variable multiplied by (1 + 2^-53)^k. *)
Definition inflate (eta : R) (k : nat) (x : ureal2 (mag eta)) : ureal2 (mag eta) :=
  u2_convert (N := mag eta) (M := mag eta) (fun a : R => (1 + uround) ^ k * a) x.
