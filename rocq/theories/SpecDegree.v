(** * SpecDegree: the degree of a program of sums, differences and products, for C90 *)

From Coq Require Import List ZArith Reals.
From Verif Require Import Base Num UReal World HessGrad Moments UReal2 World2.
Import ListNotations.

(** Constructions, copies, sums, differences, products and changes of sign. *)
Definition ring_call (c : call2 RN) : Prop :=
  match c with EUnary _ _ _ _ _ | EBinary _ _ _ _ _ _ _ _ _ | EDiv _ _ _ => False | _ => True end.
(** A bound on the degree of each variable of type UReal2, as a polynomial of the independent variables. *)
Definition deg_set (g : nat -> nat) (v d : nat) : nat -> nat := fun u => if Nat.eqb u v then d else g u.
Definition deg_call (g : nat -> nat) (c : call2 RN) : nat -> nat :=
  match c with
  | ENew v _ _ _ | ENewStd v _ _ _ _ => deg_set g v 1
  | EConst v _ | EDefault v => deg_set g v 0
  | ECopy v x | ENeg v x => deg_set g v (g x)
  | EAdd v x y | ESub v x y => deg_set g v (Nat.max (g x) (g y))
  | EMul v x y => deg_set g v (g x + g y)
  | _ => g
  end.
Definition degree (cs : list (call2 RN)) : nat -> nat := fold_left deg_call cs (fun _ => 0).
