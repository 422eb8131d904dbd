(** * SpecU2Mixed: which mixed second derivatives a value carries

    Vocabulary of the theorems that say exactly which mixed second derivatives
    survive the application of a function with non-zero second derivative (C27). *)

From Coq Require Import List ZArith Reals.
From Verif Require Import Base Num Map HessGrad UReal2 World2 SpecU2.
Import ListNotations.

(** The value has a recorded (possibly zero) mixed derivative for the pair [i] < [j];
    the others are implicitly zero. *)
Definition recorded (x : ureal2 RN) (i j : Z) : Prop := In (i, j) (map fst (trimap (u2hg x))).

(** [j] is the variable following [i] among those the value depends on, in order of
    creation. *)
Definition follows (x : jet) (i j : Z) : Prop :=
  j_dep x i /\ j_dep x j /\ (i < j)%Z /\ forall k, j_dep x k -> ~ (i < k < j)%Z.

(** Programs on UReal2 that only create variables, copy, negate, add and subtract. *)
Definition sums_only (c : call2 RN) : Prop :=
  match c with
  | EUnary _ _ _ _ _ | EBinary _ _ _ _ _ _ _ _ _ | EMul _ _ _ | EDiv _ _ _ => False
  | _ => True
  end.
