(** * SpecU2Mixed2: how many times a mixed derivative is computed (C27) *)

From Coq Require Import List ZArith Reals.
From Verif Require Import Base Num Map HessGrad UReal2 World2 SpecU2 SpecU2Mixed.
Import ListNotations.

(** Number of recorded mixed derivatives with first variable [i]. *)
Definition row_length (x : ureal2 RN) (i : Z) : nat := length (filter (fun k => (fst k =? i)%Z) (map fst (trimap (u2hg x)))).

(** A function with pure second derivative [f2] computes the mixed derivative for [i] < [j] of
    its argument [x] [n] times: once for each recorded one if the second derivative is zero,
    otherwise once for each recorded one with first variable [i], but always for the variable
    following [i]. *)
Definition passes (f2 : R) (x : ureal2 RN) (i j : Z) (n : nat) : Prop :=
  (f2 = 0%R -> (recorded x i j -> n = 1%nat) /\ (~ recorded x i j -> n = 0%nat)) /\
  (f2 <> 0%R -> (follows (jet_of x) i j -> n = row_length x i) /\ (~ follows (jet_of x) i j -> n = 0%nat)).
