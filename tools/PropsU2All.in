(** * PropsU2All: the function all of UReal2 (C71)

    Generated from tools/PropsU2All.in. *)

From Coq Require Import List ZArith Bool Reals Lra Lia.
From Verif Require Import Base Num Map UReal World HessGrad Moments CheckMoments UReal2 World2 SpecU2 SpecU2Run Demo Demo2 U2All.
Import ListNotations.
Local Open Scope R_scope.

(** ** C71: [all] with a predicate holds if and only if it holds of the mean and of every coefficient. *)
@C71_all
@C71_coefficients
@C71_new_variable
(** A predicate true of zero and false of the deviation of the first variable. *)
Example C71_case : below_one 0 = true /\ exists w, reachable2 no_eig w /\
  u2_all below_one (w2_var w 0%nat) = Ret false.
Proof. exact below_one_case. Qed.
