(** * PropsU2All: the function all of UReal2 (C71)

    Generated from tools/PropsU2All.in. *)

From Coq Require Import List ZArith Bool Reals Lra Lia.
From Verif Require Import Base Num Map UReal World HessGrad Moments CheckMoments UReal2 World2 SpecU2 SpecU2Run Demo Demo2 U2All.
Import ListNotations.
Local Open Scope R_scope.

(** ** C71: [all] with a predicate holds if and only if it holds of the mean and of every coefficient. *)
Theorem C71_all : forall (N : Num) (eig : list (list N) -> option (list N)),
  nltb (n0 : N) n0 = false -> forall w, reachable2 eig w -> forall (v : nat) (p : N -> bool),
  let x := w2_var w v in let h := u2hg x in
  exists b, u2_all p x = Ret b /\
    (b = true <->
       p (u2mu x) = true /\
       (forall i d, In (i, d) (diagmap h) -> p (dgrad d) = true /\ p (dhh d) = true) /\
       (forall i j a, In ((i, j), a) (trimap h) -> p a = true)).
Proof. exact C71_all_proof. Qed.
Print Assumptions C71_all.
Theorem C71_coefficients : forall eig (w : world2 RN), reachable2 eig w -> forall (v : nat) (p : RN -> bool), p 0 = true ->
  let x := w2_var w v in
  exists b, u2_all p x = Ret b /\
    (b = true <-> p (j_mean (jet_of x)) = true /\ (forall i, p (j_g (jet_of x) i) = true) /\
                  (forall i j, p (j_h (jet_of x) i j) = true)).
Proof. exact C71_coefficients_proof. Qed.
Print Assumptions C71_coefficients.
Theorem C71_new_variable : forall (N : Num) (eig : list (list N) -> option (list N)) last last' (n s : N) m thr x,
  u2_new_std eig last n s m thr = (last', Ret x) -> forall p : N -> bool,
  u2_all p x = Ret (p n && p s && p n0).
Proof. exact C71_new_variable_proof. Qed.
Print Assumptions C71_new_variable.
(** A predicate true of zero and false of the deviation of the first variable. *)
Example C71_case : below_one 0 = true /\ exists w, reachable2 no_eig w /\
  u2_all below_one (w2_var w 0%nat) = Ret false.
Proof. exact below_one_case. Qed.
