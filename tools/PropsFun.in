(** * PropsFun: the function factories of functions.hpp (C24)

    Generated from tools/PropsFun.in.  The predicates are in SpecFun.v. *)

From Coq Require Import List ZArith Bool Reals Lra Lia.
From Coquelicot Require Import Coquelicot.
From Verif Require Import Base Num Map UReal World SpecObs HessGrad UReal2 World2 SpecU2 SpecU2Run SpecMath2 SpecFun Functions Demo Demo2 Math2Proofs FunProofs FunProofs2.
Import ListNotations.
Local Open Scope R_scope.

(** Variables with nonzero mean and uncertainty exist. *)
Example fun_case : exists w, reachable w /\ u_n (w_var w 1%nat) <> 0 /\ u_s (w_var w 1%nat) <> 0.
Proof.
  destruct demo_world as (w & Hw & _ & _ & _ & E1 & _ & _ & _ & E2 & _). exists w. split; [exact Hw|]. split; [exact E2|]. rewrite E1. lra.
Qed.
Example fun2_case : forall a b : R, exists w, reachable2 no_eig w /\
  u2_first_order_n (w2_var w 0%nat) = a /\ j_g (jet_of (w2_var w 0%nat)) 1%Z = 1 /\
  u2_first_order_n (w2_var w 1%nat) = b /\ j_g (jet_of (w2_var w 1%nat)) 2%Z = 2 /\
  single (jet_of (w2_var w 0%nat)) /\ single (jet_of (w2_var w 1%nat)).
Proof.
  intros a b. destruct (reach2_3 a 1 b 2 0) as (w & Hw & E0 & E1 & _); [lra|lra|].
  exists w. rewrite E0, E1. split; [exact Hw|]. do 4 (split; [reflexivity|]).
  split; intros i j; cbn; intuition congruence.
Qed.

(** ** C24 *)
@C24_explicit_derivatives
@C24_forward_error
Example C24_forward_case : forall a, derivs_on (near a (/ 2)) exp [exp; exp] /\ bounded_on (near a (/ 2)) exp (exp (a + 1)).
Proof.
  intro a. split; [|apply exp_bounded; rewrite Rabs_pos_eq; lra].
  destruct (exp_derivs (near a (/ 2))) as (D1 & D2 & _). split; [exact D1|]. split; [exact D2|exact I].
Qed.
@C24_forward_second_error
@C24_central_error
Example C24_central_case : forall a b s, s <> 0 ->
  derivs_on (near a s) exp [exp; exp; exp; exp] /\ bounded_on (near a s) exp (exp (a + Rabs s)) /\
  exists M3 M4 fx fy fxx fyy fxy x1 x2 x3 x4 y1 y2 y3 y4 z1 z2 z3 z4, let f := fun s t => exp (s + t) in
  fxy <> 0 /\ twice_differentiable f a b fx fy fxx fyy fxy /\
  derivs_on (near a s) (fun t => f t b) [x1; x2; x3; x4] /\ bounded_on (near a s) x3 M3 /\ bounded_on (near a s) x4 M4 /\
  derivs_on (near b s) (fun t => f a t) [y1; y2; y3; y4] /\ bounded_on (near b s) y3 M3 /\ bounded_on (near b s) y4 M4 /\
  derivs_on (near 0 s) (fun t => f (a + t) (b + t)) [z1; z2; z3; z4] /\ bounded_on (near 0 s) z4 M4.
Proof.
  intros a b s Hs. split; [apply exp_derivs|]. split; [apply exp_bounded; lra|]. now apply exp2_case.
Qed.
@C24_exact_on_polynomials
@C24_convergence
@C24_default_step
