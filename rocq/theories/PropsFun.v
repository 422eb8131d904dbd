(** * PropsFun: the function factories of functions.hpp (C24)

    Generated from tools/PropsFun.in.  The predicates are in SpecFun.v. *)

From Coq Require Import List ZArith Bool Reals Lra Lia.
From Coquelicot Require Import Coquelicot.
From Verif Require Import Base Num Map UReal World SpecObs HessGrad UReal2 World2 SpecU2 SpecU2Run SpecMath2 SpecFun Functions Demo Demo2 Math2Proofs FunProofs FunProofs2.
Import ListNotations.
Local Open Scope R_scope.

(** Variables with nonzero mean and uncertainty exist. *)
Example fun_case : exists w, reachable w /\ u_n (w_var w 1%nat) <> 0 /\ u_s (w_var w 1%nat) <> 0.
Proof.
  destruct demo_world as (w & Hw & _ & _ & _ & E1 & _ & _ & _ & E2 & _). exists w. split; [exact Hw|]. split; [exact E2|]. rewrite E1. lra.
Qed.
Example fun2_case : forall a b : R, exists w, reachable2 no_eig w /\
  u2_first_order_n (w2_var w 0%nat) = a /\ j_g (jet_of (w2_var w 0%nat)) 1%Z = 1 /\
  u2_first_order_n (w2_var w 1%nat) = b /\ j_g (jet_of (w2_var w 1%nat)) 2%Z = 2 /\
  single (jet_of (w2_var w 0%nat)) /\ single (jet_of (w2_var w 1%nat)).
Proof.
  intros a b. destruct (reach2_3 a 1 b 2 0) as (w & Hw & E0 & E1 & _); [lra|lra|].
  exists w. rewrite E0, E1. split; [exact Hw|]. do 4 (split; [reflexivity|]).
  split; intros i j; cbn; intuition congruence.
Qed.

(** ** C24 *)
Theorem C24_explicit_derivatives :
  (forall w v (f df : R -> R), reachable w -> let x := w_var w v in
   follows1 w x (uunary (N := RN) f df x) (f (u_n x)) (df (u_n x))) /\
  (forall w u v (f dfdx dfdy : R -> R -> R), reachable w -> let x := w_var w u in let y := w_var w v in
   exists z, ubinary (N := RN) f dfdx dfdy x y = Ret z /\
     follows2 w x y z (f (u_n x) (u_n y)) (dfdx (u_n x) (u_n y)) (dfdy (u_n x) (u_n y))) /\
  (forall eig w v (f df ddf : R -> R), reachable2 eig w -> let x := w2_var w v in let a := u2_first_order_n x in
   exists z, uunary2 (N := RN) f df ddf x = Ret z /\ follows1_2nd eig w x z (f a) (df a) (ddf a)) /\
  (forall eig w u v (f fx fy fxx fyy fxy : R -> R -> R), reachable2 eig w ->
   let x := w2_var w u in let y := w2_var w v in let a := u2_first_order_n x in let b := u2_first_order_n y in
   exists z, ubinary2 (N := RN) f fx fy fxx fyy fxy x y = Ret z /\
     follows2_2nd eig w x y z (f a b) (fx a b) (fy a b) (fxx a b) (fyy a b) (fxy a b)).
Proof. exact C24_explicit_derivatives_proof. Qed.
Print Assumptions C24_explicit_derivatives.
Theorem C24_forward_error :
  (forall w v (f f1 f2 : R -> R) step M, reachable w -> step <> 0 ->
   let x := w_var w v in let a := u_n x in
   derivs_on (near a step) f [f1; f2] -> bounded_on (near a step) f2 M ->
   exists d, follows1 w x (uunary_step (N := RN) f step x) (f a) d /\ Rabs (d - f1 a) <= M * Rabs step / 2) /\
  (forall w u v (f : R -> R -> R) (x1 x2 y1 y2 : R -> R) step M, reachable w -> step <> 0 ->
   let x := w_var w u in let y := w_var w v in let a := u_n x in let b := u_n y in
   derivs_on (near a step) (fun t => f t b) [x1; x2] -> bounded_on (near a step) x2 M ->
   derivs_on (near b step) (fun t => f a t) [y1; y2] -> bounded_on (near b step) y2 M ->
   exists z dx dy, ubinary_step (N := RN) f step x y = Ret z /\ follows2 w x y z (f a b) dx dy /\
     Rabs (dx - x1 a) <= M * Rabs step / 2 /\ Rabs (dy - y1 b) <= M * Rabs step / 2).
Proof. exact C24_forward_error_proof. Qed.
Print Assumptions C24_forward_error.
Example C24_forward_case : forall a, derivs_on (near a (/ 2)) exp [exp; exp] /\ bounded_on (near a (/ 2)) exp (exp (a + 1)).
Proof.
  intro a. split; [|apply exp_bounded; rewrite Rabs_pos_eq; lra].
  destruct (exp_derivs (near a (/ 2))) as (D1 & D2 & _). split; [exact D1|]. split; [exact D2|exact I].
Qed.
Theorem C24_forward_second_error :
  (forall eig w v (f df f2 f3 : R -> R) step M, reachable2 eig w -> step <> 0 ->
   let x := w2_var w v in let a := u2_first_order_n x in
   derivs_on (near a step) df [f2; f3] -> bounded_on (near a step) f3 M ->
   exists z d2, uunary2_deriv (N := RN) f df step x = Ret z /\ follows1_2nd eig w x z (f a) (df a) d2 /\
     Rabs (d2 - f2 a) <= M * Rabs step / 2) /\
  (forall eig w u v (f dfdx dfdy : R -> R -> R) (x2 x3 y2 y3 z2 z3 : R -> R) step M, reachable2 eig w -> step <> 0 ->
   let x := w2_var w u in let y := w2_var w v in let a := u2_first_order_n x in let b := u2_first_order_n y in
   derivs_on (near a step) (fun t => dfdx t b) [x2; x3] -> bounded_on (near a step) x3 M ->
   derivs_on (near b step) (fun t => dfdy a t) [y2; y3] -> bounded_on (near b step) y3 M ->
   derivs_on (near b step) (fun t => dfdx a t) [z2; z3] -> bounded_on (near b step) z3 M ->
   exists z dxx dyy dxy, ubinary2_deriv (N := RN) f dfdx dfdy step x y = Ret z /\
     follows2_2nd eig w x y z (f a b) (dfdx a b) (dfdy a b) dxx dyy dxy /\
     Rabs (dxx - x2 a) <= M * Rabs step / 2 /\ Rabs (dyy - y2 b) <= M * Rabs step / 2 /\
     Rabs (dxy - z2 b) <= M * Rabs step / 2).
Proof. exact C24_forward_second_error_proof. Qed.
Print Assumptions C24_forward_second_error.
Theorem C24_central_error :
  (forall eig w v (f f1 f2 f3 f4 : R -> R) step M3 M4, reachable2 eig w -> step <> 0 ->
   let x := w2_var w v in let a := u2_first_order_n x in
   derivs_on (near a step) f [f1; f2; f3; f4] -> bounded_on (near a step) f3 M3 -> bounded_on (near a step) f4 M4 ->
   exists z d1 d2, uunary2_step (N := RN) f step x = Ret z /\ follows1_2nd eig w x z (f a) d1 d2 /\
     Rabs (d1 - f1 a) <= M3 * step ^ 2 / 6 /\ Rabs (d2 - f2 a) <= M4 * step ^ 2 / 12) /\
  (forall eig w u v (f : R -> R -> R) fx fy fxx fyy fxy (x1 x2 x3 x4 y1 y2 y3 y4 z1 z2 z3 z4 : R -> R) step M3 M4,
   reachable2 eig w -> step <> 0 ->
   let x := w2_var w u in let y := w2_var w v in let a := u2_first_order_n x in let b := u2_first_order_n y in
   twice_differentiable f a b fx fy fxx fyy fxy ->
   derivs_on (near a step) (fun t => f t b) [x1; x2; x3; x4] ->
   bounded_on (near a step) x3 M3 -> bounded_on (near a step) x4 M4 ->
   derivs_on (near b step) (fun t => f a t) [y1; y2; y3; y4] ->
   bounded_on (near b step) y3 M3 -> bounded_on (near b step) y4 M4 ->
   derivs_on (near 0 step) (fun t => f (a + t) (b + t)) [z1; z2; z3; z4] -> bounded_on (near 0 step) z4 M4 ->
   exists z dx dy dxx dyy dxy, ubinary2_step (N := RN) f step x y = Ret z /\
     follows2_2nd eig w x y z (f a b) dx dy dxx dyy dxy /\
     Rabs (dx - fx) <= M3 * step ^ 2 / 6 /\ Rabs (dy - fy) <= M3 * step ^ 2 / 6 /\
     Rabs (dxx - fxx) <= M4 * step ^ 2 / 12 /\ Rabs (dyy - fyy) <= M4 * step ^ 2 / 12 /\
     Rabs (dxy - fxy) <= M4 * step ^ 2 / 8).
Proof. exact C24_central_error_proof. Qed.
Print Assumptions C24_central_error.
Example C24_central_case : forall a b s, s <> 0 ->
  derivs_on (near a s) exp [exp; exp; exp; exp] /\ bounded_on (near a s) exp (exp (a + Rabs s)) /\
  exists M3 M4 fx fy fxx fyy fxy x1 x2 x3 x4 y1 y2 y3 y4 z1 z2 z3 z4, let f := fun s t => exp (s + t) in
  fxy <> 0 /\ twice_differentiable f a b fx fy fxx fyy fxy /\
  derivs_on (near a s) (fun t => f t b) [x1; x2; x3; x4] /\ bounded_on (near a s) x3 M3 /\ bounded_on (near a s) x4 M4 /\
  derivs_on (near b s) (fun t => f a t) [y1; y2; y3; y4] /\ bounded_on (near b s) y3 M3 /\ bounded_on (near b s) y4 M4 /\
  derivs_on (near 0 s) (fun t => f (a + t) (b + t)) [z1; z2; z3; z4] /\ bounded_on (near 0 s) z4 M4.
Proof.
  intros a b s Hs. split; [apply exp_derivs|]. split; [apply exp_bounded; lra|]. now apply exp2_case.
Qed.
Theorem C24_exact_on_polynomials :
  (forall w v p q step, reachable w -> step <> 0 -> let x := w_var w v in let a := u_n x in
   follows1 w x (uunary_step (N := RN) (fun t => p * t + q) step x) (p * a + q) p) /\
  (forall w u v p q r step, reachable w -> step <> 0 -> let x := w_var w u in let y := w_var w v in
   let a := u_n x in let b := u_n y in
   exists z, ubinary_step (N := RN) (fun s t => p * s + q * t + r) step x y = Ret z /\ follows2 w x y z (p * a + q * b + r) p q) /\
  (forall eig w v p q r step, reachable2 eig w -> step <> 0 -> let x := w2_var w v in let a := u2_first_order_n x in
   exists z, uunary2_deriv (N := RN) (fun t => p * t ^ 2 + q * t + r) (fun t => 2 * p * t + q) step x = Ret z /\
     follows1_2nd eig w x z (p * a ^ 2 + q * a + r) (2 * p * a + q) (2 * p)) /\
  (forall eig w u v pxx pyy pxy px py p0 step, reachable2 eig w -> step <> 0 ->
   let x := w2_var w u in let y := w2_var w v in let a := u2_first_order_n x in let b := u2_first_order_n y in
   let f := fun s t => pxx * s ^ 2 + pyy * t ^ 2 + pxy * s * t + px * s + py * t + p0 in
   let fx := fun s t => 2 * pxx * s + pxy * t + px in let fy := fun s t => 2 * pyy * t + pxy * s + py in
   exists z z', ubinary2_deriv (N := RN) f fx fy step x y = Ret z /\ ubinary2_step (N := RN) f step x y = Ret z' /\
     follows2_2nd eig w x y z (f a b) (fx a b) (fy a b) (2 * pxx) (2 * pyy) pxy /\
     follows2_2nd eig w x y z' (f a b) (fx a b) (fy a b) (2 * pxx) (2 * pyy) pxy) /\
  (forall eig w v p q r c step, reachable2 eig w -> step <> 0 -> let x := w2_var w v in let a := u2_first_order_n x in
   exists z d1, uunary2_step (N := RN) (fun t => c * t ^ 3 + p * t ^ 2 + q * t + r) step x = Ret z /\
     follows1_2nd eig w x z (c * a ^ 3 + p * a ^ 2 + q * a + r) d1 (6 * c * a + 2 * p) /\
     d1 = 3 * c * a ^ 2 + 2 * p * a + q + c * step ^ 2).
Proof. exact C24_exact_on_polynomials_proof. Qed.
Print Assumptions C24_exact_on_polynomials.
Theorem C24_convergence :
  (forall w v (f : R -> R) d, reachable w -> let x := w_var w v in let a := u_n x in is_derive f a d ->
   forall eps, 0 < eps -> exists delta, 0 < delta /\ forall step, step <> 0 -> Rabs step < delta ->
   exists d', follows1 w x (uunary_step (N := RN) f step x) (f a) d' /\ Rabs (d' - d) <= eps) /\
  (forall w u v (f : R -> R -> R) fx fy, reachable w -> let x := w_var w u in let y := w_var w v in
   let a := u_n x in let b := u_n y in is_derive (fun t : R => f t b) a fx -> is_derive (fun t : R => f a t) b fy ->
   forall eps, 0 < eps -> exists delta, 0 < delta /\ forall step, step <> 0 -> Rabs step < delta ->
   exists z dx dy, ubinary_step (N := RN) f step x y = Ret z /\ follows2 w x y z (f a b) dx dy /\
     Rabs (dx - fx) <= eps /\ Rabs (dy - fy) <= eps) /\
  (forall eig w v (f df : R -> R) f2, reachable2 eig w -> let x := w2_var w v in let a := u2_first_order_n x in
   is_derive df a f2 ->
   forall eps, 0 < eps -> exists delta, 0 < delta /\ forall step, step <> 0 -> Rabs step < delta ->
   exists z d2, uunary2_deriv (N := RN) f df step x = Ret z /\ follows1_2nd eig w x z (f a) (df a) d2 /\ Rabs (d2 - f2) <= eps) /\
  (forall eig w v (f : R -> R) f1 f2, reachable2 eig w -> let x := w2_var w v in let a := u2_first_order_n x in
   twice_derivable f a f1 f2 ->
   forall eps, 0 < eps -> exists delta, 0 < delta /\ forall step, step <> 0 -> Rabs step < delta ->
   exists z d1 d2, uunary2_step (N := RN) f step x = Ret z /\ follows1_2nd eig w x z (f a) d1 d2 /\
     Rabs (d1 - f1) <= eps /\ Rabs (d2 - f2) <= eps) /\
  (forall eig w u v (f dfdx dfdy : R -> R -> R) fxx fyy fxy, reachable2 eig w ->
   let x := w2_var w u in let y := w2_var w v in let a := u2_first_order_n x in let b := u2_first_order_n y in
   differentiable_pt_lim dfdx a b fxx fxy -> differentiable_pt_lim dfdy a b fxy fyy ->
   forall eps, 0 < eps -> exists delta, 0 < delta /\ forall step, step <> 0 -> Rabs step < delta ->
   exists z dxx dyy dxy, ubinary2_deriv (N := RN) f dfdx dfdy step x y = Ret z /\
     follows2_2nd eig w x y z (f a b) (dfdx a b) (dfdy a b) dxx dyy dxy /\
     Rabs (dxx - fxx) <= eps /\ Rabs (dyy - fyy) <= eps /\ Rabs (dxy - fxy) <= eps) /\
  (forall eig w u v (f : R -> R -> R) fx fy fxx fyy fxy, reachable2 eig w ->
   let x := w2_var w u in let y := w2_var w v in let a := u2_first_order_n x in let b := u2_first_order_n y in
   twice_differentiable f a b fx fy fxx fyy fxy ->
   forall eps, 0 < eps -> exists delta, 0 < delta /\ forall step, step <> 0 -> Rabs step < delta ->
   exists z dx dy dxx dyy dxy, ubinary2_step (N := RN) f step x y = Ret z /\
     follows2_2nd eig w x y z (f a b) dx dy dxx dyy dxy /\
     Rabs (dx - fx) <= eps /\ Rabs (dy - fy) <= eps /\ Rabs (dxx - fxx) <= eps /\ Rabs (dyy - fyy) <= eps /\
     Rabs (dxy - fxy) <= eps).
Proof. exact C24_convergence_proof. Qed.
Print Assumptions C24_convergence.
Theorem C24_default_step : forall eps n, 0 < eps ->
  0 < default_step (N := RN) eps n /\ default_step (N := RN) eps n ^ (2 ^ n) = eps.
Proof. exact C24_default_step_proof. Qed.
Print Assumptions C24_default_step.
