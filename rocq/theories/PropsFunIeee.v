(** * PropsFunIeee: numerical derivatives of functions.hpp on doubles (C70)

    Generated from tools/PropsFunIeee.in.  The predicates and error bounds are in SpecFunIeee.v. *)

From Coq Require Import List ZArith Bool Reals Lra Lia.
From Coquelicot Require Import Coquelicot.
From Verif Require Import Base Num Map UReal World HessGrad UReal2 Ieee SpecIeee IeeeProofs5 SpecFun SpecFunIeee Functions FunAcc5 FunAcc6.
Import ListNotations.
Local Open Scope R_scope.

(** The square of 1 +- 1, with the default step. *)
Example C70_variable_case : let w := after one_one in let x := w_var w 0%nat in
  dlegal one_one /\ List.Forall (fun c => self_assign c = false) one_one /\ run w_init one_one = Ret w /\
  finite (u_n x) /\ real_of (u_n x) = 1 /\ coefs x = [dofZ 1].
Proof. exact one_one_case. Qed.
Example C70_forward_case : let h := real_of step1 in let P := near 1 (2 * h) in let err := forward_err 1 h 2 2 (2 * uround) in
  good_step 1 step1 /\ computes P (2 * uround) (fun t => dmul t t) (fun t => t * t) /\
  derivs_on P (fun t => t * t) [fun t => 2 * t; fun _ => 2] /\ bounded_on P (fun _ => 2) 2 /\
  forward_size h 2 2 (2 * uround) /\ err <= / 3 * Rabs 2 /\ err <= / 8388608 /\
  List.Forall (fun c => finite c /\ (real_of c = 0 \/ pow2 (-500) <= Rabs (2 * real_of c))) [dofZ 1] /\
  2 * 2 * sum_sq [dofZ 1] <= pow2 1000.
Proof. exact forward_case. Qed.
(** The same with the default step for second derivatives. *)
Example C70_central_case : let h := real_of step2 in let P := near 1 (2 * h) in
  good_step 1 step2 /\ computes P (2 * uround) (fun t => dmul t t) (fun t => t * t) /\
  derivs_on P (fun t => t * t) [fun t => 2 * t; fun _ => 2; fun _ => 0; fun _ => 0] /\ bounded_on P (fun _ => 0) 0 /\
  central_size1 h 2 2 0 (2 * uround) /\ central_size2 h 1 2 2 0 0 (2 * uround) /\
  central_err1 1 h 2 2 0 (2 * uround) <= / 68719476736 /\ central_err2 1 h 1 2 2 0 0 (2 * uround) <= / 4194304.
Proof. exact central_case. Qed.
(** The product of two variables with mean 1. *)
Example C70_two_case : let h := real_of step2 in let P := near 1 (2 * h) in
  computes2 P P (2 * uround) (fun s t => dmul s t) (fun s t => s * t) /\
  derivs_on P (fun t => t * 1) [fun _ => 1; fun _ => 0; fun _ => 0; fun _ => 0] /\
  derivs_on P (fun t => 1 * t) [fun _ => 1; fun _ => 0; fun _ => 0; fun _ => 0] /\ bounded_on P (fun _ => 0) 0 /\
  (forall s t, P s -> P t -> is_derive (fun s => s * t) s t) /\ (forall s t, P s -> P t -> is_derive (fun t => t) t 1) /\
  (forall s t, P s -> P t -> Rabs (1 - 1) <= 0) /\ (forall s t, P s -> P t -> Rabs (s * t) <= 2) /\
  central_size1 h 1 0 0 (2 * uround) /\ central_size2 h (1 * 1) 1 0 0 0 (2 * uround) /\ mixed_size h 2 1 0 (2 * uround) /\
  mixed_err 1 1 h 2 1 0 (2 * uround) <= / 2097152.
Proof. exact product_case. Qed.

(** ** C70 *)
Theorem C70_default_step : forall eps : double, finite eps -> real_of eps = pow2 (-52) ->
  finite (default_step (N := DN) eps 1) /\ real_of (default_step (N := DN) eps 1) = pow2 (-26) /\
  finite (default_step (N := DN) eps 2) /\ real_of (default_step (N := DN) eps 2) = pow2 (-13).
Proof. exact C70_default_step_proof. Qed.
Print Assumptions C70_default_step.
Theorem C70_forward : forall (f : double -> double) (F F1 F2 : R -> R) M del (step : double) (x : ureal DN),
  let a := real_of (u_n x) in let h := real_of step in let P := near a (2 * h) in
  finite (u_n x) -> good_step a step -> computes P del f F -> derivs_on P F [F1; F2] -> bounded_on P F2 M ->
  forward_size h (F1 a) M del ->
  let z := uunary_step (N := DN) f step x in
  finite (u_n z) /\ Rabs (real_of (u_n z) - F a) <= del /\
  exists d, finite d /\ Rabs (real_of d - F1 a) <= forward_err a h (F1 a) M del /\
    z = u_unary x (f (u_n x)) d /\ coefs z = map (fun c => dmul c d) (coefs x).
Proof. exact C70_forward_proof. Qed.
Print Assumptions C70_forward.
Theorem C70_deviation : forall (f : double -> double) (F F1 F2 : R -> R) M del (step : double),
  forall cs w, dlegal cs -> List.Forall (fun c => self_assign c = false) cs -> run w_init cs = Ret w ->
  forall v, let x := w_var w v in let n := List.length (coefs x) in
  let a := real_of (u_n x) in let h := real_of step in let P := near a (2 * h) in let err := forward_err a h (F1 a) M del in
  finite (u_n x) -> good_step a step -> computes P del f F -> derivs_on P F [F1; F2] -> bounded_on P F2 M ->
  forward_size h (F1 a) M del -> err <= / 3 * Rabs (F1 a) ->
  List.Forall (fun c => finite c /\ (real_of c = 0 \/ pow2 (-500) <= Rabs (F1 a * real_of c))) (coefs x) ->
  F1 a * F1 a * sum_sq (coefs x) <= pow2 1000 ->
  let z := uunary_step (N := DN) f step x in let S := sqrt (sum_sq (coefs x)) in
  finite (u_s z) /\ Rabs (real_of (u_s z) - Rabs (F1 a) * S) <= (err + (INR n + 5) * uround * Rabs (F1 a)) * S.
Proof. exact C70_deviation_proof. Qed.
Print Assumptions C70_deviation.
Theorem C70_forward_two : forall (f : double -> double -> double) (F Fx Fxx Fy Fyy : R -> R -> R) M del (step : double) (x y : ureal DN),
  let a := real_of (u_n x) in let b := real_of (u_n y) in let h := real_of step in
  finite (u_n x) -> finite (u_n y) -> good_step a step -> good_step b step ->
  computes_x (near a (2 * h)) del f F (u_n y) -> computes_y (near b (2 * h)) del f F (u_n x) ->
  derivs_on (near a (2 * h)) (fun t => F t b) [fun t => Fx t b; fun t => Fxx t b] -> bounded_on (near a (2 * h)) (fun t => Fxx t b) M ->
  derivs_on (near b (2 * h)) (fun t => F a t) [fun t => Fy a t; fun t => Fyy a t] -> bounded_on (near b (2 * h)) (fun t => Fyy a t) M ->
  forward_size h (Fx a b) M del -> forward_size h (Fy a b) M del ->
  let m := f (u_n x) (u_n y) in finite m /\ Rabs (real_of m - F a b) <= del /\
  exists dx dy, finite dx /\ Rabs (real_of dx - Fx a b) <= forward_err a h (Fx a b) M del /\
    finite dy /\ Rabs (real_of dy - Fy a b) <= forward_err b h (Fy a b) M del /\
    ubinary_step (N := DN) f step x y = u_binary x y m dx dy.
Proof. exact C70_forward_two_proof. Qed.
Print Assumptions C70_forward_two.
Theorem C70_second_forward : forall (f f1 : double -> double) (F1 F2 F3 : R -> R) M del (step : double) (x : ureal2 DN),
  let mu := u2_first_order_n x in let a := real_of mu in let h := real_of step in let P := near a (2 * h) in
  finite mu -> good_step a step -> computes P del f1 F1 -> derivs_on P F1 [F2; F3] -> bounded_on P F3 M -> forward_size h (F2 a) M del ->
  finite (f1 mu) /\ Rabs (real_of (f1 mu) - F1 a) <= del /\
  exists d, finite d /\ Rabs (real_of d - F2 a) <= forward_err a h (F2 a) M del /\
    uunary2_deriv (N := DN) f f1 step x = u2_unary x (f mu) (f1 mu) d.
Proof. exact C70_second_forward_proof. Qed.
Print Assumptions C70_second_forward.
Theorem C70_second_forward_two : forall (f fx fy : double -> double -> double) (Fx Fxx Fxxx Fy Fyy Fyyy Fxy Fxyy : R -> R -> R) M del (step : double) (x y : ureal2 DN),
  let mx := u2_first_order_n x in let my := u2_first_order_n y in let a := real_of mx in let b := real_of my in let h := real_of step in
  finite mx -> finite my -> good_step a step -> good_step b step ->
  computes_x (near a (2 * h)) del fx Fx my -> computes_y (near b (2 * h)) del fx Fx mx -> computes_y (near b (2 * h)) del fy Fy mx ->
  derivs_on (near a (2 * h)) (fun t => Fx t b) [fun t => Fxx t b; fun t => Fxxx t b] -> bounded_on (near a (2 * h)) (fun t => Fxxx t b) M ->
  derivs_on (near b (2 * h)) (fun t => Fy a t) [fun t => Fyy a t; fun t => Fyyy a t] -> bounded_on (near b (2 * h)) (fun t => Fyyy a t) M ->
  derivs_on (near b (2 * h)) (fun t => Fx a t) [fun t => Fxy a t; fun t => Fxyy a t] -> bounded_on (near b (2 * h)) (fun t => Fxyy a t) M ->
  forward_size h (Fxx a b) M del -> forward_size h (Fyy a b) M del -> forward_size h (Fxy a b) M del ->
  exists dxx dyy dxy, finite dxx /\ Rabs (real_of dxx - Fxx a b) <= forward_err a h (Fxx a b) M del /\
    finite dyy /\ Rabs (real_of dyy - Fyy a b) <= forward_err b h (Fyy a b) M del /\
    finite dxy /\ Rabs (real_of dxy - Fxy a b) <= forward_err b h (Fxy a b) M del /\
    ubinary2_deriv (N := DN) f fx fy step x y = u2_binary x y (f mx my) (fx mx my) (fy mx my) dxx dyy dxy.
Proof. exact C70_second_forward_two_proof. Qed.
Print Assumptions C70_second_forward_two.
Theorem C70_central : forall (f : double -> double) (F F1 F2 F3 F4 : R -> R) M3 M4 del (step : double) (x : ureal2 DN),
  let mu := u2_first_order_n x in let a := real_of mu in let h := real_of step in let P := near a (2 * h) in
  finite mu -> good_step a step -> computes P del f F -> derivs_on P F [F1; F2; F3; F4] -> bounded_on P F3 M3 -> bounded_on P F4 M4 ->
  central_size1 h (F1 a) (F2 a) M3 del -> central_size2 h (F a) (F1 a) (F2 a) (F3 a) M4 del ->
  finite (f mu) /\ Rabs (real_of (f mu) - F a) <= del /\
  exists d1 d2, finite d1 /\ Rabs (real_of d1 - F1 a) <= central_err1 a h (F1 a) (F2 a) M3 del /\
    finite d2 /\ Rabs (real_of d2 - F2 a) <= central_err2 a h (F a) (F1 a) (F2 a) (F3 a) M4 del /\
    uunary2_step (N := DN) f step x = u2_unary x (f mu) d1 d2.
Proof. exact C70_central_proof. Qed.
Print Assumptions C70_central.
Theorem C70_central_two : forall (f : double -> double -> double) (F Fx Fxx F3x F4x Fy Fyy F3y F4y Fxy : R -> R -> R) M3 M4 V L del (step : double) (x y : ureal2 DN),
  let mx := u2_first_order_n x in let my := u2_first_order_n y in let a := real_of mx in let b := real_of my in let h := real_of step in
  let P := near a (2 * h) in let Q := near b (2 * h) in
  finite mx -> finite my -> good_step a step -> good_step b step ->
  computes2 P Q del f F ->
  derivs_on P (fun t => F t b) [fun t => Fx t b; fun t => Fxx t b; fun t => F3x t b; fun t => F4x t b] ->
  bounded_on P (fun t => F3x t b) M3 -> bounded_on P (fun t => F4x t b) M4 ->
  derivs_on Q (fun t => F a t) [fun t => Fy a t; fun t => Fyy a t; fun t => F3y a t; fun t => F4y a t] ->
  bounded_on Q (fun t => F3y a t) M3 -> bounded_on Q (fun t => F4y a t) M4 ->
  (forall s t, P s -> Q t -> is_derive (fun s => F s t) s (Fx s t)) ->
  (forall s t, P s -> Q t -> is_derive (fun t => Fx s t) t (Fxy s t)) ->
  (forall s t, P s -> Q t -> Rabs (Fxy s t - Fxy a b) <= L) -> (forall s t, P s -> Q t -> Rabs (F s t) <= V) ->
  central_size1 h (Fx a b) (Fxx a b) M3 del -> central_size2 h (F a b) (Fx a b) (Fxx a b) (F3x a b) M4 del ->
  central_size1 h (Fy a b) (Fyy a b) M3 del -> central_size2 h (F a b) (Fy a b) (Fyy a b) (F3y a b) M4 del ->
  mixed_size h V (Fxy a b) L del ->
  let m := f mx my in finite m /\ Rabs (real_of m - F a b) <= del /\
  exists dx dy dxx dyy dxy, List.Forall finite [dx; dy; dxx; dyy; dxy] /\
    Rabs (real_of dx - Fx a b) <= central_err1 a h (Fx a b) (Fxx a b) M3 del /\
    Rabs (real_of dy - Fy a b) <= central_err1 b h (Fy a b) (Fyy a b) M3 del /\
    Rabs (real_of dxx - Fxx a b) <= central_err2 a h (F a b) (Fx a b) (Fxx a b) (F3x a b) M4 del /\
    Rabs (real_of dyy - Fyy a b) <= central_err2 b h (F a b) (Fy a b) (Fyy a b) (F3y a b) M4 del /\
    Rabs (real_of dxy - Fxy a b) <= mixed_err a b h V (Fxy a b) L del /\
    ubinary2_step (N := DN) f step x y = u2_binary x y m dx dy dxx dyy dxy.
Proof. exact C70_central_two_proof. Qed.
Print Assumptions C70_central_two.
Theorem C70_step_lost : forall (f : double -> double) (step : double) (x : ureal DN),
  finite (u_n x) -> finite step -> 0 < real_of step -> pow2 55 * real_of step <= Rabs (real_of (u_n x)) -> finite (f (u_n x)) -> List.Forall finite (coefs x) ->
  let z := uunary_step (N := DN) f step x in u_n z = f (u_n x) /\ u_s z = n0.
Proof. exact C70_step_lost_proof. Qed.
Print Assumptions C70_step_lost.
Theorem C70_large_mean_refuted : exists cs w, dlegal cs /\ run w_init cs = Ret w /\ let x := w_var w 0%nat in
  finite (u_n x) /\ real_of (u_n x) = pow2 29 /\ u_s x = n1 /\
  exists step, step = default_step (N := DN) eps64 1 /\ real_of eps64 = pow2 (-52) /\
    u_n (uunary_step (N := DN) (fun t => t) step x) = u_n x /\ u_s (uunary_step (N := DN) (fun t => t) step x) = n0.
Proof. exact C70_large_mean_refuted_proof. Qed.
Print Assumptions C70_large_mean_refuted.
