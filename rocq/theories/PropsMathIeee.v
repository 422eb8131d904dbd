(** * PropsMathIeee: math.hpp on doubles (C65, C66)

    Generated from tools/PropsMathIeee.in.  [accurate] and [accurate1] are in SpecMathIeee.v: the
    functions of <cmath> are any functions with relative error [e].  [accurate2] is in SpecMathIeee2.v. *)

From Coq Require Import List ZArith Bool Reals Lra Lia.
From Coquelicot Require Import Coquelicot.
From Flocq Require Import Core BinarySingleNaN.
From Verif Require Import Base Num UReal World Ieee IeeeFacts SpecIeee IeeeProofs3 IeeeProofs4 IeeeProofs5 Nan Math SpecMathIeee SpecMathIeee2 MathAcc2 MathAcc5 MathAcc7.
Import ListNotations.
Local Open Scope R_scope.

(** There are such functions: the correctly rounded ones. *)
Example accurate_case : accurate rounded_cmath uround /\ uround <= uround <= pow2 (-20).
Proof. split; [exact rounded_accurate|]. split; [apply Rle_refl|apply pow2_le; lia]. Qed.
(** A variable of mean 1/2 or 2 and deviation 1; 1/2 or 2 is inside the domain of every function. *)
Example C65_case : forall z k, (z = 1 /\ k = 1 \/ z = 2 /\ k = 0)%Z -> let cs := [CNew 0%nat (half z k) (dofZ 1 : DN)] in let w := after cs in
  let x := w_var w 0%nat in
  dlegal cs /\ List.Forall (fun c => self_assign c = false) cs /\ run w_init cs = Ret w /\
  finite (u_n x) /\ real_of (u_n x) = IZR z / pow2 k /\ coefs x = [dofZ 1] /\
  100 * uround <= 1 - / 2 * / 2 /\ 100 * uround * (2 * 2) <= 2 * 2 - 1.
Proof.
  intros z k H cs w x. split; [apply dlegal_small; [repeat constructor|cbn; lia]|]. split; [repeat constructor|]. split; [reflexivity|].
  change uround with (/ 9007199254740992).
  destruct H as [[-> ->]|[-> ->]]; (split; [vm_compute; reflexivity|]); (split; [|split; [reflexivity|lra]]).
  - change (real_of (half 1 1) = 1 / 2). realval. lra.
  - change (real_of (half 2 0) = 2 / 1). realval. lra.
Qed.

(** ** C65 *)
Theorem C65_functions :
  accurate1 (fun _ => g_abs) (fun _ a => a <> 0) Rabs (fun _ => 0) /\
  accurate1 g_exp (fun _ _ => True) exp (fun _ => 3) /\
  accurate1 g_exp2 (fun _ a => -1000 <= a <= 1000) (fun x => Rpower 2 x) (fun _ => 5) /\
  accurate1 g_expm1 (fun _ a => Rabs a <= 500) (fun x => exp x - 1) (fun _ => 3) /\
  accurate1 g_log (fun _ a => pow2 (-1000) <= a <= pow2 1000) ln (fun _ => 3) /\
  accurate1 g_log10 (fun _ a => pow2 (-1000) <= a <= pow2 1000) (fun x => ln x / ln 10) (fun _ => 5) /\
  accurate1 g_log2 (fun _ a => pow2 (-1000) <= a <= pow2 1000) (fun x => ln x / ln 2) (fun _ => 5) /\
  accurate1 g_log1p (fun _ a => pow2 (-1000) <= 1 + a <= pow2 1000) (fun x => ln (1 + x)) (fun _ => 4) /\
  accurate1 (fun _ => g_sqrt) (fun _ a => pow2 (-1000) <= a <= pow2 1000) sqrt (fun _ => 5) /\
  accurate1 g_sin (fun _ a => regular (cos a)) sin (fun _ => 3) /\
  accurate1 g_cos (fun _ a => regular (sin a)) cos (fun _ => 3) /\
  accurate1 g_tan (fun _ a => cos a <> 0 /\ Rabs (tan a) <= pow2 500) tan (fun _ => 7) /\
  accurate1 g_atan (fun _ a => Rabs a <= pow2 500) atan (fun _ => 6) /\
  accurate1 g_sinh (fun _ a => Rabs a <= 500) sinh (fun _ => 3) /\
  accurate1 g_cosh (fun _ a => regular (sinh a)) cosh (fun _ => 3) /\
  accurate1 g_asinh (fun _ a => Rabs a <= pow2 500) R_asinh (fun _ => 7) /\
  accurate1 g_erf (fun _ a => Rabs a <= 22) R_erf (fun a => 16 + 3 * (a * a)) /\
  accurate1 g_erfc (fun _ a => Rabs a <= 22) (fun x => 1 - R_erf x) (fun a => 16 + 3 * (a * a)).
Proof. exact C65_functions_proof. Qed.
Print Assumptions C65_functions.
(** Missing: a bound which does not depend on the mean, see the next theorem, and negative means
    of cbrt, see C21_cbrt_negative_refuted. *)
Theorem C65_cancelling_partial :
  accurate1 g_asin (fun e a => 100 * e <= 1 - a * a) asin (fun a => 18 / (1 - a * a)) /\
  accurate1 g_acos (fun e a => 100 * e <= 1 - a * a) acos (fun a => 18 / (1 - a * a)) /\
  accurate1 g_atanh (fun e a => 100 * e <= 1 - a * a) R_atanh (fun a => 15 / (1 - a * a)) /\
  accurate1 g_tanh (fun e a => 100 * e <= 1 - tanh a * tanh a) tanh (fun a => 10 / (1 - tanh a * tanh a)) /\
  accurate1 g_acosh (fun e a => 1 < a <= pow2 500 /\ 100 * e * (a * a) <= a * a - 1) R_acosh (fun a => 14 * (a * a) / (a * a - 1)) /\
  accurate1 g_cbrt (fun _ a => pow2 (-1000) <= a <= pow2 1000) R_cbrt (fun a => 10 + 4 * Rabs (ln a)).
Proof. exact C65_cancelling_partial_proof. Qed.
Print Assumptions C65_cancelling_partial.
Theorem C65_uniform_bound_refuted : forall K, K <= 4194304 ->
  ~ accurate1 g_asin (fun _ a => -1 < a < 1) asin (fun _ => K) /\
  ~ accurate1 g_acos (fun _ a => -1 < a < 1) acos (fun _ => K) /\
  ~ accurate1 g_atanh (fun _ a => -1 < a < 1) R_atanh (fun _ => K) /\
  ~ accurate1 g_acosh (fun _ a => 1 < a) R_acosh (fun _ => K) /\
  ~ accurate1 g_tanh (fun _ _ => True) tanh (fun _ => K).
Proof. exact C65_uniform_bound_refuted_proof. Qed.
Print Assumptions C65_uniform_bound_refuted.

(** Two variables of means 2 and 3 and deviations 1; 2 and 3 are inside the domain of every operator and function. *)
Example C66_case : let cs := [CNew 0%nat (dofZ 2 : DN) (dofZ 1 : DN); CNew 1%nat (dofZ 3 : DN) (dofZ 1 : DN)] in let w := after cs in
  let x := w_var w 0%nat in let y := w_var w 1%nat in
  dlegal cs /\ List.Forall (fun c => self_assign c = false) cs /\ run w_init cs = Ret w /\
  finite (u_n x) /\ real_of (u_n x) = 2 /\ finite (u_n y) /\ real_of (u_n y) = 3 /\
  (exists i j, i <> j /\ ids x = [i] /\ ids y = [j] /\ coef x i = 1 /\ coef x j = 0 /\ coef y i = 0 /\ coef y j = 1) /\
  regular (2 + 3) /\ regular (2 * 3) /\ regular (2 / 3) /\ regular (/ 3) /\ regular (2 / (3 * 3)) /\
  Rpower 2 3 = 8 /\ regular (8 * 3) /\ regular (8 * 3 / 2) /\ regular (ln 2) /\ regular (8 * ln 2) /\
  regular (2 / sqrt (2 * 2 + 3 * 3)) /\ regular (3 / sqrt (2 * 2 + 3 * 3)) /\
  Ztrunc (nearest (2 / 3)) = Ztrunc (2 / 3) /\ ZnearestA (nearest (2 / 3)) = ZnearestA (2 / 3) /\
  (forall n, n <> 0%Z -> 2 / 3 <> IZR n) /\ (forall n, 2 / 3 <> IZR n + / 2).
Proof.
  intros cs w x y. split; [apply dlegal_small; [repeat constructor|cbn; lia]|]. split; [repeat constructor|]. split; [reflexivity|].
  split; [vm_compute; reflexivity|]. split; [change (real_of (dofZ 2) = 2); exact (real_lit 2 eq_refl)|].
  split; [vm_compute; reflexivity|]. split; [change (real_of (dofZ 3) = 3); exact (real_lit 3 eq_refl)|]. split.
  { exists (uid x), (uid y). split; [discriminate|]. split; [reflexivity|]. split; [reflexivity|].
    split; [change (real_of (dofZ 1) = 1); exact (real_lit 1 eq_refl)|]. split; [reflexivity|]. split; [reflexivity|].
    change (real_of (dofZ 1) = 1); exact (real_lit 1 eq_refl). }
  destruct ln2_rng as [L1 L2]. change (pow2 (-1)) with (/ 2) in L1. change (pow2 0) with 1 in L2.
  assert (S1 : 2 <= sqrt (2 * 2 + 3 * 3)) by (rewrite <- (sqrt_square 2) at 1 by lra; apply sqrt_le_1_alt; lra).
  assert (S2 : sqrt (2 * 2 + 3 * 3) <= 4) by (rewrite <- (sqrt_square 4) by lra; apply sqrt_le_1_alt; lra).
  set (s := sqrt (2 * 2 + 3 * 3)) in *. assert (I : / 4 <= / s <= / 2) by (split; apply Rinv_le_contravar; lra).
  do 5 (split; [apply reg_mid; lra|]). split.
  { replace 3 with (INR 3) at 1 by (simpl; lra). rewrite Rpower_pow by lra. simpl. lra. }
  do 6 (split; [apply reg_mid; unfold Rdiv; lra|]).
  assert (R23 : regular (2 / 3)) by (apply reg_mid; lra).
  assert (N1 : forall n : Z, n <> 0%Z -> / 3 <= Rabs (2 / 3 - IZR n)).
  { intros n Hn. destruct (Z_lt_le_dec n 0) as [A|A].
    - assert (IZR n <= -1) by (apply IZR_le; lia). rewrite Rabs_pos_eq; lra.
    - assert (1 <= IZR n) by (apply IZR_le; lia). rewrite Rabs_left1; lra. }
  assert (N2 : forall n : Z, / 6 <= Rabs (2 / 3 - (IZR n + / 2))).
  { intros n. destruct (Z_lt_le_dec n 1) as [A|A].
    - assert (IZR n <= 0) by (apply IZR_le; lia). rewrite Rabs_pos_eq; lra.
    - assert (1 <= IZR n) by (apply IZR_le; lia). rewrite Rabs_left1; lra. }
  assert (U : uround * Rabs (2 / 3) < / 6) by (rewrite Rabs_pos_eq by lra; change uround with (/ 9007199254740992); lra).
  split; [apply C66_quotient_trunc_proof; [exact R23|]; intros n Hn; specialize (N1 n Hn); lra|].
  split; [apply C66_quotient_round_proof; [exact R23|]; intros n; specialize (N2 n); lra|].
  split; [intros n Hn E|intros n E].
  - specialize (N1 n Hn). rewrite <- E, Rminus_eq_0, Rabs_R0 in N1. lra.
  - specialize (N2 n). rewrite <- E, Rminus_eq_0, Rabs_R0 in N2. lra.
Qed.

(** ** C66 *)
Theorem C66_operators :
  accurate2 (fun _ => u_add) (fun _ _ _ => True) Rplus 1 4 /\
  accurate2 (fun _ => u_sub) (fun _ _ _ => True) Rminus 1 4 /\
  accurate2 (fun _ => u_mul) (fun _ _ _ => True) Rmult 2 4 /\
  accurate2 (fun _ => u_div) (fun _ a b => b <> 0 /\ regular (/ b) /\ regular (a / (b * b))) Rdiv 3 9.
Proof. exact C66_operators_proof. Qed.
Print Assumptions C66_operators.
Theorem C66_functions :
  accurate2 g_pow (fun _ a b => 0 < a /\ regular (ln a) /\ regular (Rpower a b * b) /\ regular (Rpower a b * b / a) /\ regular (Rpower a b * ln a)) Rpower 1 8 /\
  accurate2 g_hypot (fun _ a b => (a <> 0 \/ b <> 0) /\ regular (a / sqrt (a * a + b * b)) /\ regular (b / sqrt (a * a + b * b)))
    (fun a b => sqrt (a * a + b * b)) 1 7 /\
  accurate2 g_fmax (fun _ a b => a <> b) Rmax 0 4 /\
  accurate2 g_fmin (fun _ a b => a <> b) Rmin 0 4.
Proof. exact C66_functions_proof. Qed.
Print Assumptions C66_functions.
(** Missing: quotients which round to another integral part, see C66_quotient_refuted. *)
Theorem C66_quotient_partial :
  accurate2 g_fmod (fun _ a b => b <> 0 /\ (forall n, n <> 0%Z -> a / b <> IZR n) /\ regular (a / b) /\ Ztrunc (nearest (a / b)) = Ztrunc (a / b))
    (fun x y => x - IZR (Ztrunc (x / y)) * y) 1 6 /\
  accurate2 g_remainder (fun _ a b => b <> 0 /\ (forall n, a / b <> IZR n + / 2) /\ regular (a / b) /\ ZnearestA (nearest (a / b)) = ZnearestA (a / b))
    (fun x y => x - IZR (ZnearestE (x / y)) * y) 1 6.
Proof. exact C66_quotient_partial_proof. Qed.
Print Assumptions C66_quotient_partial.
Theorem C66_quotient_trunc : forall q, regular q -> (forall n, n <> 0%Z -> uround * Rabs q < Rabs (q - IZR n)) -> Ztrunc (nearest q) = Ztrunc q.
Proof. exact C66_quotient_trunc_proof. Qed.
Print Assumptions C66_quotient_trunc.
Theorem C66_quotient_round : forall q, regular q -> (forall n, uround * Rabs q < Rabs (q - (IZR n + / 2))) -> ZnearestA (nearest q) = ZnearestA q.
Proof. exact C66_quotient_round_proof. Qed.
Print Assumptions C66_quotient_round.
Theorem C66_quotient_refuted : forall k K, K <= 4194304 ->
  ~ accurate2 g_fmod (fun _ a b => b <> 0 /\ (forall n, n <> 0%Z -> a / b <> IZR n) /\ regular (a / b)) (fun x y => x - IZR (Ztrunc (x / y)) * y) k K /\
  ~ accurate2 g_remainder (fun _ a b => b <> 0 /\ (forall n, a / b <> IZR n + / 2) /\ regular (a / b)) (fun x y => x - IZR (ZnearestE (x / y)) * y) k K.
Proof. exact C66_quotient_refuted_proof. Qed.
Print Assumptions C66_quotient_refuted.
