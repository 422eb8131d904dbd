(** * PropsIeee: the numeric type double (C52-C58, C61-C64)

    Generated from tools/PropsIeee.in. *)

From Coq Require Import List ZArith Reals Bool Lra Lia.
From Flocq Require Import Core BinarySingleNaN.
From Verif Require Import Base Num Map UReal World SpecObs HessGrad Moments CheckMoments UReal2 World2 SpecU2Run Ieee SpecIeee
  IeeeProofs IeeeProofs2 IeeeProofs3 IeeeProofs4 IeeeProofs5 IeeeProofs6 DemoIeee
  Stat SpecIeee2 IeeeCov IeeeCov2 IeeeCorr DemoIeee2 MathIeee MathIeeeProofs.
Import ListNotations.
Local Open Scope R_scope.

(** ** C52: the mean of a sum, difference, product or negation is the correctly rounded one;
    that of a quotient is computed with two roundings, so it is off by at most one part in
    2^52, and is not always the correctly rounded one. *)
@C52_mean_rounded_once
@C52_quotient_partial
@C52_quotient_refuted
Example C52_case : dreachable dworld /\
  let a := u_n (w_var dworld 0%nat) in let b := u_n (w_var dworld 1%nat) in
  finite a /\ finite b /\ no_overflow (real_of a + real_of b) /\ no_overflow (real_of a - real_of b) /\
  no_overflow (real_of a * real_of b) /\ pow2 (-1021) <= Rabs (real_of b) <= pow2 1021 /\
  pow2 (-1021) <= Rabs (real_of a / real_of b) <= pow2 1022.
Proof.
  split; [exact dworld_reach|]. cbv zeta. rewrite x_mean, y_mean. assert (B := pow2_big). assert (S := pow2_tiny).
  assert (B1 : pow2 1000 <= pow2 1021) by (apply bpow_le; lia). assert (B2 : pow2 1000 <= pow2 1022) by (apply bpow_le; lia).
  assert (S1 : pow2 (-1021) <= pow2 (-511)) by (apply bpow_le; lia).
  split; [vm_compute; reflexivity|]. split; [vm_compute; reflexivity|].
  split; [apply small_no_overflow; rewrite Rabs_pos_eq; lra|]. split; [apply small_no_overflow; rewrite Rabs_left; lra|].
  split; [apply small_no_overflow; rewrite Rabs_pos_eq; lra|]. rewrite !Rabs_pos_eq; lra.
Qed.

(** ** C53 *)
@C53_rewriting
Example C53_case : dlegal ddemo /\ exists cs, Forall2 rewritten ddemo cs /\ cs =
  [CNew 0%nat (d 3) (d 1); CNew 1%nat (d 7) (d 2); CAdd 2%nat 1%nat 0%nat; CS 2%nat; CMul 2%nat 2%nat 0%nat].
Proof. split; [exact ddemo_legal|]. eexists. split; [|reflexivity]. repeat (constructor; try discriminate). Qed.

(** ** C54 *)
@C54_never_negative
@C54_symmetric
@C54_difference
Example C54_case : dreachable dworld /\ finite (u_n (w_var dworld 2%nat)) /\ finite (u_s (u_neg (w_var dworld 2%nat))) /\
  real_of (u_n (w_var dworld 2%nat)) = 30.
Proof. split; [exact dworld_reach|]. split; [vm_compute; reflexivity|]. split; [vm_compute; reflexivity|exact z_mean]. Qed.

(** ** C55: asking for the standard deviation does not change the mean, the standard
    deviation, covariances and correlations, if no variable is assigned to itself with a
    compound assignment.  It does change the variance. *)
@C55_caching_partial
@C55_var_refuted
@C55_self_assign_refuted
Example C55_case : dlegal ddemo /\ List.Forall (fun c => self_assign c = false) ddemo /\ without_queries ddemo <> ddemo.
Proof. split; [exact ddemo_legal|]. split; [exact ddemo_no_self|]. intro E. apply (f_equal (@List.length _)) in E. discriminate E. Qed.

(** ** C56: adding a number does not change the standard deviation, unless the variable is
    independent and the square of its deviation overflows or underflows. *)
@C56_adding_a_number_partial
@C56_adding_a_number_refuted
Example C56_case : dlegal ddemo /\ List.Forall (fun c => self_assign c = false) ddemo /\ run w_init ddemo = Ret dworld /\
  u_isindep (w_var dworld 2%nat) = Ret false /\ safe_dev (u_s (w_var dworld 1%nat)).
Proof.
  split; [exact ddemo_legal|]. split; [exact ddemo_no_self|]. split; [exact ddemo_run|]. split; [vm_compute; reflexivity|].
  split; [vm_compute; reflexivity|]. right. rewrite y_dev. assert (B := pow2_big). assert (S := pow2_tiny).
  assert (B1 : pow2 511 = pow2 11 * pow2 500) by (unfold pow2; rewrite <- bpow_plus; reflexivity).
  assert (B2 : 1 <= pow2 500) by (change 1 with (bpow radix2 0); apply bpow_le; lia).
  assert (B3 : pow2 11 = 2048) by (unfold pow2; cbn -[IZR]; lra).
  rewrite Rabs_pos_eq by lra. rewrite B1, B3. lra.
Qed.

(** ** C57 *)
@C57_accuracy
Example C57_case : dlegal ddemo /\ List.Forall (fun c => self_assign c = false) ddemo /\ run w_init ddemo = Ret dworld /\
  no_underflow (coefs (w_var dworld 2%nat)) /\ sum_sq (coefs (w_var dworld 2%nat)) = 205.
Proof.
  split; [exact ddemo_legal|]. split; [exact ddemo_no_self|]. split; [exact ddemo_run|].
  assert (E := z_coefs). assert (F := z_finite). assert (S := pow2_tiny).
  assert (S1 : pow2 (-510) = 2 * pow2 (-511)) by (unfold pow2; change (-510)%Z with (1 + -511)%Z; rewrite bpow_plus; f_equal).
  revert E F. generalize (coefs (w_var dworld 2%nat)). intros [|a [|b [|c l]]]; cbn [map]; intros [= Ea Eb]; intro F.
  inversion F as [|? ? Fa F']; subst. inversion F' as [|? ? Fb _]; subst.
  split; [|unfold sum_sq; cbn [fold_right]; rewrite Ea, Eb; lra].
  unfold no_underflow. constructor; [|constructor; [|constructor]]; (split; [assumption|right]).
  - rewrite Ea, Rabs_pos_eq; lra.
  - rewrite Eb, Rabs_pos_eq; lra.
Qed.

(** ** C58 *)
@C58_linear_partial
@C58_deviation_is_a_number_refuted
Example C58_case : legal2 ddemo2 /\ List.Forall (linear2 (fun v => Nat.eqb v 2)) ddemo2.
Proof. split; [exact ddemo2_legal|]. repeat (constructor; try (cbn; auto)). Qed.

(** ** C61 *)
@C61_covariance_accuracy
Example C61_case : dreachable dworld /\ let l := common (w_var dworld 0%nat) (w_var dworld 2%nat) in
  finite_pairs l /\ sum_prod l = 13 /\ sum_abs l = 13 /\ 13 <= pow2 1020.
Proof.
  split; [exact dworld_reach|]. cbv zeta. split; [exact xz_finite|]. destruct xz_sums as [-> ->]. split; [reflexivity|]. split; [reflexivity|].
  assert (B := pow2_big). assert (B1 : pow2 1000 <= pow2 1020) by (apply bpow_le; lia). lra.
Qed.

(** ** C62: the documented cov(x, x) == var(x) holds if the deviation has not been asked for
    before, and var(x) == x.s() * x.s() if it has. *)
@C62_self_covariance_partial
@C62_documented_equalities_refuted
Example C62_case : dlegal abc /\ List.Forall (fun c => self_assign c = false) abc /\ run w_init abc = Ret (after abc) /\
  without_queries abc = abc /\ u_isindep (w_var (after abc) 3%nat) = Ret false.
Proof. split; [exact abc_legal|]. split; [repeat constructor|]. split; [exact abc_run|]. split; [reflexivity|vm_compute; reflexivity]. Qed.

(** ** C63: correlations on doubles are within 7 (n + 3) units of roundoff of the exact
    correlation of the stored coefficients, which is between -1 and 1, but they can be
    greater than 1. *)
@C63_correlation_accuracy_partial
@C63_correlation_bounded_refuted
Example C63_case : dlegal ddemo /\ List.Forall (fun c => self_assign c = false) ddemo /\ run w_init ddemo = Ret dworld /\
  let x := w_var dworld 0%nat in let z := w_var dworld 2%nat in
  no_underflow (coefs x) /\ no_underflow (coefs z) /\ sum_sq (coefs x) = 1 /\ sum_sq (coefs z) = 205 /\ 205 <= pow2 1020 /\
  sum_prod (common x z) / sqrt (sum_sq (coefs x) * sum_sq (coefs z)) = 13 / sqrt 205.
Proof.
  split; [exact ddemo_legal|]. split; [exact ddemo_no_self|]. split; [exact ddemo_run|]. cbv zeta.
  split; [apply no_underflow_big; [exact x_finite|rewrite x_coefs; repeat constructor; lra]|].
  split; [apply no_underflow_big; [exact z_finite|rewrite z_coefs; repeat constructor; lra]|].
  rewrite !sum_sq_reals, x_coefs, z_coefs. destruct xz_sums as [-> _]. cbn [fold_right].
  assert (B := pow2_big). assert (B1 : pow2 1000 <= pow2 1020) by (apply bpow_le; lia).
  split; [lra|]. split; [lra|]. split; [lra|]. f_equal. f_equal. ring.
Qed.

(** ** C64 *)
@C64_isfinite_sound
@C64_isfinite_complete_partial
@C64_isfinite_refuted
@C64_isnormal
Example C64_case : dlegal ddemo /\ List.Forall (fun c => self_assign c = false) ddemo /\ run w_init ddemo = Ret dworld /\
  let z := w_var dworld 2%nat in finite (u_n z) /\ List.Forall finite (coefs z) /\ sum_sq (coefs z) <= pow2 1020 /\
  u_isfinite z = true /\ u_isnormal z = true.
Proof.
  split; [exact ddemo_legal|]. split; [exact ddemo_no_self|]. split; [exact ddemo_run|]. cbv zeta.
  split; [vm_compute; reflexivity|]. split; [exact z_finite|].
  rewrite sum_sq_reals, z_coefs. cbn [fold_right].
  assert (B := pow2_big). assert (B1 : pow2 1000 <= pow2 1020) by (apply bpow_le; lia). split; [lra|]. split; vm_compute; reflexivity.
Qed.
