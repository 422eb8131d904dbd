(** * PropsIeee: the numeric type double (C52-C58, C61-C64)

    Generated from tools/PropsIeee.in. *)

From Coq Require Import List ZArith Reals Bool Lra Lia.
From Flocq Require Import Core BinarySingleNaN.
From Verif Require Import Base Num Map UReal World SpecObs HessGrad Moments CheckMoments UReal2 World2 SpecU2Run Ieee SpecIeee
  IeeeProofs IeeeProofs2 IeeeProofs3 IeeeProofs4 IeeeProofs5 IeeeProofs6 DemoIeee
  Stat SpecIeee2 IeeeCov IeeeCov2 IeeeCorr DemoIeee2 MathIeee MathIeeeProofs.
Import ListNotations.
Local Open Scope R_scope.

(** ** C52: the mean of a sum, difference, product or negation is the correctly rounded one;
    that of a quotient is computed with two roundings, so it is off by at most one part in
    2^52, and is not always the correctly rounded one. *)
Theorem C52_mean_rounded_once : forall w, dreachable w -> forall u v,
  let a := u_n (w_var w u) in let b := u_n (w_var w v) in
  finite a -> finite b ->
  (no_overflow (real_of a + real_of b) -> exists z, u_add (w_var w u) (w_var w v) = Ret z /\
     finite (u_n z) /\ real_of (u_n z) = nearest (real_of a + real_of b)) /\
  (no_overflow (real_of a - real_of b) -> exists z, u_sub (w_var w u) (w_var w v) = Ret z /\
     finite (u_n z) /\ real_of (u_n z) = nearest (real_of a - real_of b)) /\
  (no_overflow (real_of a * real_of b) -> exists z, u_mul (w_var w u) (w_var w v) = Ret z /\
     finite (u_n z) /\ real_of (u_n z) = nearest (real_of a * real_of b)) /\
  (finite (u_n (u_neg (w_var w u))) /\ real_of (u_n (u_neg (w_var w u))) = - real_of a).
Proof. exact C52_mean_rounded_once_proof. Qed.
Print Assumptions C52_mean_rounded_once.
Theorem C52_quotient_partial : forall w, dreachable w -> forall u v,
  let a := u_n (w_var w u) in let b := u_n (w_var w v) in
  finite a -> finite b ->
  pow2 (-1021) <= Rabs (real_of b) <= pow2 1021 ->
  (real_of a = 0 \/ pow2 (-1021) <= Rabs (real_of a / real_of b) <= pow2 1022) ->
  exists z, u_div (w_var w u) (w_var w v) = Ret z /\ finite (u_n z) /\
    Rabs (real_of (u_n z) - real_of a / real_of b) <= (pow2 (-52) + pow2 (-106)) * Rabs (real_of a / real_of b).
Proof. exact C52_quotient_partial_proof. Qed.
Print Assumptions C52_quotient_partial.
Theorem C52_quotient_refuted : exists w, dreachable w /\ exists u v z,
  let a := u_n (w_var w u) in let b := u_n (w_var w v) in
  finite a /\ finite b /\ real_of b <> 0 /\ no_overflow (real_of a / real_of b) /\
  u_div (w_var w u) (w_var w v) = Ret z /\ finite (u_n z) /\ real_of (u_n z) <> nearest (real_of a / real_of b).
Proof. exact C52_quotient_refuted_proof. Qed.
Print Assumptions C52_quotient_refuted.
Example C52_case : dreachable dworld /\
  let a := u_n (w_var dworld 0%nat) in let b := u_n (w_var dworld 1%nat) in
  finite a /\ finite b /\ no_overflow (real_of a + real_of b) /\ no_overflow (real_of a - real_of b) /\
  no_overflow (real_of a * real_of b) /\ pow2 (-1021) <= Rabs (real_of b) <= pow2 1021 /\
  pow2 (-1021) <= Rabs (real_of a / real_of b) <= pow2 1022.
Proof.
  split; [exact dworld_reach|]. cbv zeta. rewrite x_mean, y_mean. assert (B := pow2_big). assert (S := pow2_tiny).
  assert (B1 : pow2 1000 <= pow2 1021) by (apply bpow_le; lia). assert (B2 : pow2 1000 <= pow2 1022) by (apply bpow_le; lia).
  assert (S1 : pow2 (-1021) <= pow2 (-511)) by (apply bpow_le; lia).
  split; [vm_compute; reflexivity|]. split; [vm_compute; reflexivity|].
  split; [apply small_no_overflow; rewrite Rabs_pos_eq; lra|]. split; [apply small_no_overflow; rewrite Rabs_left; lra|].
  split; [apply small_no_overflow; rewrite Rabs_pos_eq; lra|]. rewrite !Rabs_pos_eq; lra.
Qed.

(** ** C53 *)
Theorem C53_rewriting : forall cs1 cs2, dlegal cs1 -> Forall2 rewritten cs1 cs2 ->
  exists w1 w2, run w_init cs1 = Ret w1 /\ run w_init cs2 = Ret w2 /\ same_obs w1 w2.
Proof. exact C53_rewriting_proof. Qed.
Print Assumptions C53_rewriting.
Example C53_case : dlegal ddemo /\ exists cs, Forall2 rewritten ddemo cs /\ cs =
  [CNew 0%nat (d 3) (d 1); CNew 1%nat (d 7) (d 2); CAdd 2%nat 1%nat 0%nat; CS 2%nat; CMul 2%nat 2%nat 0%nat].
Proof. split; [exact ddemo_legal|]. eexists. split; [|reflexivity]. repeat (constructor; try discriminate). Qed.

(** ** C54 *)
Theorem C54_never_negative : forall x : ureal DN,
  not_negative (u_s x) /\ not_negative (u_var x) /\
  not_negative (fst (u_s_caching x)) /\ not_negative (fst (u_var_caching x)).
Proof. exact C54_never_negative_proof. Qed.
Print Assumptions C54_never_negative.
Theorem C54_symmetric : forall x y : ureal DN, u_cov x y = u_cov y x /\ u_corr x y = u_corr y x.
Proof. exact C54_symmetric_proof. Qed.
Print Assumptions C54_symmetric.
Theorem C54_difference : forall w, dreachable w -> forall v,
  finite (u_n (w_var w v)) -> finite (u_s (u_neg (w_var w v))) ->
  exists z, u_sub (w_var w v) (w_var w v) = Ret z /\
    u_n z = n0 /\ u_s z = n0 /\ u_var z = n0 /\
    forall t, finite (u_s (u_neg (w_var w t))) -> u_cov z (w_var w t) = n0.
Proof. exact C54_difference_proof. Qed.
Print Assumptions C54_difference.
Example C54_case : dreachable dworld /\ finite (u_n (w_var dworld 2%nat)) /\ finite (u_s (u_neg (w_var dworld 2%nat))) /\
  real_of (u_n (w_var dworld 2%nat)) = 30.
Proof. split; [exact dworld_reach|]. split; [vm_compute; reflexivity|]. split; [vm_compute; reflexivity|exact z_mean]. Qed.

(** ** C55: asking for the standard deviation does not change the mean, the standard
    deviation, covariances and correlations, if no variable is assigned to itself with a
    compound assignment.  It does change the variance. *)
Theorem C55_caching_partial : forall cs, dlegal cs -> List.Forall (fun c => self_assign c = false) cs ->
  exists w w', run w_init cs = Ret w /\ run w_init (without_queries cs) = Ret w' /\
  forall u v,
    u_n (w_var w u) = u_n (w_var w' u) /\ u_s (w_var w u) = u_s (w_var w' u) /\
    u_isindep (w_var w u) = u_isindep (w_var w' u) /\ u_indepid (w_var w u) = u_indepid (w_var w' u) /\
    u_cov (w_var w u) (w_var w v) = u_cov (w_var w' u) (w_var w' v) /\
    u_corr (w_var w u) (w_var w v) = u_corr (w_var w' u) (w_var w' v) /\
    u_grad (w_var w u) (w_var w v) = u_grad (w_var w' u) (w_var w' v) /\
    fst (u_s_caching (w_var w u)) = u_s (w_var w u).
Proof. exact C55_caching_partial_proof. Qed.
Print Assumptions C55_caching_partial.
Theorem C55_var_refuted : exists cs w w', dlegal cs /\ List.Forall (fun c => self_assign c = false) cs /\
  run w_init cs = Ret w /\ run w_init (without_queries cs) = Ret w' /\
  exists v, finite (u_var (w_var w v)) /\ finite (u_var (w_var w' v)) /\
    u_var (w_var w v) <> u_var (w_var w' v) /\ fst (u_var_caching (w_var w' v)) <> u_var (w_var w' v).
Proof. exact C55_var_refuted_proof. Qed.
Print Assumptions C55_var_refuted.
Theorem C55_self_assign_refuted : exists cs w w', dlegal cs /\
  run w_init cs = Ret w /\ run w_init (without_queries cs) = Ret w' /\
  exists v, finite (u_s (w_var w v)) /\ finite (u_s (w_var w' v)) /\ u_s (w_var w v) <> u_s (w_var w' v).
Proof. exact C55_self_assign_refuted_proof. Qed.
Print Assumptions C55_self_assign_refuted.
Example C55_case : dlegal ddemo /\ List.Forall (fun c => self_assign c = false) ddemo /\ without_queries ddemo <> ddemo.
Proof. split; [exact ddemo_legal|]. split; [exact ddemo_no_self|]. intro E. apply (f_equal (@List.length _)) in E. discriminate E. Qed.

(** ** C56: adding a number does not change the standard deviation, unless the variable is
    independent and the square of its deviation overflows or underflows. *)
Theorem C56_adding_a_number_partial : forall cs w, dlegal cs -> List.Forall (fun c => self_assign c = false) cs ->
  run w_init cs = Ret w -> forall v (n : DN), let x := w_var w v in let c := u_const n in
  u_isindep x = Ret false \/ safe_dev (u_s x) ->
  exists z1 z2 z3, u_add x c = Ret z1 /\ u_add c x = Ret z2 /\ u_sub x c = Ret z3 /\
    u_s z1 = u_s x /\ u_s z2 = u_s x /\ u_s z3 = u_s x.
Proof. exact C56_adding_a_number_partial_proof. Qed.
Print Assumptions C56_adding_a_number_partial.
Theorem C56_adding_a_number_refuted :
  (exists w, dreachable w /\ exists v z, u_add (w_var w v) (u_const n0) = Ret z /\
     finite (u_s (w_var w v)) /\ 0 < real_of (u_s (w_var w v)) /\ u_s z = n0) /\
  (exists w, dreachable w /\ exists v z, u_add (w_var w v) (u_const n0) = Ret z /\
     finite (u_s (w_var w v)) /\ ~ finite (u_s z)).
Proof. exact C56_adding_a_number_refuted_proof. Qed.
Print Assumptions C56_adding_a_number_refuted.
Example C56_case : dlegal ddemo /\ List.Forall (fun c => self_assign c = false) ddemo /\ run w_init ddemo = Ret dworld /\
  u_isindep (w_var dworld 2%nat) = Ret false /\ safe_dev (u_s (w_var dworld 1%nat)).
Proof.
  split; [exact ddemo_legal|]. split; [exact ddemo_no_self|]. split; [exact ddemo_run|]. split; [vm_compute; reflexivity|].
  split; [vm_compute; reflexivity|]. right. rewrite y_dev. assert (B := pow2_big). assert (S := pow2_tiny).
  assert (B1 : pow2 511 = pow2 11 * pow2 500) by (unfold pow2; rewrite <- bpow_plus; reflexivity).
  assert (B2 : 1 <= pow2 500) by (change 1 with (bpow radix2 0); apply bpow_le; lia).
  assert (B3 : pow2 11 = 2048) by (unfold pow2; cbn -[IZR]; lra).
  rewrite Rabs_pos_eq by lra. rewrite B1, B3. lra.
Qed.

(** ** C57 *)
Theorem C57_accuracy : forall cs w, dlegal cs -> List.Forall (fun c => self_assign c = false) cs ->
  run w_init cs = Ret w -> forall v, let x := w_var w v in let n := List.length (coefs x) in
  no_underflow (coefs x) -> sum_sq (coefs x) <= pow2 1020 ->
  finite (u_s x) /\ finite (u_var x) /\
  (1 - uround) ^ (n + 3) * sum_sq (coefs x) <= real_of (u_s x) * real_of (u_s x) <= (1 + uround) ^ (n + 3) * sum_sq (coefs x) /\
  (1 - uround) ^ (n + 4) * sum_sq (coefs x) <= real_of (u_var x) <= (1 + uround) ^ (n + 4) * sum_sq (coefs x).
Proof. exact C57_accuracy_proof. Qed.
Print Assumptions C57_accuracy.
Example C57_case : dlegal ddemo /\ List.Forall (fun c => self_assign c = false) ddemo /\ run w_init ddemo = Ret dworld /\
  no_underflow (coefs (w_var dworld 2%nat)) /\ sum_sq (coefs (w_var dworld 2%nat)) = 205.
Proof.
  split; [exact ddemo_legal|]. split; [exact ddemo_no_self|]. split; [exact ddemo_run|].
  assert (E := z_coefs). assert (F := z_finite). assert (S := pow2_tiny).
  assert (S1 : pow2 (-510) = 2 * pow2 (-511)) by (unfold pow2; change (-510)%Z with (1 + -511)%Z; rewrite bpow_plus; f_equal).
  revert E F. generalize (coefs (w_var dworld 2%nat)). intros [|a [|b [|c l]]]; cbn [map]; intros [= Ea Eb]; intro F.
  inversion F as [|? ? Fa F']; subst. inversion F' as [|? ? Fb _]; subst.
  split; [|unfold sum_sq; cbn [fold_right]; rewrite Ea, Eb; lra].
  unfold no_underflow. constructor; [|constructor; [|constructor]]; (split; [assumption|right]).
  - rewrite Ea, Rabs_pos_eq; lra.
  - rewrite Eb, Rabs_pos_eq; lra.
Qed.

(** ** C58 *)
Theorem C58_linear_partial : forall eig K cs, legal2 cs -> List.Forall (linear2 K) cs ->
  exists w, run2 eig w2_init cs = Ret w /\ forall v, exists y : DN, u2_var (w2_var w v) = Ret y /\ not_negative y /\
    exists s : DN, u2_s (w2_var w v) = Ret s /\ s = dsqrt y /\ is_nan (s : double) = is_nan (y : double).
Proof. exact C58_linear_partial_proof. Qed.
Print Assumptions C58_linear_partial.
Theorem C58_deviation_is_a_number_refuted :
  exists (n s : DN) (m : moms DN) (thr : DN) (v : nat) cs,
    (exists p a b : R, 0 < p < 1 /\ two_point p a b n s m) /\
    forall eig, exists w y, run2 eig w2_init (ENewStd 0%nat n s m thr :: cs) = Ret w /\
      u2_var (w2_var w v) = Ret y /\ finite y /\ real_of y < 0 /\ u2_s (w2_var w v) = Ret B754_nan.
Proof. exact C58_deviation_is_a_number_refuted_proof. Qed.
Print Assumptions C58_deviation_is_a_number_refuted.
Example C58_case : legal2 ddemo2 /\ List.Forall (linear2 (fun v => Nat.eqb v 2)) ddemo2.
Proof. split; [exact ddemo2_legal|]. repeat (constructor; try (cbn; auto)). Qed.

(** ** C61 *)
Theorem C61_covariance_accuracy : forall w, dreachable w -> forall u v,
  let x := w_var w u in let y := w_var w v in let l := common x y in let n := List.length l in
  finite_pairs l -> sum_abs l <= pow2 1020 ->
  finite (u_cov x y) /\
  Rabs (real_of (u_cov x y) - sum_prod l) <= ((1 + uround) ^ (n + 1) - 1) * sum_abs l + INR n * pow2 (-1074).
Proof. exact C61_covariance_accuracy_proof. Qed.
Print Assumptions C61_covariance_accuracy.
Example C61_case : dreachable dworld /\ let l := common (w_var dworld 0%nat) (w_var dworld 2%nat) in
  finite_pairs l /\ sum_prod l = 13 /\ sum_abs l = 13 /\ 13 <= pow2 1020.
Proof.
  split; [exact dworld_reach|]. cbv zeta. split; [exact xz_finite|]. destruct xz_sums as [-> ->]. split; [reflexivity|]. split; [reflexivity|].
  assert (B := pow2_big). assert (B1 : pow2 1000 <= pow2 1020) by (apply bpow_le; lia). lra.
Qed.

(** ** C62: the documented cov(x, x) == var(x) holds if the deviation has not been asked for
    before, and var(x) == x.s() * x.s() if it has. *)
Theorem C62_self_covariance_partial : forall cs w, dlegal cs -> List.Forall (fun c => self_assign c = false) cs ->
  run w_init cs = Ret w -> forall v, let x := w_var w v in
  (without_queries cs = cs -> u_cov x x = u_var x) /\
  (u_var x = u_cov x x \/ u_var x = dmul (u_s x) (u_s x)) /\
  fst (u_var_caching x) = dmul (u_s x) (u_s x) /\
  (u_isindep x = Ret false -> u_s x = dsqrt (u_cov x x)).
Proof. exact C62_self_covariance_partial_proof. Qed.
Print Assumptions C62_self_covariance_partial.
Theorem C62_documented_equalities_refuted : exists w, dreachable w /\ exists v, let x := w_var w v in
  finite (u_cov x x) /\ finite (u_s x) /\ u_var x <> dmul (u_s x) (u_s x) /\ fst (u_var_caching x) <> u_cov x x.
Proof. exact C62_documented_equalities_refuted_proof. Qed.
Print Assumptions C62_documented_equalities_refuted.
Example C62_case : dlegal abc /\ List.Forall (fun c => self_assign c = false) abc /\ run w_init abc = Ret (after abc) /\
  without_queries abc = abc /\ u_isindep (w_var (after abc) 3%nat) = Ret false.
Proof. split; [exact abc_legal|]. split; [repeat constructor|]. split; [exact abc_run|]. split; [reflexivity|vm_compute; reflexivity]. Qed.

(** ** C63: correlations on doubles are within 7 (n + 3) units of roundoff of the exact
    correlation of the stored coefficients, which is between -1 and 1, but they can be
    greater than 1. *)
Theorem C63_correlation_accuracy_partial : forall cs w, dlegal cs -> List.Forall (fun c => self_assign c = false) cs ->
  run w_init cs = Ret w -> forall u v, let x := w_var w u in let y := w_var w v in
  let Sx := sum_sq (coefs x) in let Sy := sum_sq (coefs y) in
  let n := Nat.max (List.length (coefs x)) (List.length (coefs y)) in
  let rho := sum_prod (common x y) / sqrt (Sx * Sy) in
  no_underflow (coefs x) -> no_underflow (coefs y) -> 0 < Sx <= pow2 1020 -> 0 < Sy <= pow2 1020 ->
  finite (u_corr x y) /\ Rabs rho <= 1 /\ Rabs (real_of (u_corr x y) - rho) <= 7 * (INR n + 3) * uround.
Proof. exact C63_correlation_accuracy_partial_proof. Qed.
Print Assumptions C63_correlation_accuracy_partial.
Theorem C63_correlation_bounded_refuted : exists w, dreachable w /\ exists v, let x := w_var w v in
  finite (u_corr x x) /\ 1 < real_of (u_corr x x) /\
  exists c, corr_matrix [x; x] = Ret [c; c; c; c] /\ c = u_corr x x.
Proof. exact C63_correlation_bounded_refuted_proof. Qed.
Print Assumptions C63_correlation_bounded_refuted.
Example C63_case : dlegal ddemo /\ List.Forall (fun c => self_assign c = false) ddemo /\ run w_init ddemo = Ret dworld /\
  let x := w_var dworld 0%nat in let z := w_var dworld 2%nat in
  no_underflow (coefs x) /\ no_underflow (coefs z) /\ sum_sq (coefs x) = 1 /\ sum_sq (coefs z) = 205 /\ 205 <= pow2 1020 /\
  sum_prod (common x z) / sqrt (sum_sq (coefs x) * sum_sq (coefs z)) = 13 / sqrt 205.
Proof.
  split; [exact ddemo_legal|]. split; [exact ddemo_no_self|]. split; [exact ddemo_run|]. cbv zeta.
  split; [apply no_underflow_big; [exact x_finite|rewrite x_coefs; repeat constructor; lra]|].
  split; [apply no_underflow_big; [exact z_finite|rewrite z_coefs; repeat constructor; lra]|].
  rewrite !sum_sq_reals, x_coefs, z_coefs. destruct xz_sums as [-> _]. cbn [fold_right].
  assert (B := pow2_big). assert (B1 : pow2 1000 <= pow2 1020) by (apply bpow_le; lia).
  split; [lra|]. split; [lra|]. split; [lra|]. f_equal. f_equal. ring.
Qed.

(** ** C64 *)
Theorem C64_isfinite_sound : forall cs w, dlegal cs -> List.Forall (fun c => self_assign c = false) cs -> run w_init cs = Ret w ->
  forall v, let x := w_var w v in u_isfinite x = true -> finite (u_n x) /\ finite (u_s x) /\ List.Forall finite (coefs x).
Proof. exact C64_isfinite_sound_proof. Qed.
Print Assumptions C64_isfinite_sound.
Theorem C64_isfinite_complete_partial : forall cs w, dlegal cs -> List.Forall (fun c => self_assign c = false) cs -> run w_init cs = Ret w ->
  forall v, let x := w_var w v in finite (u_n x) -> List.Forall finite (coefs x) -> sum_sq (coefs x) <= pow2 1020 -> u_isfinite x = true.
Proof. exact C64_isfinite_complete_partial_proof. Qed.
Print Assumptions C64_isfinite_complete_partial.
Theorem C64_isfinite_refuted : exists w, dreachable w /\ exists u v,
  u_isfinite (w_var w u) = true /\ finite (u_n (w_var w v)) /\ List.Forall finite (coefs (w_var w v)) /\
  map real_of (coefs (w_var w u)) = map real_of (coefs (w_var w v)) /\ u_isfinite (w_var w v) = false.
Proof. exact C64_isfinite_refuted_proof. Qed.
Print Assumptions C64_isfinite_refuted.
Theorem C64_isnormal : forall x : ureal DN,
  (u_isnormal x = true <-> (finite (u_n x) /\ pow2 (-1022) <= Rabs (real_of (u_n x))) /\ (finite (u_s x) /\ pow2 (-1022) <= Rabs (real_of (u_s x)))) /\
  (u_isnormal x = true -> u_isfinite x = true).
Proof. exact C64_isnormal_proof. Qed.
Print Assumptions C64_isnormal.
Example C64_case : dlegal ddemo /\ List.Forall (fun c => self_assign c = false) ddemo /\ run w_init ddemo = Ret dworld /\
  let z := w_var dworld 2%nat in finite (u_n z) /\ List.Forall finite (coefs z) /\ sum_sq (coefs z) <= pow2 1020 /\
  u_isfinite z = true /\ u_isnormal z = true.
Proof.
  split; [exact ddemo_legal|]. split; [exact ddemo_no_self|]. split; [exact ddemo_run|]. cbv zeta.
  split; [vm_compute; reflexivity|]. split; [exact z_finite|].
  rewrite sum_sq_reals, z_coefs. cbn [fold_right].
  assert (B := pow2_big). assert (B1 : pow2 1000 <= pow2 1020) by (apply bpow_le; lia). split; [lra|]. split; vm_compute; reflexivity.
Qed.
