(** * PropsIoIeee: text of a number with uncertainty when the numeric type is double (C67)

    Generated from tools/PropsIoIeee.in. *)

From Coq Require Import List ZArith Bool Reals Ascii String Lra Lia.
From Flocq Require Import Core BinarySingleNaN.
From Verif Require Import Base Num Ieee SpecIeee IeeeProofs3 Math SpecMathIeee MathAcc5 Io SpecIo IoProofs IoIeee SpecIoIeee IoAcc1 IoAcc2 IoAcc3 IoAcc7 IoAcc8 IoAcc9.
Import ListNotations.
Local Open Scope R_scope.

(** ** C67 *)
(** Missing: deviations outside [10^-300, 10^300], means more than 10^9 times the deviation,
    more than three digits, and the means whose rounding reaches a power of ten, see the refuted
    statements below and C41, C42. *)
Theorem C67_text_on_doubles_partial : forall (M : cmath DN) (e : R) (mu s : double) (errdig : single) (sep : str), good_lib M e ->
  finite mu -> finite s -> few_digits errdig -> printable (real_of mu) (real_of s) ->
  exists out Mt St ee vM pM vS pS n, d_format M mu s errdig sep = Ret out /\
    layout out sep (Rltb (real_of mu) 0) Mt St ee /\ numeral Mt vM pM /\ numeral St vS pS /\
    let k := (ee - Z.of_nat pS)%Z in
    nearly (real_of s) k (vS * ten ee) (4 * e) /\ digits vS pS n /\
    IZR n - 1 <= B2R errdig < IZR n + 1 /\ ((exists i, B2R errdig = IZR i) -> B2R errdig = IZR n) /\ chosen_digits (real_of s) (B2R errdig) n /\
    (Rabs (real_of mu) < 9 / 10 * ten k \/ far (real_of mu) k -> pM = pS) /\
    (k <> 0%Z \/ ee <> 0%Z \/ Rabs (real_of mu) < 9 / 10 \/ far (real_of mu) k -> nearly (real_of mu) k (vM * ten ee) (4 * e)).
Proof. exact C67_text_on_doubles_partial_proof. Qed.
Print Assumptions C67_text_on_doubles_partial.
(** Missing: numbers below 10^-300 in absolute value; the sign is lost, see C43. *)
Theorem C67_no_uncertainty_on_doubles_partial : forall (M : cmath DN) (e : R) (mu s : double) (errdig : single) (sep : str), good_lib M e ->
  Bleb errdig (fofZ 1) = false ->
  ~ finite mu \/ ~ finite s \/ real_of s = 0 ->
  (finite mu -> real_of mu = 0 \/ ten (-300) <= Rabs (real_of mu)) -> (finite s -> real_of s = 0 \/ ten (-300) <= Rabs (real_of s)) ->
  exists out a b, d_format M mu s errdig sep = Ret out /\ out = a ++ sep ++ b /\ value_text (4 * e) mu a /\ value_text (4 * e) s b.
Proof. exact C67_no_uncertainty_on_doubles_partial_proof. Qed.
Print Assumptions C67_no_uncertainty_on_doubles_partial.
Theorem C67_overflow_refuted : exists (mu s : double) (errdig : single) (sep : str), finite mu /\ finite s /\ pow2 (-500) <= real_of s /\ real_of mu <= pow2 700 /\ few_digits errdig /\
  forall (M : cmath DN) (e : R), good_lib M e -> d_format M mu s errdig sep = UB.
Proof. exact C67_overflow_refuted_proof. Qed.
Print Assumptions C67_overflow_refuted.
Theorem C67_subnormal_refuted : exists (s : double) (errdig : single) (sep : str), finite s /\ 0 < real_of s /\ few_digits errdig /\
  forall (M : cmath DN) (e : R) (mu : double), good_lib M e -> finite mu ->
  c_pow M (dofZ 10) (dofZ 325) = B754_infinity false -> c_pow M (dofZ 10) (dofZ (-324)) = dzero ->
  d_format M mu s errdig sep = UB.
Proof. exact C67_subnormal_refuted_proof. Qed.
Print Assumptions C67_subnormal_refuted.
Theorem C67_assert_refuted : exists (mu s : double) (errdig : single) (sep : str), finite mu /\ finite s /\ ten (-12) <= real_of s /\ real_of mu <= ten 3 /\ few_digits errdig /\
  forall (M : cmath DN), best_lib M -> d_format M mu s errdig sep = Assert.
Proof. exact C67_assert_refuted_proof. Qed.
Print Assumptions C67_assert_refuted.

(** 3/2 with deviation 1/8, 3/2 digits, and a correctly rounded <cmath>: all the conditions hold. *)
Example C67_case : let mu : double := ddiv (dofZ 3) (dofZ 2) in let s : double := ddiv (dofZ 1) (dofZ 8) in
  let errdig : single := Bdiv mode_NE (fofZ 3) (fofZ 2) in
  good_lib rounded_cmath uround /\ finite mu /\ finite s /\ real_of mu = 3 / 2 /\ real_of s = / 8 /\ B2R errdig = 3 / 2 /\ few_digits errdig /\ printable (3 / 2) (/ 8) /\
  clear (3 / 2) /\ far (3 / 2) (-2) /\ decade (/ 8) (-1) /\ int_frac (3 / 2) 1 (/ 2) /\ / 8 <= ten (-1) * Rpower 10 (/ 2 - ten (-4)).
Proof.
  intros mu s errdig. assert (T1 : ten (-1) = / 10) by (change (-1)%Z with (- (1))%Z; rewrite ten_opp, ten_1; reflexivity).
  assert (Em : real_of mu = 3 / 2) by (unfold real_of; replace mu with (flt false 6755399441055744 (-52) eq_refl) by (apply B2SF_inj; vm_compute; reflexivity); unfold flt, B2R, F2R; cbn; lra).
  assert (Es : real_of s = / 8) by (unfold real_of; replace s with (flt false 4503599627370496 (-55) eq_refl) by (apply B2SF_inj; vm_compute; reflexivity); unfold flt, B2R, F2R; cbn; lra).
  assert (Ee : B2R errdig = 3 / 2) by (replace errdig with (@B754_finite 24 128 false 12582912 (-23) eq_refl) by (apply B2SF_inj; vm_compute; reflexivity); unfold B2R, F2R; cbn; lra).
  assert (J : forall j, ten j <= 1 \/ 10 <= ten j).
  { intro j. destruct (Z_le_gt_dec j 0) as [H|H]; [left; rewrite <- ten_0|right; rewrite <- ten_1]; apply ten_le; lia. }
  assert (V := margin_val).
  split; [exact rounded_good|]. split; [vm_compute; reflexivity|]. split; [vm_compute; reflexivity|]. split; [exact Em|]. split; [exact Es|]. split; [exact Ee|].
  split; [split; [vm_compute; reflexivity|left; lra]|]. split.
  { assert (A : ten (-300) <= ten (-1)) by (apply ten_le; lia). assert (B : 1 <= ten 300) by (rewrite <- ten_0; apply ten_le; lia). assert (C : ten 2 <= ten 9) by (apply ten_le; lia).
    rewrite (ten_IZR 2) in C by lia. change (10 ^ 2)%Z with 100%Z in C. split; [lra|]. left. rewrite Rabs_pos_eq; lra. }
  split. { intro k. right. rewrite (Rabs_pos_eq (3 / 2)) by lra. rewrite V. assert (P := ten_pos k). destruct (J k) as [H|H]; [rewrite Rabs_pos_eq|rewrite Rabs_left1]; lra. }
  split. { intro j. rewrite (Rabs_pos_eq (3 / 2)) by lra. assert (A : ten (-2) <= ten 0) by (apply ten_le; lia). rewrite ten_0 in A. rewrite V. destruct (J j) as [H|H]; [right; lra|left; lra]. }
  split. { unfold decade. rewrite Rabs_pos_eq by lra. change (-1 + 1)%Z with 0%Z. rewrite ten_0, T1. lra. }
  split; [split; lra|]. rewrite T1, ten_m4. assert (G := Rpower_ge (/ 2 - / 10000) ltac:(lra)). lra.
Qed.
(** The library of the refuted statements exists. *)
Example C67_case_libraries : best_lib rounded_cmath /\
  c_pow rounded_cmath (dofZ 10) (dofZ 325) = B754_infinity false /\ c_pow rounded_cmath (dofZ 10) (dofZ (-324)) = dzero.
Proof. split; [exact rounded_best|exact rounded_tiny]. Qed.
(** A number without uncertainty. *)
Example C67_case_no_uncertainty : let mu : double := ddiv (dofZ 3) (dofZ 2) in
  Bleb (fofZ 2) (fofZ 1) = false /\ finite mu /\ ten (-300) <= Rabs (real_of mu) /\ real_of dzero = 0 /\ ~ finite (B754_nan : double).
Proof.
  intro mu. split; [vm_compute; reflexivity|]. split; [vm_compute; reflexivity|]. split; [|split; [reflexivity|discriminate]].
  assert (Em : real_of mu = 3 / 2) by (unfold real_of; replace mu with (flt false 6755399441055744 (-52) eq_refl) by (apply B2SF_inj; vm_compute; reflexivity); unfold flt, B2R, F2R; cbn; lra).
  rewrite Em, Rabs_pos_eq by lra. assert (A : ten (-300) <= ten 0) by (apply ten_le; lia). rewrite ten_0 in A. lra.
Qed.
