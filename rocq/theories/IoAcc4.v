(** * IoAcc4: number of digits of a double *)

From Coq Require Import List ZArith Bool Reals Ascii String Lra Lia Psatz.
From Flocq Require Import Core BinarySingleNaN Sterbenz.
From Verif Require Import Base Num Ieee SpecIeee IeeeProofs3 IeeeProofs4 IeeeCov Math SpecMathIeee MathAcc7 Io SpecIo IoProofs IoProofs2
  IoIeee SpecIoIeee IoAcc1 IoAcc2 IoAcc3.
Import ListNotations.
Local Open Scope R_scope.

Lemma ten_S_le a b : (a <= b + 1)%Z -> ten a <= 10 * ten b.
Proof. intro H. rewrite <- ten_S. now apply ten_le. Qed.
Lemma ten_gt_inv c a b : ten a * (1 - margin) <= c -> c <= ten b -> (a <= b)%Z.
Proof.
  intros H K. destruct (Z_le_gt_dec a b) as [|L]; [assumption|exfalso]. assert (Q : ten (b + 1) <= ten a) by (apply ten_le; lia). rewrite ten_S in Q.
  assert (P := ten_pos b). assert (V := margin_val). nra.
Qed.
Lemma ten_lt_inv2 c a b : ten a <= c -> c <= ten (b + 1) * (1 + margin) -> (a <= b + 1)%Z.
Proof.
  intros H K. destruct (Z_le_gt_dec a (b + 1)) as [|L]; [assumption|exfalso]. assert (Q : ten (b + 1 + 1) <= ten a) by (apply ten_le; lia). rewrite ten_S in Q.
  assert (P := ten_pos (b + 1)). assert (V := margin_val). nra.
Qed.

Section Lib.
Variables (M : cmath DN) (e : R).
Hypothesis GL : good_lib M e.

Lemma int_mantissa_sign x n ex : finite x -> 0 <= real_of x -> (-307 <= n - 1 - ex <= 307)%Z -> Rabs (real_of x) * ten (n - 1 - ex) <= pow2 51 ->
  0 <= real_of (d_int_mantissa M x n ex).
Proof.
  intros F P H HT. destruct (pow10_close M e GL (n - 1 - ex) H) as [Fp Cp]. destruct (e_rng M e GL) as [[E1 E2] _]. assert (Pk := ten_pos (n - 1 - ex)).
  rewrite (Rabs_pos_eq (ten _)) in Cp by lra. apply Rabs_le_inv in Cp. rewrite Rabs_pos_eq in HT by exact P. change (pow2 51) with 2251799813685248 in HT.
  assert (Pp : 0 <= real_of (dpow10 M (n - 1 - ex))) by nra.
  assert (NO : no_overflow (real_of x * real_of (dpow10 M (n - 1 - ex)))).
  { apply fits. rewrite Rabs_pos_eq by now apply Rmult_le_pos. apply Rle_trans with (pow2 53); [|apply pow2_le; lia]. change (pow2 53) with 9007199254740992.
    assert (real_of x * real_of (dpow10 M (n - 1 - ex)) <= real_of x * (2 * ten (n - 1 - ex))) by (apply Rmult_le_compat_l; nra). nra. }
  destruct (dmul_round x _ F Fp NO) as [Fm Em]. destruct (dround_correct _ Fm) as [_ Er]. unfold d_int_mantissa. rewrite Er.
  assert (Q := @Zrnd_le ZnearestA _ (IZR 0) (real_of (dmul x (dpow10 M (n - 1 - ex))))). rewrite (@Zrnd_IZR ZnearestA _ 0) in Q. apply (IZR_le 0), Q.
  rewrite Em. apply nearest_nonneg. now apply Rmult_le_pos.
Qed.

Lemma rounded_value s n x : finite s -> 0 < real_of s -> (-304 <= x <= 302)%Z -> (1 <= n <= 4)%Z -> ten x * (1 - margin) <= Rabs (real_of s) <= ten (x + 1) * (1 + margin) ->
  exists z, let r := dmul (d_int_mantissa M s n x) (dpow10 M x) in
    finite r /\ Rabs (IZR z - real_of s * ten (n - 1 - x)) <= / 2 + 4 * e * (real_of s * ten (n - 1 - x)) /\ (10 ^ (n - 1) <= z <= 10 ^ n)%Z /\
    Rabs (real_of r - IZR z * ten x) <= 3 * e * (IZR z * ten x).
Proof.
  intros F P Hx Hn J. assert (As : Rabs (real_of s) = real_of s) by (apply Rabs_pos_eq; lra). rewrite As in J. destruct (e_rng M e GL) as [[E1 E2] Eu].
  assert (V := margin_val). assert (Px := ten_pos x). assert (Pk := ten_pos (n - 1 - x)).
  set (T := real_of s * ten (n - 1 - x)).
  assert (T1 : ten (n - 1) * (1 - margin) <= T).
  { unfold T. replace (n - 1)%Z with (x + (n - 1 - x))%Z at 1 by lia. rewrite ten_add. nra. }
  assert (T2 : T <= ten n * (1 + margin)).
  { unfold T. replace n with (x + 1 + (n - 1 - x))%Z at 2 by lia. rewrite (ten_add (x + 1)). nra. }
  assert (Tn : ten n <= 10000). { apply Rle_trans with (ten 4); [apply ten_le; lia|]. rewrite ten_IZR by lia. change (10 ^ 4)%Z with 10000%Z. lra. }
  assert (P0 := ten_pos n). assert (P1 := ten_pos (n - 1)). assert (PT : 0 <= T) by (unfold T; nra).
  assert (HT : Rabs (real_of s) * ten (n - 1 - x) <= pow2 51) by (rewrite As; fold T; change (pow2 51) with 2251799813685248; nra).
  destruct (int_mantissa_close M e GL s n x F ltac:(lia) HT) as (z & Fm & Em & Zc & Zr). rewrite As in Zc. fold T in Zc.
  rewrite Rabs_pos_eq in Em by (apply int_mantissa_sign; auto; lra || lia).
  exists z. cbv zeta. fold T.
  assert (Zc' := Zc). apply Rabs_le_inv in Zc'.
  assert (S4 : 4 * e * T <= / 100) by nra.
  assert (Zb : (10 ^ (n - 1) <= z <= 10 ^ n)%Z).
  { rewrite (ten_IZR (n - 1)) in T1 by lia. rewrite (ten_IZR n) in T2, Tn, P0 by lia. assert (ten (n - 1) <= ten n) by (apply ten_le; lia). rewrite !ten_IZR in H by lia. rewrite ten_IZR in P1 by lia. split.
    - assert (A : IZR (10 ^ (n - 1)) < IZR (z + 1)) by (rewrite plus_IZR; nra). apply lt_IZR in A. lia.
    - assert (A : IZR z < IZR (10 ^ n + 1)) by (rewrite plus_IZR; nra). apply lt_IZR in A. lia. }
  destruct (pow10_close M e GL x ltac:(lia)) as [Fp Cp]. rewrite (Rabs_pos_eq (ten x)) in Cp by lra. set (p := real_of (dpow10 M x)) in *.
  assert (Z1 : 1 <= IZR z). { apply (IZR_le 1). assert (0 < 10 ^ (n - 1))%Z by (apply Z.pow_pos_nonneg; lia). lia. }
  assert (Z2 : IZR z <= 10000). { rewrite ten_IZR in Tn by lia. apply Rle_trans with (2 := Tn). apply IZR_le. lia. }
  assert (Cp' := Cp). apply Rabs_le_inv in Cp'.
  assert (Xlo : pow2 (-1021) <= ten x). { apply Rle_trans with (ten (-307)); [|apply ten_le; lia]. change (-307)%Z with (- (307))%Z. rewrite ten_opp. change (-1021)%Z with (- (1021))%Z. unfold pow2. rewrite bpow_opp.
    apply Rinv_le_contravar; [apply ten_pos|]. rewrite ten_IZR, <- (IZR_Zpower radix2) by lia. apply IZR_le. vm_compute. discriminate. }
  assert (Xhi : 10000 * ten x <= pow2 1021). { apply Rle_trans with (ten 306). { change 10000 with (IZR (10 ^ 4)). rewrite <- ten_IZR, <- ten_add by lia. apply ten_le; lia. }
    unfold pow2. rewrite ten_IZR, <- (IZR_Zpower radix2) by lia. apply IZR_le. vm_compute. discriminate. }
  assert (Pp : 0 < p) by nra.
  assert (Zp : 0 < IZR z * p) by nra.
  assert (Zp2 : Rabs (IZR z * p - IZR z * ten x) <= e * (IZR z * ten x)).
  { rewrite <- Rmult_minus_distr_l, Rabs_mult, (Rabs_pos_eq (IZR z)) by lra. assert (Q := Rmult_le_compat_l (IZR z) _ _ ltac:(lra) Cp). lra. }
  assert (Zp3 := Zp2). apply Rabs_le_inv in Zp3.
  assert (ZX : ten x <= IZR z * ten x <= 10000 * ten x) by (split; nra).
  assert (NO : no_overflow (real_of (d_int_mantissa M s n x) * real_of (dpow10 M x))).
  { rewrite Em. fold p. apply fits. rewrite Rabs_pos_eq by lra. apply Rle_trans with (2 * pow2 1021); [nra|]. change 1023%Z with (2 + 1021)%Z. rewrite pow2_add. change (pow2 2) with 4. assert (Q := pow2_pos 1021). lra. }
  destruct (dmul_round _ _ Fm Fp NO) as [Fr Er]. split; [exact Fr|]. split; [exact Zc|]. split; [exact Zb|]. rewrite Er, Em. fold p.
  assert (Re := rel_err (IZR z * p)). rewrite (Rabs_pos_eq (IZR z * p)) in Re by lra.
  assert (Lo2 : pow2 (-1022) <= IZR z * p). { change (-1021)%Z with (1 + -1022)%Z in Xlo. rewrite pow2_add in Xlo. change (pow2 1) with 2 in Xlo. assert (Q := pow2_pos (-1022)). nra. }
  specialize (Re Lo2). change (pow2 (-53)) with ur in Re.
  replace (nearest (IZR z * p) - IZR z * ten x) with ((nearest (IZR z * p) - IZR z * p) + (IZR z * p - IZR z * ten x)) by ring.
  eapply Rle_trans; [apply Rabs_triang|]. assert (U := ur_small).
  assert (ur * (IZR z * p) <= e * (2 * (IZR z * ten x))) by (apply Rmult_le_compat; nra). nra.
Qed.
End Lib.
