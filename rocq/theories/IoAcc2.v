(** * IoAcc2: exponents and mantissas of doubles *)

From Coq Require Import List ZArith Bool Reals Ascii String Lra Lia Psatz.
From Flocq Require Import Core BinarySingleNaN.
From Verif Require Import Base Num Ieee SpecIeee IeeeProofs3 IeeeProofs4 IeeeCov Math SpecMathIeee MathAcc7 Io SpecIo IoProofs IoProofs2
  IoIeee SpecIoIeee IoAcc1.
Import ListNotations.
Local Open Scope R_scope.

(** ** Logarithms *)
Lemma exp_ge x : 1 + x <= exp x.
Proof. destruct (Req_dec x 0) as [->|N]; [rewrite exp_0; lra|]. left. now apply exp_ineq1. Qed.
Lemma ln_le_sub a : 0 < a -> ln a <= a - 1.
Proof. intro H. assert (E := exp_ge (ln a)). rewrite exp_ln in E by exact H. lra. Qed.
Lemma ln_ge_sub a : 0 < a -> 1 - / a <= ln a.
Proof. intro H. assert (E := ln_le_sub (/ a) (Rinv_0_lt_compat _ H)). rewrite ln_Rinv in E by exact H. lra. Qed.
Lemma ln10_bounds : 2 < ln 10 < 24 / 10.
Proof.
  split.
  - rewrite <- (ln_exp 2). apply ln_increasing; [apply exp_pos|]. replace 2 with (1 + 1) by lra. rewrite exp_plus. assert (E := exp_le_3). assert (P := exp_pos 1). nra.
  - rewrite <- (ln_exp (24 / 10)). apply ln_increasing; [lra|]. replace (24 / 10) with (INR 48 * (5 / 100)) by (rewrite INR_IZR_INZ; simpl; lra).
    assert (G : forall n x, exp (INR n * x) = exp x ^ n). { intros n x. induction n as [|n IH]; [cbn; rewrite Rmult_0_l; apply exp_0|]. rewrite S_INR. cbn [pow]. rewrite <- IH, <- exp_plus. f_equal. ring. }
    rewrite G. apply Rlt_le_trans with ((1 + 5 / 100) ^ 48); [cbn; lra|]. apply pow_incr. assert (E := exp_ge (5 / 100)). lra.
Qed.
Lemma ln_le a b : 0 < a -> a <= b -> ln a <= ln b.
Proof. intros P [H| ->]; [left; now apply ln_increasing|lra]. Qed.
Lemma log10_bounds a i j : ten i <= a -> a <= ten j -> IZR i <= log10 a <= IZR j.
Proof.
  intros H K. assert (P := ten_pos i). assert (Pa : 0 < a) by lra.
  rewrite <- (log10_Rpower (IZR i)), <- (log10_Rpower (IZR j)), <- !ten_Rpower.
  assert (L10 := ln10). unfold log10. split; apply Rmult_le_compat_r; try (left; now apply Rinv_0_lt_compat); apply ln_le; lra.
Qed.

(** a double which is not 1 is not very near to 1 *)
Lemma not_one (a : double) : real_of a <> 1 -> real_of a <= 1 - ur \/ 1 + ur <= real_of a.
Proof.
  intro N. assert (Fa := generic_format_B2R 53 1024 a). assert (F1 : generic_format radix2 (SpecFloat.fexp 53 1024) 1).
  { destruct (dofZ_exact 1 ltac:(cbn; lia)) as [_ E]. rewrite <- E. apply generic_format_B2R. }
  fold (real_of a) in Fa. assert (V : Valid_exp (SpecFloat.fexp 53 1024)) by (apply (FLT_exp_valid (-1074) 53)).
  destruct (Rtotal_order (real_of a) 1) as [L|[E|G]]; [left|contradiction|right].
  - apply (pred_ge_gt radix2 (SpecFloat.fexp 53 1024)) in L; [|exact Fa|exact F1]. change 1 with (bpow radix2 0) in L at 1. rewrite pred_bpow in L. exact L.
  - apply (succ_le_lt radix2 (SpecFloat.fexp 53 1024)) in G; [|exact F1|exact Fa]. rewrite succ_eq_pos in G by lra. change (ulp radix2 (SpecFloat.fexp 53 1024) 1) with (ulp radix2 (SpecFloat.fexp 53 1024) (bpow radix2 0)) in G.
    rewrite ulp_bpow in G. change (bpow radix2 (SpecFloat.fexp 53 1024 (0 + 1))) with (2 * ur) in G || (change (SpecFloat.fexp 53 1024 (0 + 1)) with (-52)%Z in G).
    assert (bpow radix2 (-52) = 2 * ur) by (unfold ur; change (-52)%Z with (1 + -53)%Z; rewrite bpow_plus; reflexivity). assert (U := ur_small). lra.
Qed.
Lemma double_range (a : double) : finite a -> 0 < real_of a -> ten (-324) <= real_of a <= ten 309.
Proof.
  intros F P. split.
  - apply Rle_trans with (bpow radix2 (-1074)).
    + change (-324)%Z with (- (324))%Z. change (-1074)%Z with (- (1074))%Z. rewrite ten_opp, bpow_opp. apply Rinv_le_contravar; [apply bpow_gt_0|].
      rewrite ten_IZR, <- (IZR_Zpower radix2) by lia. apply IZR_le. vm_compute. discriminate.
    + assert (G := abs_B2R_ge_emin 53 1024 a). destruct a; try discriminate; cbn in P; try lra. 
      specialize (G eq_refl). rewrite Rabs_pos_eq in G by (left; exact P). exact G.
  - left. apply Rlt_le_trans with (bpow radix2 1024).
    + assert (B := abs_B2R_lt_emax 53 1024 a). fold (real_of a) in B. rewrite Rabs_pos_eq in B by lra. exact B.
    + rewrite ten_IZR, <- (IZR_Zpower radix2) by lia. apply IZR_le. vm_compute. discriminate.
Qed.
Lemma log_regular (a : double) : finite a -> 0 < real_of a -> regular (log10 (real_of a)) /\ Rabs (log10 (real_of a)) <= 324.
Proof.
  intros F P. destruct (double_range a F P) as [R1 R2]. assert (B := log10_bounds _ _ _ R1 R2).
  assert (Ab : Rabs (log10 (real_of a)) <= 324) by (apply Rabs_le; lra). split; [|exact Ab].
  assert (L10 := ln10_bounds). destruct (Req_dec (real_of a) 1) as [E|N]; [left; rewrite E; unfold log10; rewrite ln_1; field; lra|].
  right. split; [|apply Rle_trans with (1 := Ab); apply Rle_trans with (bpow radix2 10); [change (bpow radix2 10) with 1024; lra|apply bpow_le; lia]].
  assert (U := ur_small). assert (U4 : ur / 8 <= Rabs (ln (real_of a) / ln 10)).
  { unfold Rdiv at 2. rewrite Rabs_mult, (Rabs_pos_eq (/ ln 10)) by (left; apply Rinv_0_lt_compat; lra).
    assert (I : / 4 <= / ln 10) by (apply Rinv_le_contravar; lra).
    assert (ur / 2 <= Rabs (ln (real_of a))).
    { destruct (not_one a N) as [H|H].
      - assert (Q := ln_le_sub _ P). rewrite Rabs_left by lra. lra.
      - assert (Q := ln_ge_sub _ P). assert (X : / real_of a <= / (1 + ur)) by (apply Rinv_le_contravar; lra).
        assert (Y : 1 - / (1 + ur) = ur / (1 + ur)) by (field; lra).
        assert (Z : ur / 2 <= ur / (1 + ur)) by (apply Rmult_le_compat_l; [lra|]; apply Rinv_le_contravar; lra).
        rewrite Rabs_pos_eq by lra. lra. }
    assert (G := Rmult_le_compat (ur / 2) (Rabs (ln (real_of a))) (/ 4) (/ ln 10) ltac:(lra) ltac:(lra) ltac:(lra) ltac:(lra)). lra. }
  unfold log10. apply Rle_trans with (2 := U4). replace (ur / 8) with (bpow radix2 (-56)); [apply bpow_le; lia|]. unfold ur. change (-56)%Z with (-53 + -3)%Z. rewrite bpow_plus. reflexivity.
Qed.

(** ** The decade of a double *)
Definition tau : R := 324 * pow2 (-51).
Lemma tau_val : tau = 324 / 2251799813685248. Proof. unfold tau. change (pow2 (-51)) with (/ 2251799813685248). unfold Rdiv. reflexivity. Qed.
Lemma margin_val : margin = 4 / 10000000000000.
Proof. unfold margin. change (-13)%Z with (- (13))%Z. rewrite ten_opp, ten_IZR by lia. change (10 ^ 13)%Z with 10000000000000%Z. lra. Qed.
Lemma tau_margin : Rpower 10 tau <= 1 + margin /\ 1 - margin <= Rpower 10 (- tau).
Proof.
  assert (L := ln10_bounds). rewrite tau_val, margin_val. set (t := 324 / 2251799813685248). assert (T : 0 < t) by (unfold t; lra).
  unfold Rpower. set (y := t * ln 10). assert (Y : 0 < y <= 24 / 10 * t) by (unfold y; split; nra).
  assert (Yt : y <= 777.6 / 2251799813685248) by (unfold t in Y; lra).
  assert (Em := exp_ge (- y)). replace (- t * ln 10) with (- y) by (unfold y; ring). split; [|lra].
  rewrite exp_Ropp in Em. assert (P := exp_pos y). apply (Rmult_le_compat_l (exp y)) in Em; [|lra]. rewrite Rinv_r in Em by lra. 
  assert (Q : 0 < 1 + - y) by lra. apply (Rmult_le_reg_r (1 + - y)); [exact Q|]. nra.
Qed.

Section Lib.
Variables (M : cmath DN) (e : R).
Hypothesis GL : good_lib M e.

Lemma e_rng : 0 < e <= / 2251799813685248 /\ ur <= e.
Proof. destruct GL as [[A B] _]. assert (U := ur_small). change (pow2 (-51)) with (/ 2251799813685248) in B. change uround with ur in A. lra. Qed.

Definition lg (x : double) : double := c_log10 M (dabs x).
Lemma abs_facts x : finite x -> finite (dabs x) /\ real_of (dabs x) = Rabs (real_of x).
Proof. intro F. split; [unfold finite, dabs; now rewrite is_finite_Babs|]. unfold real_of, dabs. now rewrite B2R_Babs. Qed.
Lemma lg_spec x : finite x -> real_of x <> 0 -> finite (lg x) /\ Rabs (real_of (lg x) - log10 (Rabs (real_of x))) <= e * Rabs (log10 (Rabs (real_of x))) /\
  Rabs (log10 (Rabs (real_of x))) <= 324.
Proof.
  intros F N. destruct (abs_facts x F) as [Fa Ea]. assert (P : 0 < real_of (dabs x)) by (rewrite Ea; now apply Rabs_pos_lt).
  destruct (log_regular _ Fa P) as [Rg B]. destruct GL as [_ A]. destruct (acc_log10 M e A (dabs x) Fa P Rg) as [Fl El]. rewrite Ea in *. auto.
Qed.
Lemma lg_tau x : finite x -> real_of x <> 0 -> Rabs (real_of (lg x) - log10 (Rabs (real_of x))) <= tau.
Proof.
  intros F N. destruct (lg_spec x F N) as (_ & A & B). destruct e_rng as [[E1 E2] _]. apply Rle_trans with (1 := A). rewrite tau_val.
  assert (Q := Rabs_pos (log10 (Rabs (real_of x)))). assert (H := Rmult_le_compat e (/ 2251799813685248) (Rabs (log10 (Rabs (real_of x)))) 324 ltac:(lra) Q E2 B). lra.
Qed.
Lemma Zfloor_spec r : IZR (Zfloor r) <= r < IZR (Zfloor r) + 1.
Proof. split; [apply Zfloor_lb|apply Zfloor_ub]. Qed.

Lemma judge x : finite x -> real_of x <> 0 -> exists k, d_exponent M x = Ret k /\ k = Zfloor (real_of (lg x)) /\ (-326 <= k <= 325)%Z /\
  ten k * (1 - margin) <= Rabs (real_of x) <= ten (k + 1) * (1 + margin).
Proof.
  intros F N. destruct (lg_spec x F N) as (Fl & El & Bl). assert (T := lg_tau x F N). destruct (dfloor_correct _ Fl) as [Ff Ef].
  set (k := Zfloor (real_of (lg x))) in *. exists k. assert (K := Zfloor_spec (real_of (lg x))). fold k in K.
  set (L := log10 (Rabs (real_of x))) in *. apply Rabs_le_inv in T, Bl. assert (Tv := tau_val).
  assert (Kb : (-326 <= k <= 325)%Z).
  { assert (A : IZR (-326) < IZR k) by lra. assert (B : IZR k < IZR 325) by lra. apply lt_IZR in A, B. lia. }
  split; [|split; [reflexivity|split; [exact Kb|]]].
  - unfold d_exponent. apply (to_int_ok 53 1024 _ _ k Ff Ef). lia.
  - assert (P : 0 < Rabs (real_of x)) by now apply Rabs_pos_lt. rewrite <- (Rpower_log10 _ P). fold L. destruct tau_margin as [M1 M2].
    assert (Mv := margin_val). split.
    + apply Rle_trans with (Rpower 10 (IZR k + - tau)); [|apply Rle_Rpower; lra]. rewrite Rpower_plus, <- ten_Rpower. apply Rmult_le_compat_l; [left; apply ten_pos|exact M2].
    + apply Rle_trans with (Rpower 10 (IZR (k + 1) + tau)); [apply Rle_Rpower; [lra|rewrite plus_IZR; lra]|]. rewrite Rpower_plus, <- ten_Rpower. apply Rmult_le_compat_l; [left; apply ten_pos|exact M1].
Qed.
Lemma clear_judge x k : clear x -> ten k * (1 - margin) <= Rabs x <= ten (k + 1) * (1 + margin) -> ten k <= Rabs x <= ten (k + 1).
Proof.
  intros C [A B]. assert (P := ten_pos k). assert (P1 := ten_pos (k + 1)). split.
  - destruct (C k) as [->|H]; [lra|]. apply Rnot_lt_le. intro Q. rewrite Rabs_left in H by lra. nra.
  - destruct (C (k + 1)%Z) as [->|H]; [lra|]. apply Rnot_lt_le. intro Q. rewrite Rabs_pos_eq in H by lra. nra.
Qed.

(** ** The integer mantissa *)
Lemma pow10_close k : (-307 <= k <= 307)%Z -> close e (dpow10 M k) (ten k).
Proof.
  intro H. destruct (dofZ_exact 10 ltac:(cbn; lia)) as [F1 E1]. destruct (dofZ_exact k) as [F2 E2]; [assert (310 < 2 ^ 53)%Z by reflexivity; lia|].
  destruct GL as [_ A]. assert (C := acc_pow M e A (dofZ 10) (dofZ k) F1 F2). cbv beta in C. rewrite E1, E2, <- ten_Rpower in C. unfold dpow10. apply C; [lra|].
  right. rewrite Rabs_pos_eq by (left; apply ten_pos). split.
  - apply Rle_trans with (ten (-307)); [|apply ten_le; lia]. change (-307)%Z with (- (307))%Z. rewrite ten_opp. change (-1021)%Z with (- (1021))%Z. unfold pow2. rewrite bpow_opp.
    apply Rinv_le_contravar; [apply ten_pos|]. rewrite ten_IZR, <- (IZR_Zpower radix2) by lia. apply IZR_le. vm_compute. discriminate.
  - apply Rle_trans with (ten 307); [apply ten_le; lia|]. unfold pow2. rewrite ten_IZR, <- (IZR_Zpower radix2) by lia. apply IZR_le. vm_compute. discriminate.
Qed.

Lemma int_mantissa_close x n ex : finite x -> (-307 <= n - 1 - ex <= 307)%Z -> let T := Rabs (real_of x) * ten (n - 1 - ex) in T <= pow2 51 ->
  exists z, finite (d_int_mantissa M x n ex) /\ Rabs (real_of (d_int_mantissa M x n ex)) = IZR z /\ Rabs (IZR z - T) <= / 2 + 4 * e * T /\ (0 <= z < 2 ^ 53)%Z.
Proof.
  intros F H T HT. set (k := (n - 1 - ex)%Z) in *. destruct (pow10_close k H) as [Fp Cp]. assert (Pk := ten_pos k). rewrite (Rabs_pos_eq (ten k)) in Cp by lra.
  destruct e_rng as [[E1 E2] Eu]. set (p := real_of (dpow10 M k)) in *. set (a := real_of x) in *. assert (T0 : 0 <= T) by (apply Rmult_le_pos; [apply Rabs_pos|lra]).
  assert (P51 : pow2 51 = 2251799813685248) by reflexivity.
  assert (Rp : Rabs (Rabs (a * p) - T) <= e * T).
  { unfold T. apply Rle_trans with (Rabs (a * p - a * ten k)).
    - rewrite <- (Rabs_pos_eq (ten k)) at 1 by lra. rewrite <- Rabs_mult. apply Rabs_triang_inv2.
    - rewrite <- Rmult_minus_distr_l, Rabs_mult. assert (Q := Rmult_le_compat_l _ _ _ (Rabs_pos a) Cp). lra. }
  assert (NO : no_overflow (a * p)).
  { apply fits. apply Rabs_le_inv in Rp. apply Rle_trans with (pow2 52); [|apply pow2_le; lia]. change (pow2 52) with 4503599627370496. nra. }
  destruct (dmul_round x (dpow10 M k) F Fp NO) as [Fm Em]. fold a p in Em. destruct (dround_correct _ Fm) as [Fr Er]. fold (d_int_mantissa M x n ex) in Fr. fold k in Er.
  set (t := real_of (dmul x (dpow10 M k))) in *. destruct (nearest_pm (a * p)) as (d & h & Hd & Hh & En).
  assert (Et : Rabs (Rabs t - T) <= 3 * e * T + pow2 (-1075)).
  { rewrite Em, En. replace (Rabs (a * p * (1 + d) + h) - T) with ((Rabs (a * p * (1 + d) + h) - Rabs (a * p)) + (Rabs (a * p) - T)) by ring.
    eapply Rle_trans; [apply Rabs_triang|]. assert (Q : Rabs (Rabs (a * p * (1 + d) + h) - Rabs (a * p)) <= Rabs (a * p * d + h)).
    { eapply Rle_trans; [apply Rabs_triang_inv2|]. right. f_equal. ring. }
    assert (Q2 : Rabs (a * p * d + h) <= Rabs (a * p) * ur + pow2 (-1075)).
    { eapply Rle_trans; [apply Rabs_triang|]. rewrite Rabs_mult. apply Rplus_le_compat; [apply Rmult_le_compat_l; [apply Rabs_pos|exact Hd]|exact Hh]. }
    assert (Q3 : Rabs (a * p) <= T + e * T) by (apply Rabs_le_inv in Rp; lra). assert (U := ur_small).
    assert (Q4 : Rabs (a * p) * ur <= (T + e * T) * e) by (apply Rmult_le_compat; try lra; apply Rabs_pos).
    assert (e * T <= T) by nra. nra. }
  assert (Tiny : 0 < pow2 (-1075) <= ur / 8).
  { split; [apply pow2_pos|]. replace (ur / 8) with (bpow radix2 (-56)); [apply bpow_le; lia|]. unfold ur. change (-56)%Z with (-53 + -3)%Z. rewrite bpow_plus. reflexivity. }
  set (z := Z.abs (ZnearestA t)). assert (Hz : Rabs (IZR z - Rabs t) <= / 2).
  { unfold z. rewrite abs_IZR. eapply Rle_trans; [apply Rabs_triang_inv2|]. rewrite Rabs_minus_sym. apply Znearest_half. }
  assert (Zz : Rabs (IZR z - T) <= / 2 + 4 * e * T).
  { destruct (Rle_lt_dec (/ 4) T) as [L|L].
    - replace (IZR z - T) with ((IZR z - Rabs t) + (Rabs t - T)) by ring. eapply Rle_trans; [apply Rabs_triang|]. nra.
    - assert (A : Rabs t < / 2). { apply Rabs_le_inv in Et. assert (U := ur_small). nra. }
      assert (z = 0%Z) as ->. { apply Rabs_le_inv in Hz. assert (0 <= z)%Z by apply Z.abs_nonneg. assert (B : IZR z < IZR 1) by lra. apply lt_IZR in B. lia. }
      rewrite Rminus_0_l, Rabs_Ropp, Rabs_pos_eq by exact T0. nra. }
  exists z. split; [exact Fr|]. split; [unfold d_int_mantissa; fold k; rewrite Er; unfold z; now rewrite abs_IZR|]. split; [exact Zz|].
  split; [apply Z.abs_nonneg|]. apply lt_IZR. apply Rabs_le_inv in Zz. change (IZR (2 ^ 53)) with 9007199254740992. nra.
Qed.

Lemma d_mantissa_spec x n ex : finite x -> (-307 <= n - 1 - ex <= 307)%Z -> let T := Rabs (real_of x) * ten (n - 1 - ex) in T <= pow2 51 ->
  ((1 <= n)%Z -> ten (n - 1) < T - 4 * e * T + / 2) -> ((0 <= n)%Z -> T + 4 * e * T < ten n + / 2) -> ((n < 0)%Z -> T + 4 * e * T < / 2) ->
  exists s e', d_mantissa M x n ex = Ret (s, e') /\ s <> [] /\ List.Forall is_digit s /\
  Rabs (IZR (decimal s) * ten (e' - n + 1) - Rabs (real_of x)) <= ten (ex - n + 1) / 2 + 4 * e * Rabs (real_of x) /\
  ((1 <= n)%Z -> (10 ^ (n - 1) <= decimal s < 10 ^ n)%Z) /\
  (e' = ex \/ (e' = (ex + 1)%Z /\ (1 <= n)%Z /\ decimal s = (10 ^ (n - 1))%Z /\ ten n - / 2 <= T + 4 * e * T)).
Proof.
  intros F Hk T HT Lo Hi Neg. destruct (int_mantissa_close x n ex F Hk HT) as (z & Fm & Em & Zc & Zr). fold T in Zc.
  set (m := d_int_mantissa M x n ex) in *. destruct (d_ims_spec m z Fm Em ltac:(lia)) as (s & Es & Ns & Fs & Ds & Z0 & Zl).
  assert (T0 : 0 <= T) by (apply Rmult_le_pos; [apply Rabs_pos|left; apply ten_pos]). destruct e_rng as [[E1 E2] _].
  assert (V : forall w j, (j = ex - n + 1)%Z -> w = IZR z * ten j -> Rabs (w - Rabs (real_of x)) <= ten (ex - n + 1) / 2 + 4 * e * Rabs (real_of x)).
  { intros w j -> ->. set (j := (ex - n + 1)%Z). assert (Pj := ten_pos j).
    assert (X : Rabs (real_of x) = T * ten j). { unfold T. rewrite Rmult_assoc, <- ten_add. replace (n - 1 - ex + j)%Z with 0%Z by (unfold j; lia). rewrite ten_0. ring. }
    rewrite X, <- Rmult_minus_distr_r, Rabs_mult, (Rabs_pos_eq (ten j)) by lra. assert (Q := Rmult_le_compat_r (ten j) _ _ ltac:(lra) Zc). lra. }
  set (l := Z.of_nat (List.length s)) in *. apply Rabs_le_inv in Zc.
  unfold d_mantissa. fold m. rewrite Es. cbn [bind]. fold l.
  destruct (Z_le_gt_dec 1 n) as [Hn|Hn].
  - specialize (Lo Hn). specialize (Hi ltac:(lia)). rewrite (ten_IZR (n - 1)) in Lo by lia. rewrite (ten_IZR n) in Hi by lia.
    assert (B1 : (10 ^ (n - 1) <= z)%Z). { assert (A : IZR (10 ^ (n - 1)) < IZR (z + 1)) by (rewrite plus_IZR; lra). apply lt_IZR in A. lia. }
    assert (B2 : (z <= 10 ^ n)%Z). { assert (A : IZR z < IZR (10 ^ n + 1)) by (rewrite plus_IZR; lra). apply lt_IZR in A. lia. }
    assert (P1 : (0 < 10 ^ (n - 1))%Z) by (apply Z.pow_pos_nonneg; lia).
    assert (P10 : (10 ^ n = 10 * 10 ^ (n - 1))%Z) by (rewrite <- Z.pow_succ_r by lia; f_equal; lia).
    destruct (Zl ltac:(lia)) as [L1 L2].
    assert (Hl : (0 <= l)%Z) by (unfold l; lia). assert (Hl1 : (1 <= l)%Z) by (unfold l; destruct s; [contradiction|cbn [List.length]; lia]).
    assert (C1 : (n - 1 < l)%Z) by (apply pow_lt_inv; lia).
    assert (C2 : (l - 1 < n + 1)%Z). { apply pow_lt_inv; try lia. rewrite Z.pow_add_r, Z.pow_1_r by lia. lia. }
    destruct (Z.eqb_spec l n) as [E|E].
    + cbn [orb assert_ bind]. replace (l =? n + 1)%Z with false by lia. rewrite andb_false_r. exists s, ex.
      split; [reflexivity|]. split; [exact Ns|]. split; [exact Fs|]. split; [apply (V _ (ex - n + 1)%Z); [lia|now rewrite Ds]|]. split; [|left; reflexivity].
      intros _. rewrite Ds. rewrite E in L1, L2. lia.
    + assert (l = n + 1)%Z as E' by lia. rewrite E' in L1, L2 |- *. replace (n + 1 =? n + 1)%Z with true by lia. cbn [orb assert_ bind].
      replace (1 <=? n)%Z with true by lia. cbn [andb].
      replace (n + 1 - 1)%Z with n in L1 by lia. assert (Ez : z = (10 ^ n)%Z) by lia.
      assert (Sp : s = removelast s ++ [last s "0"%char]) by (apply app_removelast_last; exact Ns).
      assert (Fl : is_digit (last s "0"%char) /\ List.Forall is_digit (removelast s)).
      { rewrite Sp in Fs. apply Forall_app in Fs as [A B]. inversion B; auto. }
      destruct Fl as [Fl Fr].
      assert (Dl : decimal s = (10 * decimal (removelast s) + digit_val (last s "0"%char))%Z).
      { rewrite Sp at 1. rewrite decimal_app, decimal_one. cbn [List.length]. change (10 ^ Z.of_nat 1)%Z with 10%Z. lia. }
      assert (Dv : (0 <= digit_val (last s "0"%char) < 10)%Z) by (unfold digit_val, is_digit in *; lia).
      rewrite Ds, Ez, P10 in Dl. assert (Dr : decimal (removelast s) = (10 ^ (n - 1))%Z) by lia.
      exists (removelast s), (ex + 1)%Z. split; [reflexivity|]. split.
      { intro Q. rewrite Q in Sp. cbn [app] in Sp. apply (f_equal (@List.length ascii)) in Sp. cbn [List.length] in Sp. unfold l in E'. lia. }
      split; [exact Fr|]. split.
      { rewrite Dr. apply (V _ (ex - n + 1)%Z); [reflexivity|]. rewrite Ez, P10, mult_IZR. replace (ex + 1 - n + 1)%Z with (ex - n + 1 + 1)%Z by lia. rewrite (ten_S (ex - n + 1)). ring. }
      split; [intros _; lia|]. right. split; [reflexivity|]. split; [exact Hn|]. split; [exact Dr|].
      rewrite (ten_IZR n) by lia. rewrite <- Ez. lra.
  - assert (Z1 : (z <= 1)%Z).
    { assert (A : IZR z < IZR 2); [|apply lt_IZR in A; lia]. destruct (Z.eq_dec n 0) as [->|]; [specialize (Hi ltac:(lia)); rewrite ten_0 in Hi|specialize (Neg ltac:(lia))]; lra. }
    assert (L1 : l = 1%Z).
    { assert (Hl1 : (1 <= l)%Z) by (unfold l; destruct s; [contradiction|cbn [List.length]; lia]).
      destruct (Z.eq_dec z 0) as [E|E]; [unfold l; now rewrite (Z0 E)|]. destruct (Zl ltac:(lia)) as [A B].
      assert (l - 1 < 1)%Z; [|lia]. apply pow_lt_inv; [lia|lia|]. change (10 ^ 1)%Z with 10%Z. lia. }
    rewrite L1.
    assert (As : ((1 =? n) || (1 =? n + 1) || (Beqb m dzero && (n <? 0)))%Z = true).
    { destruct (Z.eq_dec n 0) as [->|Hn0]; [reflexivity|]. specialize (Neg ltac:(lia)).
      assert (z = 0%Z) as Ez. { assert (A : IZR z < IZR 1); [lra|apply lt_IZR in A; lia]. }
      assert (real_of m = 0) as M0. { rewrite Ez in Em. destruct (Req_dec (real_of m) 0) as [|Hm]; [assumption|]. apply Rabs_pos_lt in Hm. lra. }
      rewrite (proj2 (Beqb_real m dzero Fm eq_refl)) by exact M0. replace (n <? 0)%Z with true by lia. now rewrite orb_true_r. }
    rewrite As. cbn [assert_ bind]. replace (1 <=? n)%Z with false by lia. cbn [andb]. exists s, ex.
    split; [reflexivity|]. split; [exact Ns|]. split; [exact Fs|]. split; [apply (V _ (ex - n + 1)%Z); [lia|now rewrite Ds]|]. split; [lia|]. left; reflexivity.
Qed.
End Lib.
