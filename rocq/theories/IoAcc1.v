(** * IoAcc1: integers, floor, round and decimal digits on doubles *)

From Coq Require Import List ZArith Bool Reals Ascii String Lra Lia.
From Flocq Require Import Core BinarySingleNaN.
From Verif Require Import Base Num Ieee SpecIeee IeeeProofs3 IeeeProofs4 IeeeCov Math SpecMathIeee MathAcc7 Io SpecIo IoProofs IoProofs2 IoIeee.
Import ListNotations.
Local Open Scope R_scope.

(** ** Exact conversions *)
Lemma norm64 z e s : (Z.abs z <= 2 ^ 53)%Z -> (-1074 <= e <= 0)%Z -> 
  let a := binary_normalize 53 1024 prec53 emax1024 mode_NE z e s in finite a /\ real_of a = IZR z * pow2 e.
Proof.
  intros H He a. assert (C := binary_normalize_correct 53 1024 prec53 emax1024 mode_NE z e s). cbv zeta in C. fold a in C.
  assert (E : round radix2 (SpecFloat.fexp 53 1024) (round_mode mode_NE) (F2R (Float radix2 z e)) = F2R (Float radix2 z e)).
  { apply round_generic; [apply valid_rnd_round_mode|]. change (SpecFloat.fexp 53 1024) with (FLT_exp (-1074) 53).
    destruct (Z.eq_dec (Z.abs z) (2 ^ 53)) as [Q|Q].
    - assert (F2R (Float radix2 z e) = F2R (Float radix2 (Z.sgn z) (53 + e))) as ->.
      { unfold F2R. cbn [Fnum Fexp]. rewrite bpow_plus. replace (IZR z) with (IZR (Z.sgn z) * IZR (2 ^ 53)).
        - change (bpow radix2 53) with (IZR (2 ^ 53)). ring.
        - rewrite <- mult_IZR. f_equal. rewrite <- Q. lia. }
      apply generic_format_FLT. exists (Float radix2 (Z.sgn z) (53 + e)); [reflexivity| |cbn [Fexp]; lia]. cbn [Fnum].
      apply Z.le_lt_trans with 1%Z; [lia|reflexivity].
    - apply generic_format_FLT. exists (Float radix2 z e); [reflexivity| |cbn [Fexp]; lia]. cbn [Fnum]. change (radix2 ^ 53)%Z with (2 ^ 53)%Z. lia. }
  rewrite E in C. rewrite Rlt_bool_true in C.
  - destruct C as (C1 & C2 & _). split; [exact C2|exact C1].
  - unfold F2R. cbn [Fnum Fexp]. rewrite Rabs_mult, (Rabs_pos_eq (bpow _ _)) by apply bpow_ge_0.
    apply Rle_lt_trans with (IZR (2 ^ 53) * 1).
    + apply Rmult_le_compat; [apply Rabs_pos|apply bpow_ge_0| |].
      * rewrite <- abs_IZR. now apply IZR_le.
      * change 1 with (bpow radix2 0). apply bpow_le. lia.
    + rewrite Rmult_1_r. change (IZR (2 ^ 53)) with (bpow radix2 53). apply bpow_lt. lia.
Qed.
Lemma dofZ_exact z : (Z.abs z <= 2 ^ 53)%Z -> finite (dofZ z) /\ real_of (dofZ z) = IZR z.
Proof. intro H. destruct (norm64 z 0 false H ltac:(lia)) as [F E]. split; [exact F|]. unfold dofZ. rewrite E. change (pow2 0) with 1. ring. Qed.

(** ** Rounding to an integer *)
Lemma round_fix0 rnd x : round radix2 (FIX_exp 0) rnd x = IZR (rnd x).
Proof. unfold round, scaled_mantissa, cexp, FIX_exp, F2R. cbn. now rewrite !Rmult_1_r. Qed.
Lemma dfloor_correct a : finite a -> finite (dfloor a) /\ real_of (dfloor a) = IZR (Zfloor (real_of a)).
Proof.
  intro F. destruct (Bnearbyint_correct 53 1024 _ mode_DN a) as (E & Fi & _). rewrite round_fix0 in E. split; [unfold finite, dfloor; now rewrite Fi|exact E].
Qed.
Lemma dround_correct a : finite a -> finite (dround a) /\ real_of (dround a) = IZR (ZnearestA (real_of a)).
Proof.
  intro F. destruct (Bnearbyint_correct 53 1024 _ mode_NA a) as (E & Fi & _). rewrite round_fix0 in E. split; [unfold finite, dround; now rewrite Fi|exact E].
Qed.
Lemma to_int_ok p q (Hq : Prec_lt_emax p q) (a : binary_float p q) z : is_finite a = true -> B2R a = IZR z -> (-2147483648 <= z <= 2147483647)%Z -> to_int a = Ret z.
Proof.
  intros F E H. assert (T := Btrunc_correct p q Hq a). rewrite round_fix0, E, Ztrunc_IZR in T. apply eq_IZR in T.
  unfold to_int. rewrite F, T. cbn [andb]. replace (-2147483648 <=? z)%Z with true by lia. now replace (z <=? 2147483647)%Z with true by lia.
Qed.

(** ** Digits *)
Lemma dfmod10_correct a z : finite a -> real_of a = IZR z -> (0 <= z <= 2 ^ 53)%Z -> finite (dfmod10 a) /\ real_of (dfmod10 a) = IZR (z mod 10).
Proof.
  intros F E H. assert (Mb := Z.mod_pos_bound z 10 ltac:(lia)). destruct a as [s|s| |s m e B]; try discriminate.
  - split; [reflexivity|]. cbn in E. apply eq_IZR in E. subst z. reflexivity.
  - unfold real_of in E. cbn [B2R] in E. unfold F2R in E. cbn [Fnum Fexp] in E.
    assert (s = false) as ->.
    { destruct s; [exfalso|reflexivity]. cbn [cond_Zopp] in E. assert (P := bpow_gt_0 radix2 e). assert (Q : IZR (Z.opp (Z.pos m)) < 0) by (apply (IZR_lt _ 0); lia).
      assert (0 <= IZR z) by (apply (IZR_le 0); lia). nra. }
    cbn [cond_Zopp dfmod10] in *. destruct (Z.leb_spec 0 e) as [L|L].
    + rewrite <- (IZR_Zpower radix2) in E by exact L. rewrite <- mult_IZR in E. apply eq_IZR in E. change (radix2 ^ e)%Z with (2 ^ e)%Z in E. rewrite E.
      destruct (norm64 (z mod 10) 0 false) as [G1 G2]; [|lia|]. { assert (10 < 2 ^ 53)%Z by reflexivity. lia. }
      split; [exact G1|]. rewrite G2. change (pow2 0) with 1. ring.
    + assert (He : (-1074 <= e)%Z).
      { assert (X := B). unfold SpecFloat.bounded in X. apply andb_prop in X as [X _]. unfold SpecFloat.canonical_mantissa in X. apply Zeq_bool_eq in X.
        unfold SpecFloat.fexp, SpecFloat.emin in X. lia. }
      assert (Q : Z.pos m = (z * 2 ^ (- e))%Z).
      { apply eq_IZR. rewrite mult_IZR, <- E, Rmult_assoc. change 2%Z with (radix_val radix2). rewrite (IZR_Zpower radix2) by lia. rewrite <- bpow_plus.
        replace (e + - e)%Z with 0%Z by lia. cbn [bpow]. ring. }
      rewrite Q, Z.mul_mod_distr_r by (try apply Z.pow_nonzero; lia).
      destruct (norm64 ((z mod 10) * 2 ^ (- e)) e false) as [G1 G2]; [|lia|].
      * assert (P := Z.pow_pos_nonneg 2 (- e) ltac:(lia) ltac:(lia)). rewrite Z.abs_eq by nia.
        assert (Z.pos m < 2 ^ 53)%Z.
        { assert (X := B). unfold SpecFloat.bounded in X. apply andb_prop in X as [X _]. unfold SpecFloat.canonical_mantissa in X. apply Zeq_bool_eq in X.
          assert (D := Digits.Zdigits_correct radix2 (Z.pos m)). rewrite <- Digits.Zpos_digits2_pos in D. unfold SpecFloat.fexp, SpecFloat.emin in X.
          apply Z.lt_le_trans with (1 := proj2 D). change (radix_val radix2) with 2%Z. apply Z.pow_le_mono_r; lia. }
        assert (z mod 10 <= z)%Z by (apply Z.mod_le; lia). nia.
      * split; [exact G1|]. rewrite G2, mult_IZR, Rmult_assoc. change 2%Z with (radix_val radix2). rewrite (IZR_Zpower radix2) by lia. unfold pow2. rewrite <- bpow_plus.
        replace (- e + e)%Z with 0%Z by lia. cbn [bpow]. ring.
Qed.

Lemma div10_floor a z : finite a -> real_of a = IZR z -> (0 <= z < 2 ^ 53)%Z ->
  finite (dfloor (ddiv a (dofZ 10))) /\ real_of (dfloor (ddiv a (dofZ 10))) = IZR (z / 10).
Proof.
  intros F E H. destruct (dofZ_exact 10 ltac:(cbn; lia)) as [_ E10].
  assert (DM := Z.div_mod z 10 ltac:(lia)). assert (Mb := Z.mod_pos_bound z 10 ltac:(lia)).
  assert (D0 : (0 <= z / 10)%Z) by (apply Z.div_pos; lia). assert (Hz : IZR z < 9007199254740992) by (apply (IZR_lt _ 9007199254740992); lia).
  assert (Zz : 0 <= IZR z) by (apply (IZR_le 0); lia).
  assert (NO : no_overflow (real_of a / real_of (dofZ 10))).
  { apply fits. rewrite E, E10, Rabs_pos_eq by lra. apply Rle_trans with (bpow radix2 53); [|apply bpow_le; lia]. change (bpow radix2 53) with 9007199254740992. lra. }
  destruct (ddiv_round a (dofZ 10) F ltac:(rewrite E10; lra) NO) as [Fd Ed]. rewrite E, E10 in Ed.
  destruct (dfloor_correct _ Fd) as [Ff Ef]. split; [exact Ff|]. rewrite Ef. f_equal. apply Zfloor_imp. rewrite Ed, plus_IZR.
  destruct (dofZ_exact (z / 10)) as [Fq Eq]; [lia|].
  assert (EE : IZR z / 10 = IZR (z / 10) + IZR (z mod 10) / 10) by (rewrite DM at 1; rewrite plus_IZR, mult_IZR; field).
  assert (M0 : 0 <= IZR (z mod 10) <= 9) by (split; [apply (IZR_le 0)|apply (IZR_le _ 9)]; lia).
  split.
  - rewrite <- Eq at 1. rewrite <- nearest_format. apply round_le; [apply FLT_exp_valid; reflexivity|apply valid_rnd_N|]. rewrite Eq. lra.
  - destruct (nearest_pm (IZR z / 10)) as (x & t & Hx & Ht & ->).
    assert (U : ur = / 9007199254740992) by reflexivity. assert (T : pow2 (-1075) < / 1000000).
    { apply Rlt_trans with (bpow radix2 (-20)); [apply bpow_lt; lia|]. change (bpow radix2 (-20)) with (/ 1048576). lra. }
    apply Rabs_le_inv in Hx, Ht. rewrite U in Hx.
    assert (X : IZR z / 10 * x <= IZR z / 10 * / 9007199254740992) by (apply Rmult_le_compat_l; lra).
    assert (Y : IZR z / 10 * / 9007199254740992 <= (/ 10 - / 90071992547409920)).
    { assert (IZR z <= 9007199254740991) by (apply (IZR_le _ 9007199254740991); lia). lra. }
    assert (T2 : pow2 (-1075) < / 90071992547409920).
    { apply Rlt_trans with (bpow radix2 (-60)); [apply bpow_lt; lia|]. change (bpow radix2 (-60)) with (/ 1152921504606846976). lra. }
    lra.
Qed.

Lemma zd_fuel k : forall k' z, (0 <= z)%Z -> (z < Z.of_nat k)%Z -> (z < Z.of_nat k')%Z -> zd k z = zd k' z.
Proof.
  induction k as [|k IH]; intros k' z Hz H H'; [lia|]. destruct k' as [|k']; [lia|]. cbn [zd]. destruct (Z.ltb_spec z 1) as [L|L]; [reflexivity|].
  f_equal. assert (D0 : (0 <= z / 10)%Z) by (apply Z.div_pos; lia). assert (z / 10 < z)%Z by (apply Z.div_lt; lia). apply IH; lia.
Qed.
Lemma d_ims_loop_zd fuel : forall a z s, finite a -> real_of a = IZR z -> (0 <= z < 2 ^ 53)%Z -> (z < 10 ^ Z.of_nat fuel)%Z ->
  d_ims_loop fuel a s = Ret (s ++ zd (Z.to_nat (z + 1)) z).
Proof.
  destruct (dofZ_exact 1 ltac:(cbn; lia)) as [F1 E1].
  assert (St : forall fuel a z s, finite a -> real_of a = IZR z -> (0 <= z < 1)%Z -> d_ims_loop fuel a s = Ret (s ++ zd (Z.to_nat (z + 1)) z)).
  { intros fu a z s F E H. assert (z = 0%Z) by lia. subst z. cbn [Z.add Z.to_nat Pos.to_nat Pos.iter_op zd Z.ltb Z.compare]. rewrite app_nil_r.
    assert (B : Bleb (dofZ 1) a = false). { rewrite Bleb_correct by assumption. fold (real_of (dofZ 1)) (real_of a). rewrite E1, E. apply Rle_bool_false. lra. }
    destruct fu; cbn [d_ims_loop]; now rewrite B. }
  induction fuel as [|f IH]; intros a z s F E H Hf; [apply St; auto; cbn in Hf; lia|].
  destruct (Z_lt_le_dec z 1) as [L|L]; [apply St; auto; lia|].
  assert (B : Bleb (dofZ 1) a = true). { rewrite Bleb_correct by assumption. fold (real_of (dofZ 1)) (real_of a). rewrite E1, E. apply Rle_bool_true. apply (IZR_le 1). exact L. }
  cbn [d_ims_loop]. rewrite B. assert (Mb := Z.mod_pos_bound z 10 ltac:(lia)). assert (DM := Z.div_mod z 10 ltac:(lia)).
  destruct (dfmod10_correct a z F E ltac:(lia)) as [Fm Em]. rewrite (to_int_ok 53 1024 _ _ _ Fm Em) by lia. cbn [bind].
  destruct (dofZ_exact (z mod 10)) as [Fd Ed]; [assert (10 < 2 ^ 53)%Z by reflexivity; lia|].
  rewrite (proj2 (Beqb_real _ _ Fd Fm)) by (rewrite Em; exact Ed). cbn [assert_ bind].
  destruct (div10_floor a z F E H) as [Fq Eq]. rewrite Nat2Z.inj_succ, Z.pow_succ_r in Hf by lia.
  assert (D0 : (0 <= z / 10)%Z) by (apply Z.div_pos; lia). assert (Dl : (z / 10 < z)%Z) by (apply Z.div_lt; lia).
  rewrite (IH _ (z / 10)%Z _ Fq Eq) by lia. rewrite to_string_digit by exact Mb. rewrite <- app_assoc. do 2 f_equal.
  replace (Z.to_nat (z + 1)) with (S (Z.to_nat z)) by lia. cbn [zd]. replace (z <? 1)%Z with false by lia. cbn [app]. f_equal. apply zd_fuel; lia.
Qed.
Lemma d_ims_spec m z : finite m -> Rabs (real_of m) = IZR z -> (z < 2 ^ 53)%Z -> exists s, d_int_mantissa_string m = Ret s /\ s <> [] /\ List.Forall is_digit s /\ decimal s = z /\
  (z = 0%Z -> s = lit "0") /\ ((0 < z)%Z -> (10 ^ (Z.of_nat (List.length s) - 1) <= z < 10 ^ Z.of_nat (List.length s))%Z).
Proof.
  intros F E H. assert (Hz : (0 <= z)%Z) by (apply le_IZR; rewrite <- E; apply Rabs_pos).
  destruct (ims_spec (IZR z) z) as (s & Es & R); [apply Rabs_pos_eq; now apply (IZR_le 0)|]. exists s. split; [|exact R].
  rewrite <- Es. rewrite (ims_zd (IZR z) z) by (apply Rabs_pos_eq; now apply (IZR_le 0)). unfold d_int_mantissa_string.
  assert (Fa : finite (dabs m)) by (unfold finite, dabs; now rewrite is_finite_Babs).
  assert (Ea : real_of (dabs m) = IZR z) by (unfold real_of, dabs; rewrite B2R_Babs; exact E).
  rewrite (d_ims_loop_zd 400 _ z [] Fa Ea) by (try lia; apply Z.lt_le_trans with (1 := H); vm_compute; discriminate). cbn [bind app].
  destruct (zd_spec (Z.to_nat (z + 1)) z Hz ltac:(lia)) as (_ & _ & C & D).
  destruct (Z.eqb_spec z 0) as [->|N]; [reflexivity|]. destruct (C ltac:(lia)) as [Q _].
  destruct (zd (Z.to_nat (z + 1)) z); [contradiction|reflexivity].
Qed.
