(** * IoAcc9: format on doubles: what holds and what does not *)

From Coq Require Import List ZArith Bool Reals Ascii String Lra Lia Psatz.
From Flocq Require Import Core BinarySingleNaN.
From Verif Require Import Base Num Ieee SpecIeee IeeeProofs3 IeeeProofs4 IeeeCov Math SpecMathIeee MathAcc5 MathAcc7 Io SpecIo IoProofs IoProofs2
  IoIeee SpecIoIeee IoAcc1 IoAcc2 IoAcc3 IoAcc4 IoAcc5 IoAcc6 IoAcc7 IoAcc8.
Import ListNotations.
Local Open Scope R_scope.

Lemma C67_text_on_doubles_partial_proof : forall (M : cmath DN) (e : R) (mu s : double) (errdig : single) (sep : str), good_lib M e ->
  finite mu -> finite s -> few_digits errdig -> printable (real_of mu) (real_of s) ->
  exists out Mt St ee vM pM vS pS n, d_format M mu s errdig sep = Ret out /\
    layout out sep (Rltb (real_of mu) 0) Mt St ee /\ numeral Mt vM pM /\ numeral St vS pS /\
    let k := (ee - Z.of_nat pS)%Z in
    nearly (real_of s) k (vS * ten ee) (4 * e) /\ digits vS pS n /\
    IZR n - 1 <= B2R errdig < IZR n + 1 /\ ((exists i, B2R errdig = IZR i) -> B2R errdig = IZR n) /\ chosen_digits (real_of s) (B2R errdig) n /\
    (Rabs (real_of mu) < 9 / 10 * ten k \/ far (real_of mu) k -> pM = pS) /\
    (k <> 0%Z \/ ee <> 0%Z \/ Rabs (real_of mu) < 9 / 10 \/ far (real_of mu) k -> nearly (real_of mu) k (vM * ten ee) (4 * e)).
Proof.
  intros M e mu s errdig sep GL Fm Fs FD PR. 
  destruct (format_doubles M e GL mu s errdig sep Fm Fs FD PR) as (out & Mt & St & ee & vM & pM & vS & pS & n & s' & A & B & C & D & E & F & G & H & I & J & K).
  exists out, Mt, St, ee, vM, pM, vS, pS, n. do 4 (split; [assumption|]). cbv zeta in *. do 3 (split; [assumption|]). split.
  { intros [i Hi]. apply I. rewrite Hi. now rewrite Zfloor_IZR. }
  split; [|split; assumption].
  intros i f x IF Dx. destruct (few_digits_facts errdig FD) as (i' & Fe & Ie & Ib & Ii & E1).
  assert (i' = i) as ->. { rewrite <- Ie. destruct IF as [IF1 IF2]. apply Zfloor_imp. rewrite plus_IZR. lra. }
  exact (choice M e GL errdig i f Fe Ie Ib Ii IF s n s' x Fs (proj1 PR) B Dx).
Qed.

Lemma C67_no_uncertainty_on_doubles_partial_proof : forall (M : cmath DN) (e : R) (mu s : double) (errdig : single) (sep : str), good_lib M e ->
  Bleb errdig (fofZ 1) = false ->
  ~ finite mu \/ ~ finite s \/ real_of s = 0 ->
  (finite mu -> real_of mu = 0 \/ ten (-300) <= Rabs (real_of mu)) -> (finite s -> real_of s = 0 \/ ten (-300) <= Rabs (real_of s)) ->
  exists out a b, d_format M mu s errdig sep = Ret out /\ out = a ++ sep ++ b /\ value_text (4 * e) mu a /\ value_text (4 * e) s b.
Proof.
  intros M e mu s errdig sep GL E1 C Bm Bs.
  assert (T : forall x : double, (finite x -> real_of x = 0 \/ ten (-300) <= Rabs (real_of x)) -> exists a, d_tostring M x = Ret a /\ value_text (4 * e) x a).
  { intros x B. destruct x as [b|b| |b m ex Hb].
    - exists (lit "0"). split; [destruct b; reflexivity|reflexivity].
    - exists (if b then lit "-inf" else lit "inf"). split; [destruct b; reflexivity|reflexivity].
    - exists (lit "nan"). split; reflexivity.
    - set (x := B754_finite b m ex Hb) in *. assert (Nz : real_of x <> 0) by (unfold real_of, x, B2R; apply F2R_neq_0; destruct b; discriminate).
      destruct (d_tostring_digits M e GL x eq_refl) as (out & Mt & ee & v & p & A & P); [destruct (B eq_refl); [contradiction|assumption]|].
      exists out. split; [exact A|]. exists Mt, ee, v, p. exact P. }
  destruct (T mu Bm) as (a & Ea & Ta). destruct (T s Bs) as (b & Eb & Tb). exists (a ++ sep ++ b), a, b. split; [|auto].
  unfold d_format. rewrite E1, Ea, Eb. cbn [bind].
  assert (negb (is_finite mu) || negb (is_finite s) || Beqb s dzero = true)%bool as ->; [|reflexivity].
  unfold finite in C. destruct (is_finite mu); [|reflexivity]. destruct (is_finite s) eqn:Fs; [|reflexivity]. cbn [negb orb].
  destruct C as [C|[C|C]]; [now contradiction C|now contradiction C|]. rewrite Beqb_correct by (auto; reflexivity). unfold real_of in C. rewrite C. apply Req_bool_true. reflexivity.
Qed.

(** ** Failures *)
Definition flt (b : bool) (m : positive) (e : Z) (H : SpecFloat.bounded 53 1024 m e = true) : double := B754_finite b m e H.
(** 2^664 and 2^-498 *)
Definition m_big : double := flt false 4503599627370496 612 eq_refl.
Definition s_small : double := flt false 4503599627370496 (-550) eq_refl.
(** 2^-1074, 2^-39, and the double before 1000 *)
Definition s_tiny : double := flt false 1 (-1074) eq_refl.
Definition s_39 : double := flt false 4503599627370496 (-91) eq_refl.
Definition m_999 : double := flt false 8796093022207999 (-43) eq_refl.

Lemma ims_inf b : d_int_mantissa_string (B754_infinity b) = UB.
Proof. reflexivity. Qed.
Lemma dmul_overflow a b : pow2 1024 <= Rabs (real_of a * real_of b) -> exists c, dmul a b = B754_infinity c.
Proof.
  intro H. assert (C := Bmult_correct 53 1024 _ _ mode_NE a b). rewrite Rlt_bool_false in C.
  - unfold dmul. exists (xorb (Bsign a) (Bsign b)). destruct (Bmult mode_NE a b); cbn in C; try discriminate C. now injection C as ->.
  - apply abs_round_ge_generic; [apply (fexp_correct 53 1024); reflexivity|apply valid_rnd_round_mode|apply generic_format_bpow; unfold SpecFloat.fexp, SpecFloat.emin; lia|exact H].
Qed.

(** the text of a deviation with two digits *)
Lemma two_digits M e (GL : good_lib M e) s : finite s -> ten (-300) <= real_of s <= ten 300 -> d_ndigits M s (fofZ 2) = Ret (2%Z, s) /\
  exists x sm es2, d_exponent M s = Ret x /\ d_mantissa M s 2 x = Ret (sm, es2) /\ (-302 <= x <= 302)%Z /\ (x <= es2 <= x + 1)%Z /\ (10 <= decimal sm < 100)%Z /\
    Rabs (IZR (decimal sm) * ten (es2 - 1) - real_of s) <= ten (es2 - 1) / 2 + 4 * e * real_of s.
Proof.
  intros F S. destruct (fofZ_exact 2 ltac:(cbn; lia)) as [Fe Ee]. assert (Ie : Zfloor (B2R (fofZ 2)) = 2%Z) by (rewrite Ee; apply (Zfloor_IZR 2)).
  destruct (deviation_text M e GL (fofZ 2) 2 Fe Ie ltac:(lia) (or_intror Ee) s F S) as (n & s' & x & sm & es2 & En & Ex & Em & _ & _ & _ & _ & Nn & Ces & Hx & Dg & V).
  assert (n = 2%Z) by (apply Nn, Ee). subst n.
  assert (s' = s) as ->.
  { destruct (d_ndigits_cases M e GL (fofZ 2) 2 Fe Ie ltac:(lia) s F S) as (n0 & s0 & x0 & En0 & _ & _ & _ & _ & _ & _ & Cs). rewrite En in En0. injection En0 as <- <-.
    destruct Cs as [(_ & Q & _)|[(Q & _)|(Q & _)]]; [discriminate|exact Q|discriminate]. }
  split; [exact En|]. exists x, sm, es2. split; [exact Ex|]. split; [exact Em|]. split; [exact Hx|]. split; [exact Ces|]. split; [exact Dg|].
  replace (es2 - 2 + 1)%Z with (es2 - 1)%Z in V by lia. exact V.
Qed.
Lemma format_start M mu s x sm es2 sep : finite mu -> finite s -> real_of s <> 0 -> real_of mu <> 0 -> d_ndigits M s (fofZ 2) = Ret (2%Z, s) -> d_exponent M s = Ret x -> d_mantissa M s 2 x = Ret (sm, es2) ->
  (forall em, d_exponent M mu = Ret em -> d_mantissa M mu (2 + em - es2) em = UB) -> (exists em, d_exponent M mu = Ret em) -> d_format M mu s (fofZ 2) sep = UB.
Proof.
  intros Fm Fs Ns Nm En Ex Em H [em Ee]. unfold d_format. change (Bleb (fofZ 2) (fofZ 1)) with false. rewrite Fm, Fs. cbn [negb orb]. rewrite (Beqb_zero s Fs Ns), (Beqb_zero mu Fm Nm).
  rewrite En. cbn [bind]. rewrite Ex. cbn [bind negb]. rewrite Ee. cbn [bind]. rewrite Em. cbn [bind]. now rewrite (H em Ee).
Qed.

Lemma C67_overflow_refuted_proof : exists (mu s : double) (errdig : single) (sep : str), finite mu /\ finite s /\ pow2 (-500) <= real_of s /\ real_of mu <= pow2 700 /\ few_digits errdig /\
  forall (M : cmath DN) (e : R), good_lib M e -> d_format M mu s errdig sep = UB.
Proof.
  assert (Rm : real_of m_big = pow2 664) by (unfold real_of, m_big, flt, B2R, F2R; cbn [Fnum Fexp cond_Zopp]; change 4503599627370496%Z with (2 ^ 52)%Z; change (IZR (2 ^ 52)) with (bpow radix2 52); rewrite <- bpow_plus; reflexivity).
  assert (Rs : real_of s_small = pow2 (-498)) by (unfold real_of, s_small, flt, B2R, F2R; cbn [Fnum Fexp cond_Zopp]; change 4503599627370496%Z with (2 ^ 52)%Z; change (IZR (2 ^ 52)) with (bpow radix2 52); rewrite <- bpow_plus; reflexivity).
  assert (Fd : few_digits (fofZ 2)) by (destruct (fofZ_exact 2 ltac:(cbn; lia)) as [Fe Ee]; split; [exact Fe|right; left; exact Ee]).
  exists m_big, s_small, (fofZ 2), (lit " "). split; [reflexivity|]. split; [reflexivity|]. rewrite Rs, Rm. split; [apply pow2_le; lia|]. split; [apply pow2_le; lia|]. split; [exact Fd|].
  intros M e GL. destruct (e_rng M e GL) as [[E1 E2] _].
  (* 2^-498 is between 10^-150 and 10^-149 *)
  assert (SB : ten (-150) <= pow2 (-498) <= ten (-149)).
  { change (-150)%Z with (- (150))%Z. change (-149)%Z with (- (149))%Z. change (-498)%Z with (- (498))%Z. unfold pow2. rewrite !ten_opp, bpow_opp, !ten_IZR, <- (IZR_Zpower radix2) by lia.
    split; (apply Rinv_le_contravar; [apply (IZR_lt 0); vm_compute; reflexivity|apply IZR_le; vm_compute; discriminate]). }
  assert (T1 : ten (-300) <= ten (-150)) by (apply ten_le; lia). assert (T2 : ten (-149) <= ten 300) by (apply ten_le; lia).
  destruct (two_digits M e GL s_small eq_refl ltac:(rewrite Rs; lra)) as (En & x & sm & es2 & Ex & Em & Hx & Ces & Dg & V).
  assert (Pm := pow2_pos 664). assert (Ps := pow2_pos (-498)).
  assert (D1 : 10 <= IZR (decimal sm)) by (apply IZR_le; lia). assert (P1 := ten_pos (es2 - 1)). rewrite Rs in V. apply Rabs_le_inv in V.
  assert (K : (es2 <= -149)%Z). { destruct (Z_le_gt_dec es2 (-149)) as [|G]; [assumption|exfalso]. assert (Q : ten (-149) <= ten (es2 - 1)) by (apply ten_le; lia). nra. }
  assert (Ns : real_of s_small <> 0) by (rewrite Rs; apply Rgt_not_eq; lra). assert (Nm : real_of m_big <> 0) by (rewrite Rm; apply Rgt_not_eq; lra).
  apply (format_start M m_big s_small x sm es2 (lit " ") eq_refl eq_refl Ns Nm En Ex Em).
  - intros em Eem. unfold d_mantissa. assert (exists c, dmul m_big (dpow10 M (1 - es2)) = B754_infinity c) as [c Ec].
    { apply dmul_overflow. rewrite Rm. destruct (pow10_close M e GL (1 - es2) ltac:(lia)) as [_ C]. assert (P2 := ten_pos (1 - es2)). rewrite (Rabs_pos_eq (ten _)) in C by lra. apply Rabs_le_inv in C.
      assert (Q : ten 150 <= ten (1 - es2)) by (apply ten_le; lia).
      assert (Q2 : 2 * pow2 1024 <= pow2 664 * ten 150) by (unfold pow2; rewrite ten_IZR, <- !(IZR_Zpower radix2), <- !mult_IZR by lia; apply IZR_le; vm_compute; discriminate).
      assert (Q3 : ten 150 / 2 <= real_of (dpow10 M (1 - es2))) by nra. assert (P15 := ten_pos 150). rewrite Rabs_pos_eq by (apply Rmult_le_pos; lra). nra. }
    unfold d_int_mantissa. replace (2 + em - es2 - 1 - em)%Z with (1 - es2)%Z by lia. rewrite Ec. change (dround (B754_infinity c)) with (B754_infinity c : double). rewrite ims_inf. reflexivity.
  - destruct (judge M e GL m_big eq_refl ltac:(rewrite Rm; apply Rgt_not_eq; lra)) as (k & Ek & _). exists k. exact Ek.
Qed.

Lemma inv_le_scaled c a b : (0 < a)%Z -> (0 < b)%Z -> (c * b <= a)%Z -> / IZR a * IZR c <= / IZR b.
Proof.
  intros Ha Hb H. apply IZR_lt in Ha, Hb. apply IZR_le in H. rewrite mult_IZR in H. apply (Rmult_le_reg_l (IZR a)); [exact Ha|]. apply (Rmult_le_reg_r (IZR b)); [exact Hb|].
  rewrite <- Rmult_assoc, Rinv_r, Rmult_1_l by lra. rewrite Rmult_assoc, Rinv_l, Rmult_1_r by lra. exact H.
Qed.
Lemma inv_le_half a b : (0 < a)%Z -> (0 < b)%Z -> (2 * b <= a)%Z -> / IZR a <= / IZR b * / 2.
Proof. intros Ha Hb H. assert (Q := inv_le_scaled 2 a b Ha Hb H). lra. Qed.

(** The smallest double as deviation: multiplying by the power of ten overflows. *)
Lemma C67_subnormal_refuted_proof : exists (s : double) (errdig : single) (sep : str), finite s /\ 0 < real_of s /\ few_digits errdig /\
  forall (M : cmath DN) (e : R) (mu : double), good_lib M e -> finite mu ->
  c_pow M (dofZ 10) (dofZ 325) = B754_infinity false -> c_pow M (dofZ 10) (dofZ (-324)) = dzero ->
  d_format M mu s errdig sep = UB.
Proof.
  assert (Rs : real_of s_tiny = pow2 (-1074)) by (unfold real_of, s_tiny, flt, B2R, F2R; cbn [Fnum Fexp cond_Zopp]; unfold pow2; ring).
  assert (Fd : few_digits (fofZ 2)) by (destruct (fofZ_exact 2 ltac:(cbn; lia)) as [Fe Ee]; split; [exact Fe|right; left; exact Ee]).
  exists s_tiny, (fofZ 2), (lit " "). split; [reflexivity|]. rewrite Rs. split; [apply pow2_pos|]. split; [exact Fd|].
  intros M e mu GL Fm P1 P2. assert (Ps := pow2_pos (-1074)). assert (Ns : real_of s_tiny <> 0) by (rewrite Rs; apply Rgt_not_eq; lra). assert (V := margin_val).
  assert (SB : ten (-324) * 4 <= pow2 (-1074) <= ten (-323) * / 2).
  { change (-324)%Z with (- (324))%Z. change (-323)%Z with (- (323))%Z. change (-1074)%Z with (- (1074))%Z. unfold pow2. rewrite !ten_opp, bpow_opp, !ten_IZR, <- (IZR_Zpower radix2) by lia.
    split.
    - apply (inv_le_scaled 4); vm_compute; (reflexivity || discriminate).
    - apply inv_le_half; vm_compute; (reflexivity || discriminate). }
  destruct (judge M e GL s_tiny eq_refl Ns) as (x & Ex & _ & _ & J). rewrite Rs, Rabs_pos_eq in J by lra.
  assert (x = -324)%Z as ->.
  { assert (Q := ten_half (-323)). change (-323 - 1)%Z with (-324)%Z in Q. assert (Q0 := ten_pos (-324)). apply Z.le_antisymm.
    - destruct (Z_le_gt_dec x (-324)) as [|G]; [assumption|exfalso]. assert (T : ten (-323) <= ten x) by (apply ten_le; lia). rewrite V in J. lra.
    - destruct (Z_le_gt_dec (-324) x) as [|G]; [assumption|exfalso]. assert (T : ten (x + 1) <= ten (-324)) by (apply ten_le; lia). rewrite V in J. lra. }
  destruct (fofZ_exact 2 ltac:(cbn; lia)) as [Fe Ee]. assert (Ie : Zfloor (B2R (fofZ 2)) = 2%Z) by (rewrite Ee; apply (Zfloor_IZR 2)).
  assert (Nv := naive_val M e GL (fofZ 2) 2 Fe Ie ltac:(lia) s_tiny eq_refl Ns).
  assert (Z0 : nfrac (fofZ 2) 2 = 0) by (apply nfrac_integer; exact Ee). rewrite Z0 in Nv. destruct (Rltb_spec (pfrac M s_tiny) 0) as [L|_] in Nv; [assert (R0 := pfrac_range M s_tiny); lra|]. change (2 + 0)%Z with 2%Z in Nv.
  assert (Im : d_int_mantissa M s_tiny 2 (-324) = B754_infinity false) by (unfold d_int_mantissa, dpow10; change (2 - 1 - -324)%Z with 325%Z; rewrite P1; reflexivity).
  assert (En : d_ndigits M s_tiny (fofZ 2) = Ret (2%Z, s_tiny)).
  { unfold d_ndigits. rewrite Nv. cbn [bind]. rewrite Ex. cbn [bind]. rewrite Im. unfold dpow10. rewrite P2. reflexivity. }
  assert (Me : exists em, (if negb (Beqb mu dzero) then d_exponent M mu else Ret (-324 - 2 - 1)%Z) = Ret em).
  { destruct (Req_dec (real_of mu) 0) as [Z|Z].
    - exists (-324 - 2 - 1)%Z. rewrite Beqb_correct by (auto; reflexivity). change (B2R dzero) with 0. fold (real_of mu). now rewrite Z, Req_bool_true.
    - rewrite Beqb_zero by assumption. destruct (judge M e GL mu Fm Z) as (em & Em & _). exists em. exact Em. }
  destruct Me as [em Me].
  unfold d_format. change (Bleb (fofZ 2) (fofZ 1)) with false. rewrite Fm. change (is_finite s_tiny) with true. cbn [negb orb]. rewrite (Beqb_zero s_tiny eq_refl Ns), En. cbn [bind]. rewrite Ex. cbn [bind]. rewrite Me. cbn [bind].
  unfold d_mantissa at 1. rewrite Im, ims_inf. reflexivity.
Qed.

(** 999.9999999999999 with deviation 1.8e-12: the logarithm rounds to 3. *)
Lemma nearest_log_999 : nearest (log10 (real_of m_999)) = 3.
Proof.
  assert (Rm : real_of m_999 = 1000 - pow2 (-43)).
  { unfold real_of, m_999, flt, B2R, F2R. cbn [Fnum Fexp cond_Zopp]. unfold pow2. change (bpow radix2 (-43)) with (/ 8796093022208). lra. }
  assert (L10 := ln10_bounds). assert (P43 : pow2 (-43) = / 8796093022208) by reflexivity.
  assert (B : 3 - pow2 (-53) <= log10 (real_of m_999) <= 3).
  { assert (E3 : log10 1000 = 3). { replace 1000 with (ten 3) by (rewrite ten_IZR by lia; reflexivity). now rewrite ten_Rpower, log10_Rpower. }
    split; [|rewrite <- E3; apply log10_le; rewrite Rm, P43; lra].
    assert (Q : log10 (real_of m_999) = 3 + log10 (real_of m_999 / 1000)).
    { rewrite <- E3. unfold log10, Rdiv. rewrite ln_mult, ln_Rinv by (rewrite ?Rm, ?P43; lra). ring. }
    rewrite Q. set (q := real_of m_999 / 1000). assert (Hq : 1 - 12 / 100000000000000000 <= q <= 1) by (unfold q; rewrite Rm, P43; lra).
    assert (W := ln_ge_sub q ltac:(lra)). assert (Iq : / q <= 1 + 13 / 100000000000000000) by (apply (Rmult_le_reg_r q); [lra|]; rewrite Rinv_l by lra; nra).
    assert (I10 : 0 < / ln 10 < / 2) by (split; [apply Rinv_0_lt_compat|apply Rinv_lt_contravar]; lra). unfold log10, Rdiv. set (c := / ln 10) in *.
    change (pow2 (-53)) with (/ 9007199254740992). nra. }
  set (r := log10 (real_of m_999)) in *. set (a := nearest r).
  assert (VE : Valid_exp (FLT_exp (-1074) 53)) by (apply FLT_exp_valid; reflexivity).
  destruct (dofZ_exact 3 ltac:(cbn; lia)) as [_ E3].
  assert (G3 : generic_format radix2 (FLT_exp (-1074) 53) 3) by (change 3 with (IZR 3); rewrite <- E3, <- nearest_format; apply generic_format_round; [exact VE|apply valid_rnd_N]).
  assert (D : Rabs (a - r) <= Rabs (3 - r)) by (apply (round_N_pt radix2 (FLT_exp (-1074) 53) (fun z => negb (Z.even z)) r), G3).
  assert (P53 : pow2 (-53) = / 9007199254740992) by reflexivity. rewrite P53 in B.
  assert (D2 : Rabs (a - 3) <= 2 / 9007199254740992).
  { replace (a - 3) with ((a - r) + (r - 3)) by ring. eapply Rle_trans; [apply Rabs_triang|]. rewrite (Rabs_minus_sym r 3). rewrite (Rabs_pos_eq (3 - r)) in * by lra. lra. }
  assert (Ga : generic_format radix2 (FLT_exp (-1074) 53) a) by (apply generic_format_round; [exact VE|apply valid_rnd_N]).
  assert (Cx : (-51 <= cexp radix2 (FLT_exp (-1074) 53) a)%Z).
  { unfold cexp. assert (Mg : (2 <= mag radix2 a)%Z) by (apply mag_ge_bpow; cbn; apply Rabs_le_inv in D2; rewrite Rabs_pos_eq; lra). unfold FLT_exp. lia. }
  unfold generic_format, F2R in Ga. cbn [Fnum Fexp] in Ga. set (mm := Ztrunc (scaled_mantissa radix2 (FLT_exp (-1074) 53) a)) in Ga. set (cx := cexp radix2 (FLT_exp (-1074) 53) a) in *.
  assert (E1 : a = IZR (mm * 2 ^ (cx + 51)) * bpow radix2 (-51)).
  { rewrite Ga at 1. rewrite mult_IZR, (IZR_Zpower radix2) by lia. rewrite Rmult_assoc, <- bpow_plus. do 2 f_equal. lia. }
  assert (E2 : 3 = IZR (3 * 2 ^ 51) * bpow radix2 (-51)) by (rewrite mult_IZR; change (IZR (2 ^ 51)) with (bpow radix2 51); rewrite Rmult_assoc, <- bpow_plus; cbn; ring).
  rewrite E1, E2. f_equal. f_equal. apply int_gap. apply (Rmult_lt_reg_r (bpow radix2 (-51))); [apply bpow_gt_0|]. rewrite <- (Rabs_pos_eq (bpow radix2 (-51))) at 1 by apply bpow_ge_0.
  rewrite <- Rabs_mult, Rmult_minus_distr_r, <- E1, <- E2, Rmult_1_l. apply Rle_lt_trans with (1 := D2). change (bpow radix2 (-51)) with (/ 2251799813685248). lra.
Qed.

Lemma C67_assert_refuted_proof : exists (mu s : double) (errdig : single) (sep : str), finite mu /\ finite s /\ ten (-12) <= real_of s /\ real_of mu <= ten 3 /\ few_digits errdig /\
  forall (M : cmath DN), best_lib M -> d_format M mu s errdig sep = Assert.
Proof.
  assert (Rs : real_of s_39 = pow2 (-39)) by (unfold real_of, s_39, flt, B2R, F2R; cbn [Fnum Fexp cond_Zopp]; change 4503599627370496%Z with (2 ^ 52)%Z; change (IZR (2 ^ 52)) with (bpow radix2 52); rewrite <- bpow_plus; reflexivity).
  assert (Rm : real_of m_999 = 1000 - / 8796093022208).
  { unfold real_of, m_999, flt, B2R, F2R. cbn [Fnum Fexp cond_Zopp]. change (bpow radix2 (-43)) with (/ 8796093022208). lra. }
  assert (P39 : pow2 (-39) = / 549755813888) by reflexivity.
  assert (T12 : ten (-12) = / 1000000000000) by (change (-12)%Z with (- (12))%Z; rewrite ten_opp, ten_12; reflexivity).
  assert (Fd : few_digits (fofZ 2)) by (destruct (fofZ_exact 2 ltac:(cbn; lia)) as [Fe Ee]; split; [exact Fe|right; left; exact Ee]).
  exists m_999, s_39, (fofZ 2), (lit " "). split; [reflexivity|]. split; [reflexivity|]. rewrite Rs, P39, Rm, T12. split; [lra|].
  split; [rewrite ten_IZR by lia; change (10 ^ 3)%Z with 1000%Z; lra|]. split; [exact Fd|].
  intros M (AC & LG & PW). assert (GL : good_lib M uround) by (split; [split; [lra|apply pow2_le; lia]|exact AC]).
  assert (T1 : ten (-300) <= ten (-12)) by (apply ten_le; lia). assert (T2 : 1 <= ten 300) by (rewrite <- ten_0; apply ten_le; lia).
  destruct (two_digits M uround GL s_39 eq_refl ltac:(rewrite Rs, P39; lra)) as (En & x & sm & es2 & Ex & Em & Hx & Ces & Dg & V). rewrite Rs, P39 in V. apply Rabs_le_inv in V.
  assert (D1 : 10 <= IZR (decimal sm) <= 99) by (split; apply IZR_le; lia). assert (P1 := ten_pos (es2 - 1)). assert (U : 0 < uround <= / 1000) by (change uround with (/ 9007199254740992); lra).
  assert (T13 : ten (-13) = / 10000000000000) by (change (-13)%Z with (- (13))%Z; rewrite ten_opp, ten_13; reflexivity).
  assert (es2 = -12)%Z as E12.
  { apply Z.le_antisymm.
    - destruct (Z_le_gt_dec es2 (-12)) as [|G]; [assumption|exfalso]. assert (Q : ten (-12) <= ten (es2 - 1)) by (apply ten_le; lia). rewrite T12 in Q. nra.
    - destruct (Z_le_gt_dec (-12) es2) as [|G]; [assumption|exfalso]. assert (Q : ten (es2 - 1 + 1) <= ten (-13)) by (apply ten_le; lia). rewrite ten_S, T13 in Q. nra. }
  assert (Ns : real_of s_39 <> 0) by (rewrite Rs, P39; lra). assert (Nm : real_of m_999 <> 0) by (rewrite Rm; lra).
  assert (Ee : d_exponent M m_999 = Ret 3%Z).
  { destruct (judge M uround GL m_999 eq_refl Nm) as (k & Ek & Kf & _). assert (L : real_of (lg M m_999) = 3).
    { unfold lg. destruct (abs_facts m_999 eq_refl) as [Fa Ea]. rewrite LG by (try exact Fa; rewrite Ea; apply Rabs_pos_lt, Nm). rewrite Ea, Rabs_pos_eq by (rewrite Rm; lra). exact nearest_log_999. }
    rewrite L in Kf. rewrite Ek, Kf. f_equal. apply (Zfloor_IZR 3). }
  assert (Pw : dpow10 M 13 = dofZ 10000000000000).
  { assert (W := PW 13%Z ltac:(lia)). fold (dpow10 M 13) in W. destruct (dofZ_exact 10000000000000 ltac:(cbn; lia)) as [F13 E13]. rewrite ten_13 in W. change 10000000000000 with (IZR 10000000000000) in W. rewrite <- E13, nearest_format in W.
    destruct (pow10_close M uround GL 13 ltac:(lia)) as [Fp _]. apply B2R_Bsign_inj; auto.
    assert (Sg : forall a : double, finite a -> 0 < real_of a -> Bsign a = false). { intros a Fa Pa. destruct a as [b|b| |b m ex Hb]; try discriminate Fa; [cbn in Pa; lra|]. destruct b; [|reflexivity]. exfalso. unfold real_of, B2R in Pa. assert (Q := F2R_lt_0 radix2 (Float radix2 (cond_Zopp true (Zpos m)) ex) eq_refl). lra. }
    rewrite !Sg; auto; rewrite ?W, E13; lra. }
  unfold d_format. change (Bleb (fofZ 2) (fofZ 1)) with false. change (is_finite m_999) with true. change (is_finite s_39) with true. cbn [negb orb]. rewrite (Beqb_zero s_39 eq_refl Ns), (Beqb_zero m_999 eq_refl Nm).
  rewrite En. cbn [bind]. rewrite Ex. cbn [bind negb]. rewrite Ee. cbn [bind]. rewrite Em. cbn [bind]. subst es2. change (2 + 3 - -12)%Z with 17%Z.
  unfold d_mantissa, d_int_mantissa. change (17 - 1 - 3)%Z with 13%Z. rewrite Pw.
  assert (C : d_int_mantissa_string (dround (dmul m_999 (dofZ 10000000000000))) = Ret (lit "9999999999999998")) by (vm_compute; reflexivity).
  rewrite C. cbn [bind]. reflexivity.
Qed.

(** ** The correctly rounded library meets the hypotheses *)
Lemma rounded_good : good_lib rounded_cmath uround.
Proof. split; [split; [apply Rle_refl|apply pow2_le; lia]|exact rounded_accurate]. Qed.
Lemma rounded_best : best_lib rounded_cmath.
Proof.
  split; [exact rounded_accurate|]. split.
  - intros a Fa Pa. change (c_log10 rounded_cmath a) with (R2B (ln (real_of a) / ln 10)). apply R2B_correct. apply fits. destruct (log_regular a Fa Pa) as [_ L]. eapply Rle_trans; [exact L|].
    apply Rle_trans with (pow2 10); [change (pow2 10) with 1024; lra|apply pow2_le; lia].
  - intros k Hk. change (c_pow rounded_cmath (dofZ 10) (dofZ k)) with (R2B (Rpower (real_of (dofZ 10)) (real_of (dofZ k)))).
    destruct (dofZ_exact 10 ltac:(cbn; lia)) as [_ ->]. destruct (dofZ_exact k) as [_ ->]; [assert (310 < 2 ^ 53)%Z by reflexivity; lia|]. rewrite <- ten_Rpower. apply R2B_correct, fits.
    rewrite Rabs_pos_eq by (left; apply ten_pos). apply Rle_trans with (ten 307); [apply ten_le; lia|]. unfold pow2. rewrite ten_IZR, <- (IZR_Zpower radix2) by lia. apply IZR_le. vm_compute. discriminate.
Qed.
Lemma rounded_tiny : c_pow rounded_cmath (dofZ 10) (dofZ 325) = B754_infinity false /\ c_pow rounded_cmath (dofZ 10) (dofZ (-324)) = dzero.
Proof.
  assert (E : forall k, (Z.abs k <= 1000)%Z -> c_pow rounded_cmath (dofZ 10) (dofZ k) = R2B (ten k)).
  { intros k Hk. change (c_pow rounded_cmath (dofZ 10) (dofZ k)) with (R2B (Rpower (real_of (dofZ 10)) (real_of (dofZ k)))).
    destruct (dofZ_exact 10 ltac:(cbn; lia)) as [_ ->]. destruct (dofZ_exact k) as [_ ->]; [assert (1000 < 2 ^ 53)%Z by reflexivity; lia|]. now rewrite <- ten_Rpower. }
  rewrite !E by lia. split.
  - unfold R2B. set (m := ZnearestE _). set (c := cexp _ _ _). assert (C := binary_normalize_correct 53 1024 prec53 emax1024 mode_NE m c false). cbn zeta in C.
    assert (B : pow2 1024 <= F2R (Float radix2 m c)).
    { change (F2R (Float radix2 m c)) with (nearest (ten 325)). apply Rle_trans with (nearest (pow2 1024)).
      - unfold nearest. rewrite round_generic; [lra|apply valid_rnd_N|]. apply generic_format_bpow. unfold FLT_exp. lia.
      - apply round_le; [apply FLT_exp_valid; reflexivity|apply valid_rnd_N|]. unfold pow2. rewrite ten_IZR, <- (IZR_Zpower radix2) by lia. apply IZR_le. vm_compute. discriminate. }
    assert (P0 := pow2_pos 1024). rewrite Rlt_bool_false in C.
    + rewrite Rlt_bool_false in C by lra. destruct (binary_normalize 53 1024 prec53 emax1024 mode_NE m c false); cbn in C; try discriminate C. now injection C as ->.
    + apply abs_round_ge_generic; [apply (fexp_correct 53 1024); reflexivity|apply valid_rnd_round_mode|apply generic_format_bpow; unfold SpecFloat.fexp, SpecFloat.emin; lia|rewrite Rabs_pos_eq by lra; exact B].
  - unfold R2B. set (m := ZnearestE _). set (c := cexp _ _ _). assert (Z : nearest (ten (-324)) = 0).
    { apply (round_N_small_pos radix2 (FLT_exp (-1074) 53) _ (ten (-324)) (mag radix2 (ten (-324)))).
      - assert (P := ten_pos (-324)). destruct (mag radix2 (ten (-324))) as [j Hj]. cbn [mag_val]. rewrite <- (Rabs_pos_eq (ten (-324))) by lra. apply Hj. lra.
      - assert (G : (mag radix2 (ten (-324)) <= -1075)%Z).
        { apply mag_le_bpow; [apply Rgt_not_eq, ten_pos|]. rewrite Rabs_pos_eq by (left; apply ten_pos). change (-324)%Z with (- (324))%Z. change (-1075)%Z with (- (1075))%Z. rewrite ten_opp, bpow_opp, ten_IZR, <- (IZR_Zpower radix2) by lia.
          apply Rinv_lt_contravar; [|apply IZR_lt; vm_compute; reflexivity]. rewrite <- mult_IZR. apply (IZR_lt 0). vm_compute. reflexivity. }
        unfold FLT_exp. lia. }
    assert (m = 0%Z) as ->; [|reflexivity]. change (nearest (ten (-324))) with (F2R (Float radix2 m c)) in Z. exact (eq_0_F2R radix2 m c Z).
Qed.
