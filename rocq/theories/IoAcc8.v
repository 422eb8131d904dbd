(** * IoAcc8: which number of digits is chosen *)

From Coq Require Import List ZArith Bool Reals Ascii String Lra Lia Psatz.
From Flocq Require Import Core BinarySingleNaN Sterbenz.
From Verif Require Import Base Num Ieee SpecIeee IeeeProofs3 IeeeProofs4 IeeeCov Math SpecMathIeee MathAcc7 Io SpecIo IoProofs IoProofs2
  IoIeee SpecIoIeee IoAcc1 IoAcc2 IoAcc3 IoAcc4 IoAcc5 IoAcc6 IoAcc7.
Import ListNotations.
Local Open Scope R_scope.

(** Next to a nonzero integer the nearest float is the integer. *)
Lemma absorb j r : (1 <= Z.abs j <= 400)%Z -> Rabs (r - IZR j) <= / 1000000000 -> near32 r = IZR j.
Proof.
  intros Hj Hr. assert (Fj := near32_IZR j ltac:(assert (400 < 2 ^ 20)%Z by reflexivity; lia)).
  assert (Gj : generic_format radix2 (SpecFloat.fexp 24 128) (IZR j)) by (rewrite <- Fj; apply generic_format_round; [apply (fexp_correct 24 128); reflexivity|apply valid_rnd_N]).
  assert (VE : Valid_exp (SpecFloat.fexp 24 128)) by (apply (fexp_correct 24 128); reflexivity).
  assert (D : Rabs (near32 r - r) <= Rabs (IZR j - r)) by (apply (round_N_pt radix2 (SpecFloat.fexp 24 128) (fun z => negb (Z.even z)) r), Gj).
  assert (D2 : Rabs (near32 r - IZR j) <= 2 / 1000000000).
  { replace (near32 r - IZR j) with ((near32 r - r) + (r - IZR j)) by ring. eapply Rle_trans; [apply Rabs_triang|]. rewrite (Rabs_minus_sym (IZR j) r) in D. lra. }
  assert (Gr : generic_format radix2 (SpecFloat.fexp 24 128) (near32 r)) by (apply generic_format_round; [exact VE|apply valid_rnd_N]).
  assert (J1 : 1 <= Rabs (IZR j)) by (rewrite <- abs_IZR; apply (IZR_le 1); lia).
  assert (R1 : / 2 <= Rabs (near32 r)). { assert (Q := Rabs_triang_inv (IZR j) (near32 r)). rewrite Rabs_minus_sym in Q. lra. }
  assert (Cx : (-24 <= cexp radix2 (SpecFloat.fexp 24 128) (near32 r))%Z).
  { unfold cexp. assert (Mg : (0 <= mag radix2 (near32 r))%Z). { apply mag_ge_bpow. cbn. lra. } unfold SpecFloat.fexp. unfold SpecFloat.emin. lia. }
  unfold generic_format, F2R in Gr. cbn [Fnum Fexp] in Gr. set (mm := Ztrunc (scaled_mantissa radix2 (SpecFloat.fexp 24 128) (near32 r))) in Gr. set (cx := cexp radix2 (SpecFloat.fexp 24 128) (near32 r)) in *.
  assert (E1 : near32 r = IZR (mm * 2 ^ (cx + 24)) * bpow radix2 (-24)).
  { rewrite Gr at 1. rewrite mult_IZR, (IZR_Zpower radix2) by lia. rewrite Rmult_assoc, <- bpow_plus. do 2 f_equal. lia. }
  assert (E2 : IZR j = IZR (j * 2 ^ 24) * bpow radix2 (-24)) by (rewrite mult_IZR; change (IZR (2 ^ 24)) with (bpow radix2 24); rewrite Rmult_assoc, <- bpow_plus; cbn; ring).
  rewrite E1, E2. f_equal. f_equal. apply int_gap. apply (Rmult_lt_reg_r (bpow radix2 (-24))); [apply bpow_gt_0|]. rewrite <- (Rabs_pos_eq (bpow radix2 (-24))) at 1 by apply bpow_ge_0.
  rewrite <- Rabs_mult, Rmult_minus_distr_r, <- E1, <- E2, Rmult_1_l. apply Rle_lt_trans with (1 := D2). change (bpow radix2 (-24)) with (/ 16777216). lra.
Qed.
Lemma ten_m4 : ten (-4) = / 10000.
Proof. change (-4)%Z with (- (4))%Z. rewrite ten_opp, ten_IZR by lia. reflexivity. Qed.
Lemma Rpower_ge t : 0 <= t -> 1 + 2 * t <= Rpower 10 t.
Proof. intro H. unfold Rpower. assert (G := exp_ge (t * ln 10)). assert (L := ln10_bounds). nra. Qed.
Lemma log10_le a b : 0 < a -> a <= b -> log10 a <= log10 b.
Proof. intros P H. unfold log10. assert (L10 := ln10_bounds). apply Rmult_le_compat_r; [left; apply Rinv_0_lt_compat; lra|]. now apply ln_le. Qed.
Lemma log10_scaled x t : log10 (ten x * Rpower 10 t) = IZR x + t.
Proof. now rewrite ten_Rpower, <- Rpower_plus, log10_Rpower. Qed.

Section Lib.
Variables (M : cmath DN) (e : R).
Hypothesis GL : good_lib M e.

Lemma near_ten a j : finite a -> (1 <= Z.abs j <= 400)%Z -> ten j * (1 - margin) <= real_of a <= ten j * (1 + margin) -> pfrac M a = 0.
Proof.
  intros F Hj [A B]. assert (V := margin_val). assert (Pj := ten_pos j). assert (P : 0 < real_of a) by (rewrite V in A; lra). assert (N : real_of a <> 0) by (apply Rgt_not_eq; lra).
  assert (T := lg_tau M e GL a F N). rewrite (Rabs_pos_eq (real_of a)) in T by lra. assert (TV := tau_val). apply Rabs_le_inv in T.
  assert (L10 := ln10_bounds).
  assert (L : - (/ 10000000000) <= log10 (real_of a) - IZR j <= / 10000000000).
  { assert (Ej : log10 (real_of a) - IZR j = log10 (real_of a / ten j)).
    { rewrite <- (log10_Rpower (IZR j)), <- ten_Rpower. unfold log10, Rdiv. rewrite ln_mult, ln_Rinv by (try apply Rinv_0_lt_compat; lra). ring. }
    rewrite Ej. set (q := real_of a / ten j). assert (Q : 1 - margin <= q <= 1 + margin).
    { unfold q. split; apply (Rmult_le_reg_r (ten j)); auto; unfold Rdiv; rewrite Rmult_assoc, Rinv_l by lra; lra. }
    rewrite V in Q. assert (U := ln_le_sub q ltac:(lra)). assert (W := ln_ge_sub q ltac:(lra)). assert (I10 : 0 < / ln 10 < / 2) by (split; [apply Rinv_0_lt_compat|apply Rinv_lt_contravar]; lra).
    assert (Iq : / q <= 1 + 5 / 10000000000000). { apply (Rmult_le_reg_r q); [lra|]. rewrite Rinv_l by lra. nra. }
    unfold log10, Rdiv. set (c := / ln 10) in *. split; nra. }
  assert (PL : plog M a = IZR j) by (apply absorb; [exact Hj|]; apply Rabs_le; lra).
  unfold pfrac. rewrite PL, Zfloor_IZR, Rminus_eq_0. apply round_0, valid_rnd_N.
Qed.

Lemma plog_ge s x : finite s -> decade (real_of s) x -> 0 < real_of s -> (-400 <= x <= 400)%Z -> IZR x <= plog M s.
Proof.
  intros F [D _] P Hx. rewrite Rabs_pos_eq in D by lra. assert (N : real_of s <> 0) by (apply Rgt_not_eq; lra).
  assert (L : IZR x <= log10 (real_of s)) by (rewrite <- (log10_Rpower (IZR x)), <- ten_Rpower; apply log10_le; [apply ten_pos|exact D]).
  destruct (Z.eq_dec x 0) as [->|Nx].
  - destruct (lg_spec M e GL s F N) as (_ & B & _). rewrite (Rabs_pos_eq (real_of s)) in B by lra. rewrite (Rabs_pos_eq (log10 (real_of s))) in B by lra. apply Rabs_le_inv in B. destruct (e_rng M e GL) as [[E1 E2] _].
    rewrite <- (near32_IZR 0) by (cbn; lia). unfold plog. apply near32_le. nra.
  - assert (T := lg_tau M e GL s F N). rewrite (Rabs_pos_eq (real_of s)) in T by lra. assert (TV := tau_val). apply Rabs_le_inv in T.
    rewrite <- (absorb x (IZR x - / 1000000000)) by (try lia; replace (IZR x - / 1000000000 - IZR x) with (- / 1000000000) by ring; rewrite Rabs_Ropp, Rabs_pos_eq; lra).
    unfold plog. apply near32_le. lra.
Qed.

Variable errdig : single.
Variable i : Z.
Variable f : R.
Hypothesis Fe : is_finite errdig = true.
Hypothesis Ie : Zfloor (B2R errdig) = i.
Hypothesis Ib : (1 <= i <= 3)%Z.
Hypothesis Ii : i = 1%Z \/ B2R errdig = IZR i.
Hypothesis IF : int_frac (B2R errdig) i f.
Notation nfr := (nfrac errdig i).

Lemma nfr_f : nfr = f.
Proof.
  destruct IF as [E Ff]. destruct Ii as [I1|I1].
  - unfold nfrac. replace f with (B2R errdig - IZR i) by lra. subst i. unfold near32. apply round_generic; [apply valid_rnd_N|].
    rewrite I1 in *. apply sterbenz.
    + apply (fexp_correct 24 128); reflexivity.
    + apply (fexp_monotone 24 128).
    + apply generic_format_B2R.
    + rewrite <- (near32_IZR 1) by (cbn; lia). apply generic_format_round; [apply (fexp_correct 24 128); reflexivity|apply valid_rnd_N].
    + lra.
  - rewrite (nfrac_integer errdig i I1). lra.
Qed.

Lemma frac_small s x : finite s -> 0 < real_of s -> (-400 <= x <= 400)%Z -> decade (real_of s) x -> real_of s <= ten x * Rpower 10 (f - ten (-4)) -> pfrac M s < nfr.
Proof.
  intros F P Hx D H. assert (N : real_of s <> 0) by (apply Rgt_not_eq; lra). rewrite ten_m4 in H. destruct IF as [E Ff].
  assert (L := log10_le _ _ P H). rewrite log10_scaled in L. assert (G := plog_ge s x F D P Hx).
  assert (T := lg_tau M e GL s F N). rewrite (Rabs_pos_eq (real_of s)) in T by lra. assert (TV := tau_val). assert (PB := plog_bounds M e GL s F N). apply Rabs_le_inv in T, PB.
  assert (Q := Zfloor_between (plog M s) x ltac:(lra)). unfold pfrac. rewrite Q. rewrite nfr_f.
  assert (R := near32_err (plog M s - IZR x) ltac:(rewrite Rabs_pos_eq; lra)). apply Rabs_le_inv in R. lra.
Qed.
Lemma frac_large s x : finite s -> 0 < real_of s -> (-310 <= x <= 310)%Z -> ten x * Rpower 10 (f + ten (-4)) <= real_of s <= 995 / 100 * ten x -> nfr < pfrac M s.
Proof.
  intros F P Hx [H1 H2]. assert (N : real_of s <> 0) by (apply Rgt_not_eq; lra). rewrite ten_m4 in H1. destruct IF as [E Ff].
  assert (Pt : 0 < ten x * Rpower 10 (f + / 10000)) by (apply Rmult_lt_0_compat; [apply ten_pos|apply exp_pos]).
  assert (L := log10_le _ _ Pt H1). rewrite log10_scaled in L. assert (G := plog_below M e GL s x F P Hx H2).
  assert (T := lg_tau M e GL s F N). rewrite (Rabs_pos_eq (real_of s)) in T by lra. assert (TV := tau_val). assert (PB := plog_bounds M e GL s F N). apply Rabs_le_inv in T, PB.
  assert (Q := Zfloor_between (plog M s) x ltac:(lra)). unfold pfrac. rewrite Q. rewrite nfr_f.
  assert (R := near32_err (plog M s - IZR x) ltac:(rewrite Rabs_pos_eq; lra)). apply Rabs_le_inv in R. lra.
Qed.

Lemma choice s n s' x : finite s -> ten (-300) <= real_of s <= ten 300 -> d_ndigits M s errdig = Ret (n, s') -> decade (real_of s) x ->
    (real_of s <= ten x * Rpower 10 (f - ten (-4)) -> n = (i + 1)%Z) /\
    (ten x * Rpower 10 (f + ten (-4)) <= real_of s <= 94 / 10 * ten x -> n = i) /\
    (0 < f -> 96 / 10 * ten x <= real_of s -> x <> (-1)%Z -> n = (i + 1)%Z).
Proof.
  intros F S En D. assert (P : 0 < real_of s) by (assert (Q := ten_pos (-300)); lra). assert (V := margin_val). destruct (e_rng M e GL) as [[E1 E2] _].
  destruct (d_ndigits_cases M e GL errdig i Fe Ie Ib s F S) as (n0 & s0 & xj & En0 & Ex & Fx & Hx & J & F' & Le & Cs). rewrite En in En0. injection En0 as <- <-.
  assert (D' := D). destruct D' as [D1 D2]. rewrite Rabs_pos_eq in D1, D2 by lra. rewrite ten_S in D2. assert (Px := ten_pos x).
  assert (X1 : (xj <= x + 1)%Z). { destruct (Z_le_gt_dec xj (x + 1)) as [|G]; [assumption|exfalso]. assert (Q : ten (x + 1 + 1) <= ten xj) by (apply ten_le; lia). rewrite !ten_S in Q. nra. }
  assert (X2 : (x - 1 <= xj)%Z). { destruct (Z_le_gt_dec (x - 1) xj) as [|G]; [assumption|exfalso]. assert (Q : ten (xj + 1) <= ten (x - 1)) by (apply ten_le; lia). assert (Hh := ten_half x). nra. }
  destruct IF as [Ed Ff]. split; [|split].
  - intro H. assert (L := frac_small s x F P ltac:(lia) D H). destruct Cs as [(_ & Hn & _)|[(_ & _ & L' & _)|(Hn & _)]]; [exact Hn|lra|exact Hn].
  - intros [H1 H2]. assert (L := frac_large s x F P ltac:(lia) ltac:(lra)). destruct Cs as [(_ & _ & L')|[(_ & Hn & _)|(Hn & _ & L' & Lt & z & RT)]]; [lra|exact Hn|exfalso].
    assert (I1 : i = 1%Z). { destruct Ii as [|Q]; [assumption|]. rewrite (nfrac_integer errdig i Q) in L'. assert (R0 := pfrac_range M s'). lra. }
    assert (Gt : ten x * (1 + / 10000) <= real_of s).
    { assert (Q := Rpower_ge (f + ten (-4)) ltac:(rewrite ten_m4; lra)). rewrite ten_m4 in Q, H1. nra. }
    assert (xj = x) as ->.
    { apply Z.le_antisymm.
      - destruct (Z_le_gt_dec xj x) as [|G]; [assumption|exfalso]. assert (Q : ten (x + 1) <= ten xj) by (apply ten_le; lia). rewrite ten_S in Q. nra.
      - destruct (Z_le_gt_dec x xj) as [|G]; [assumption|exfalso]. assert (Q : ten (xj + 1) <= ten x) by (apply ten_le; lia). nra. }
    rewrite I1 in RT. assert (RT' := RT). destruct RT' as (_ & Zc & Zb & Vr). replace (1 - 1 - x)%Z with (- x)%Z in Zc by lia. rewrite ten_opp in Zc.
    assert (Sq : real_of s * / ten x <= 94 / 10) by (apply (Rmult_le_reg_r (ten x)); [exact Px|]; rewrite Rmult_assoc, Rinv_l by lra; lra).
    assert (Sp : 0 <= real_of s * / ten x) by (apply Rmult_le_pos; [lra|left; now apply Rinv_0_lt_compat]).
    assert (Z9 : (z <= 9)%Z). { enough (A : IZR z < IZR 10) by (apply lt_IZR in A; lia). apply Rabs_le_inv in Zc. nra. }
    assert (L2 : nfr <= pfrac M s) by lra. assert (G := changed_choice M e GL errdig i s s' x z F P Hx Fx RT L2 L' Lt Z9).
    assert (S9 : real_of s' <= 995 / 100 * ten x) by (rewrite V in G; nra).
    assert (L3 := frac_large s' x F' ltac:(lra) ltac:(lia) (conj (Rle_trans _ _ _ H1 Le) S9)). lra.
  - intros Hf H Nx. destruct Cs as [(_ & Hn & _)|[(_ & _ & L & z & r & RT & Cr)|(Hn & _)]]; [exact Hn|exfalso|exact Hn].
    assert (I1 : i = 1%Z) by (destruct Ii as [|Q]; [assumption|lra]).
    rewrite nfr_f in L, Cr.
    assert (X3 : (x <= xj)%Z). { destruct (Z_le_gt_dec x xj) as [|G]; [assumption|exfalso]. assert (Q : ten (xj + 1) <= ten x) by (apply ten_le; lia). nra. }
    assert (Near : ten (x + 1) * (1 - margin) <= real_of s -> False).
    { intro Q. rewrite (near_ten s (x + 1) F ltac:(lia)) in L by (rewrite ten_S in *; split; [exact Q|nra]). lra. }
    destruct (Z.eq_dec xj x) as [->|Nj]; [|apply Near; replace (x + 1)%Z with xj by lia; lra].
    rewrite I1 in RT. destruct RT as (Fr & Zc & Zb & Vr). replace (1 - 1 - x)%Z with (- x)%Z in Zc by lia. rewrite ten_opp in Zc. change (10 ^ 1)%Z with 10%Z in Zb.
    assert (Sq : 96 / 10 <= real_of s * / ten x) by (apply (Rmult_le_reg_r (ten x)); [exact Px|]; rewrite Rmult_assoc, Rinv_l by lra; lra).
    assert (Sq2 : real_of s * / ten x <= 10) by (apply (Rmult_le_reg_r (ten x)); [exact Px|]; rewrite Rmult_assoc, Rinv_l by lra; lra).
    assert (z = 10)%Z as ->. { enough (A : IZR 9 < IZR z) by (apply lt_IZR in A; lia). apply Rabs_le_inv in Zc. nra. }
    apply Rabs_le_inv in Vr.
    assert (RB : ten (x + 1) * (1 - margin) <= real_of r <= ten (x + 1) * (1 + margin)) by (rewrite ten_S; nra).
    destruct Cr as [Cr|Cr]; [apply Near; lra|]. rewrite (near_ten r (x + 1) Fr ltac:(lia) RB) in Cr. lra.
Qed.
End Lib.
