(** * IoAcc6: the whole text on doubles *)

From Coq Require Import List ZArith Bool Reals Ascii String Lra Lia Psatz.
From Flocq Require Import Core BinarySingleNaN.
From Verif Require Import Base Num Ieee SpecIeee IeeeProofs3 IeeeProofs4 IeeeCov Math SpecMathIeee MathAcc7 Io SpecIo IoProofs IoProofs2
  IoIeee SpecIoIeee IoAcc1 IoAcc2 IoAcc3 IoAcc4 IoAcc5.
Import ListNotations.
Local Open Scope R_scope.

(** ** The text, given the two mantissas *)
Lemma text_layout (neg : bool) sep sm mm n em es2 em2 :
  sm <> [] -> List.Forall is_digit sm -> mm <> [] -> List.Forall is_digit mm -> (1 <= n)%Z ->
  let nm := (n + em - es2)%Z in
  (em2 = em \/ (em2 = (em + 1)%Z /\ (1 <= nm)%Z)) ->
  let ue := (if n <=? nm then (nm <=? em2) || (em2 <? -1) else (n <=? es2) || (es2 <? -1))%Z in
  let be := (if n <=? nm then em2 else es2)%Z in
  let sign := if neg then lit "-" else [] in
  let out := if ue then lit "(" ++ sign ++ insert_dot mm nm (em2 - be) ++ sep ++ insert_dot sm n (es2 - be) ++ lit ")e" ++ format_exp be
             else sign ++ insert_dot mm nm em2 ++ sep ++ insert_dot sm n es2 in
  exists Mt St ee vM pM vS pS, layout out sep neg Mt St ee /\ numeral Mt vM pM /\ numeral St vS pS /\
    (ee - Z.of_nat pS = es2 - n + 1)%Z /\ vS * ten ee = IZR (decimal sm) * ten (es2 - n + 1) /\ vS * 10 ^ pS = IZR (decimal sm) /\
    ((vM * ten ee = IZR (decimal mm) * ten (em2 - nm + 1) /\ (em2 = em -> pM = pS)) \/
     (ee = 0%Z /\ (es2 - n + 1 = 0)%Z /\ em2 = (em + 1)%Z /\ (1 <= nm)%Z)).
Proof.
  intros Nsm Fsm Nmm Fmm Hn nm Cem ue be sign out.
  set (e := (if ue then be else 0)%Z). set (M := insert_dot mm nm (em2 - e)). set (SS := insert_dot sm n (es2 - e)).
  assert (Be : ue = true -> be <> 0%Z).
  { unfold ue, be. destruct (Z.leb_spec n nm) as [Q|Q]; intro H; apply orb_true_iff in H as [H|H]; unfold nm in *; lia. }
  assert (RgS : (es2 - e <= n - 1)%Z).
  { unfold e. destruct ue eqn:U; unfold ue in U; unfold be; destruct (Z.leb_spec n nm) as [L|L].
    - destruct Cem as [->|[-> _]]; unfold nm in *; lia.
    - lia.
    - apply orb_false_iff in U as [U1 U2]. destruct Cem as [->|[-> _]]; unfold nm in *; lia.
    - apply orb_false_iff in U as [U1 U2]. lia. }
  assert (RgM : (em2 - e <= nm - 1)%Z \/ (e = 0%Z /\ (es2 - n + 1 = 0)%Z /\ em2 = nm /\ em2 = (em + 1)%Z /\ (1 <= nm)%Z)).
  { unfold e. destruct ue eqn:U; unfold ue in U; unfold be; destruct (Z.leb_spec n nm) as [L|L].
    - left. lia.
    - left. destruct Cem as [->|(-> & Hnm)]; unfold nm in *; lia.
    - apply orb_false_iff in U as [U1 U2]. left. lia.
    - apply orb_false_iff in U as [U1 U2]. destruct Cem as [->|(C1 & Hnm)]; [left; unfold nm in *; lia|].
      destruct (Z_le_gt_dec em2 (nm - 1)) as [Le|Gt]; [left; lia|]. right. split; [reflexivity|].
      split; [unfold nm in *; lia|]. split; [unfold nm in *; lia|]. auto. }
  assert (NS := insert_dot_numeral sm n (es2 - e) Nsm Fsm RgS). fold SS in NS.
  set (pS := Z.to_nat (n - 1 - (es2 - e))) in *.
  assert (exists vM pM, numeral M vM pM /\ ((em2 - e <= nm - 1)%Z -> vM = IZR (decimal mm) * ten (em2 - e - nm + 1) /\ pM = Z.to_nat (nm - 1 - (em2 - e)))) as (vM & pM & NM & VM).
  { destruct RgM as [L|(L0 & L1 & L2 & _)].
    - eexists _, _. split; [exact (insert_dot_numeral mm nm (em2 - e) Nmm Fmm L)|]. intros _. split; reflexivity.
    - exists (IZR (decimal mm)), O. split; [apply insert_dot_beyond; auto; lia|]. intro Q; lia. }
  exists M, SS, e, vM, pM, (IZR (decimal sm) * ten (es2 - e - n + 1)), pS. split.
  { unfold layout, out, e, M, SS, e. destruct ue eqn:U.
    - right. exists (format_exp be). split; [apply format_exp_text, Be; reflexivity|]. unfold sign. now destruct neg.
    - left. split; [reflexivity|]. unfold sign. rewrite !Z.sub_0_r. now destruct neg. }
  split; [exact NM|]. split; [exact NS|]. split; [unfold pS; lia|]. split.
  { rewrite Rmult_assoc, <- ten_add. do 2 f_equal. lia. }
  split.
  { rewrite <- ten_nat, Rmult_assoc, <- ten_add. replace (es2 - e - n + 1 + Z.of_nat pS)%Z with 0%Z by (unfold pS; lia). rewrite ten_0. ring. }
  destruct RgM as [L|(L0 & L1 & L2 & L3 & L4)]; [left|right; auto]. destruct (VM L) as [-> ->]. split.
  - rewrite Rmult_assoc, <- ten_add. do 2 f_equal. lia.
  - intros ->. unfold pS, nm. f_equal. lia.
Qed.

Lemma ten_2 : ten 2 = 100.
Proof. rewrite (ten_IZR 2) by lia. reflexivity. Qed.
Lemma ten_small n : (0 <= n <= 4)%Z -> 1 <= ten n <= 10000.
Proof. intro H. rewrite <- ten_0 at 1. replace 10000 with (ten 4) by (rewrite (ten_IZR 4) by lia; reflexivity). split; apply ten_le; lia. Qed.
Lemma int_gap (a b : Z) : Rabs (IZR a - IZR b) < 1 -> a = b.
Proof. intro H. apply Rabs_def2 in H. destruct H as [H1 H2]. assert (A : IZR a < IZR (b + 1)) by (rewrite plus_IZR; lra). assert (B : IZR b < IZR (a + 1)) by (rewrite plus_IZR; lra). apply lt_IZR in A, B. lia. Qed.

Section Lib.
Variables (M : cmath DN) (e : R).
Hypothesis GL : good_lib M e.

Lemma judge_T s n x : ten x * (1 - margin) <= Rabs (real_of s) <= ten (x + 1) * (1 + margin) ->
  let T := Rabs (real_of s) * ten (n - 1 - x) in ten (n - 1) * (1 - margin) <= T <= ten n * (1 + margin).
Proof.
  intros [A B] T. assert (P := ten_pos (n - 1 - x)). unfold T. replace (ten (n - 1)) with (ten x * ten (n - 1 - x)) by (rewrite <- ten_add; f_equal; lia).
  replace (ten n) with (ten (x + 1) * ten (n - 1 - x)) by (rewrite <- ten_add; f_equal; lia). nra.
Qed.

(** the mantissa with at most four digits of a number in its decade *)
Lemma short_mantissa s n x : finite s -> (-307 <= n - 1 - x <= 307)%Z -> (1 <= n <= 4)%Z -> ten x * (1 - margin) <= Rabs (real_of s) <= ten (x + 1) * (1 + margin) ->
  exists sm es2, d_mantissa M s n x = Ret (sm, es2) /\ sm <> [] /\ List.Forall is_digit sm /\ (10 ^ (n - 1) <= decimal sm < 10 ^ n)%Z /\ (x <= es2 <= x + 1)%Z /\
  Rabs (IZR (decimal sm) * ten (es2 - n + 1) - Rabs (real_of s)) <= ten (x - n + 1) / 2 + 4 * e * Rabs (real_of s).
Proof.
  intros F W Hn J. assert (TB := judge_T s n x J). cbv zeta in TB. set (T := Rabs (real_of s) * ten (n - 1 - x)) in *.
  assert (V := margin_val). destruct (e_rng M e GL) as [[E1 E2] _]. assert (B1 := ten_small n ltac:(lia)). assert (B0 := ten_small (n - 1) ltac:(lia)).
  assert (TT : 0 <= T <= 10001) by (rewrite V in TB; nra). assert (ET : 0 <= e * T <= / 1000) by nra. rewrite V in TB.
  destruct (d_mantissa_spec M e GL s n x F W) as (sm & es2 & Em & Ns & Fs & Vs & Dg & C); fold T; try replace (4 * e * T) with (4 * (e * T)) by ring.
  - change (pow2 51) with 2251799813685248. lra.
  - intros _. lra.
  - intros _. lra.
  - lia.
  - exists sm, es2. split; [exact Em|]. split; [exact Ns|]. split; [exact Fs|]. split; [apply Dg; lia|]. split; [destruct C as [->|[-> _]]; lia|exact Vs].
Qed.

Variable errdig : single.
Variable i : Z.
Hypothesis Fe : is_finite errdig = true.
Hypothesis Ie : Zfloor (B2R errdig) = i.
Hypothesis Ib : (1 <= i <= 3)%Z.
Hypothesis Ii : i = 1%Z \/ B2R errdig = IZR i.

Lemma deviation_text s : finite s -> ten (-300) <= real_of s <= ten 300 ->
  exists n s' x' sm es2, d_ndigits M s errdig = Ret (n, s') /\ d_exponent M s' = Ret x' /\ d_mantissa M s' n x' = Ret (sm, es2) /\
    sm <> [] /\ List.Forall is_digit sm /\ (1 <= n <= 3)%Z /\ (i <= n <= i + 1)%Z /\ (B2R errdig = IZR i -> n = i) /\ (x' <= es2 <= x' + 1)%Z /\ (-302 <= x' <= 302)%Z /\
    (10 ^ (n - 1) <= decimal sm < 10 ^ n)%Z /\
    Rabs (IZR (decimal sm) * ten (es2 - n + 1) - real_of s) <= ten (es2 - n + 1) / 2 + 4 * e * real_of s.
Proof.
  intros F S. assert (V := margin_val). destruct (e_rng M e GL) as [[E1 E2] _].
  assert (P : 0 < real_of s) by (assert (Q := ten_pos (-300)); lra).
  destruct (d_ndigits_cases M e GL errdig i Fe Ie Ib s F S) as (n & s' & x & En & Ex & Fx & Hx & J & F' & Le & Cs).
  assert (NoFrac : pfrac M s' < nfrac errdig i -> i = 1%Z /\ B2R errdig <> IZR i).
  { intro H. assert (Q : B2R errdig <> IZR i). { intro Q. rewrite (nfrac_integer errdig i Q) in H. assert (R0 := pfrac_range M s'). lra. } tauto. }
  assert (Same : s' = s -> (1 <= n <= 3)%Z -> (i <= n <= i + 1)%Z -> (B2R errdig = IZR i -> n = i) -> exists n s' x' sm es2, d_ndigits M s errdig = Ret (n, s') /\ d_exponent M s' = Ret x' /\ d_mantissa M s' n x' = Ret (sm, es2) /\
    sm <> [] /\ List.Forall is_digit sm /\ (1 <= n <= 3)%Z /\ (i <= n <= i + 1)%Z /\ (B2R errdig = IZR i -> n = i) /\ (x' <= es2 <= x' + 1)%Z /\ (-302 <= x' <= 302)%Z /\
    (10 ^ (n - 1) <= decimal sm < 10 ^ n)%Z /\
    Rabs (IZR (decimal sm) * ten (es2 - n + 1) - real_of s) <= ten (es2 - n + 1) / 2 + 4 * e * real_of s).
  { intros -> N1 N2 N3. destruct (short_mantissa s n x F ltac:(lia) ltac:(lia)) as (sm & es2 & Em & Ns & Fs & Dg & Ces & Vs); [rewrite Rabs_pos_eq; lra|].
    rewrite (Rabs_pos_eq (real_of s)) in Vs by lra. exists n, s, x, sm, es2. do 5 (split; [assumption|]). do 4 (split; [assumption|]). split; [lia|]. split; [exact Dg|].
    assert (ten (x - n + 1) <= ten (es2 - n + 1)) by (apply ten_le; lia). lra. }
  destruct Cs as [(Es & Hn & L)|[(Es & Hn & L & _)|(Hn & L & L' & Lt & z & RT)]].
  - rewrite Es in NoFrac. destruct (NoFrac L) as [I1 I2]. apply Same; [exact Es|lia|lia|tauto].
  - apply Same; [exact Es|lia|lia|intros _; exact Hn].
  - destruct (NoFrac L') as [I1 I2]. rewrite I1 in Hn, RT, L, L'. change (1 + 1)%Z with 2%Z in Hn. subst n.
    assert (RT' := RT). destruct RT' as (_ & Zc & Zb & Vr). change (10 ^ (1 - 1))%Z with 1%Z in Zb. change (10 ^ 1)%Z with 10%Z in Zb.
    replace (1 - 1 - x)%Z with (- x)%Z in Zc by lia. assert (Px := ten_pos x).
    assert (Z1 : 1 <= IZR z <= 10) by (split; apply IZR_le; lia).
    assert (Zs : Rabs (IZR z * ten x - real_of s) <= ten x / 2 + 4 * e * real_of s).
    { rewrite ten_opp in Zc. replace (IZR z * ten x - real_of s) with ((IZR z - real_of s * / ten x) * ten x) by (field; lra). rewrite Rabs_mult, (Rabs_pos_eq (ten x)) by lra.
      apply Rle_trans with ((/ 2 + 4 * e * (real_of s * / ten x)) * ten x); [apply Rmult_le_compat_r; lra|]. right. field. lra. }
    assert (Zt : ten x <= IZR z * ten x <= 10 * ten x) by nra. apply Rabs_le_inv in Vr.
    assert (P' : 0 < real_of s') by lra.
    destruct (judge M e GL s' F' ltac:(apply Rgt_not_eq; lra)) as (x' & Ex' & _ & _ & J'). assert (J2 := J'). rewrite Rabs_pos_eq in J2 by lra.
    assert (X1 : (x' <= x + 1)%Z).
    { destruct (Z_le_gt_dec x' (x + 1)) as [|G]; [assumption|exfalso]. assert (Q : ten (x + 1 + 1) <= ten x') by (apply ten_le; lia). rewrite !ten_S in Q. nra. }
    assert (X2 : (x - 1 <= x')%Z).
    { destruct (Z_le_gt_dec (x - 1) x') as [|G]; [assumption|exfalso]. assert (Q : ten (x' + 1) <= ten (x - 1)) by (apply ten_le; lia). assert (Hh := ten_half x). nra. }
    destruct (short_mantissa s' 2 x' F' ltac:(lia) ltac:(lia) J') as (sm & es2 & Em & Ns & Fs & Dg & Ces & Vs). rewrite (Rabs_pos_eq (real_of s')) in Vs by lra.
    change (10 ^ (2 - 1))%Z with 10%Z in Dg. change (10 ^ 2)%Z with 100%Z in Dg. replace (es2 - 2 + 1)%Z with (es2 - 1)%Z in Vs by lia. replace (x' - 2 + 1)%Z with (x' - 1)%Z in Vs by lia.
    (* the printed value is z * 10^x *)
    set (u := ten (x' - 1)) in *. assert (Pu : 0 < u) by apply ten_pos.
    assert (Ew : exists w, IZR (decimal sm) * ten (es2 - 1) = IZR w * u).
    { exists (decimal sm * 10 ^ (es2 - x'))%Z. rewrite mult_IZR, <- ten_IZR by lia. unfold u. rewrite Rmult_assoc, <- ten_add. do 2 f_equal. lia. }
    assert (EW : exists w, IZR z * ten x = IZR w * u).
    { exists (z * 10 ^ (x - x' + 1))%Z. rewrite mult_IZR, <- ten_IZR by lia. unfold u. rewrite Rmult_assoc, <- ten_add. do 2 f_equal. lia. }
    destruct Ew as [w Ew]. destruct EW as [W EW].
    assert (Up : real_of s' <= 101 * u). { replace (ten (x' + 1)) with (100 * u) in J2; [nra|]. unfold u. rewrite <- ten_2, <- ten_add. f_equal. lia. }
    assert (Hv : IZR (decimal sm) * ten (es2 - 1) = IZR z * ten x).
    { rewrite Ew, EW. f_equal. f_equal. apply int_gap. apply (Rmult_lt_reg_r u); [exact Pu|]. rewrite <- (Rabs_pos_eq u) at 1 by lra. rewrite <- Rabs_mult, Rmult_minus_distr_r, <- Ew, <- EW, Rmult_1_l.
      apply Rabs_le_inv in Vs. apply Rabs_def1; nra. }
    rewrite Ew in Vs.
    exists 2%Z, s', x', sm, es2. do 5 (split; [assumption|]). split; [lia|]. split; [lia|]. split; [tauto|]. split; [exact Ces|]. split; [lia|]. split; [exact Dg|].
    replace (es2 - 2 + 1)%Z with (es2 - 1)%Z by lia. rewrite Hv.
    assert (D1 : 10 <= IZR (decimal sm) < 100) by (split; [apply IZR_le|apply IZR_lt]; lia). assert (Pe := ten_pos (es2 - 1)).
    destruct (Z_le_gt_dec z 9) as [Z9|Z9].
    + assert (Eq : (es2 = x)%Z).
      { assert (Z9' : IZR z <= 9) by (apply (IZR_le _ 9); lia). apply Z.le_antisymm.
        - enough (es2 < x + 1)%Z by lia. apply ten_lt_inv. rewrite ten_S. replace (ten es2) with (10 * ten (es2 - 1)) by (rewrite <- ten_S; f_equal; lia). nra.
        - enough (x < es2 + 1)%Z by lia. apply ten_lt_inv. replace (ten (es2 + 1)) with (100 * ten (es2 - 1)) by (rewrite <- ten_2, <- ten_add; f_equal; lia). nra. }
      assert (G := changed_choice M e GL errdig i s s' x z F P Hx Fx RT). rewrite I1 in G. specialize (G L L' Lt Z9).
      subst es2. assert (Hh := ten_half x).
      assert (Sx : real_of s <= 11 * ten x) by (rewrite ten_S in J; nra). apply Rabs_le. split; nra.
    + assert (z = 10)%Z by lia. subst z.
      assert (Eq : (es2 - 1 = x)%Z).
      { rewrite <- ten_S in Hv. assert (E3 : (10 <= decimal sm < 100)%Z) by lia.
        assert (A : (es2 < x + 1 + 1)%Z). { apply ten_lt_inv. rewrite !ten_S in *. replace (ten es2) with (10 * ten (es2 - 1)) by (rewrite <- ten_S; f_equal; lia). nra. }
        assert (B : (x + 1 < es2 + 1)%Z). { apply ten_lt_inv. replace (ten (es2 + 1)) with (100 * ten (es2 - 1)) by (rewrite <- ten_2, <- ten_add; f_equal; lia). nra. }
        lia. }
      rewrite Eq. exact Zs.
Qed.
End Lib.
