(** * IoAcc5: the choice of the number of digits *)

From Coq Require Import List ZArith Bool Reals Ascii String Lra Lia Psatz.
From Flocq Require Import Core BinarySingleNaN Sterbenz.
From Verif Require Import Base Num Ieee SpecIeee IeeeProofs3 IeeeProofs4 IeeeCov Math SpecMathIeee MathAcc7 Io SpecIo IoProofs IoProofs2
  IoIeee SpecIoIeee IoAcc1 IoAcc2 IoAcc3 IoAcc4.
Import ListNotations.
Local Open Scope R_scope.

Section Lib.
Variables (M : cmath DN) (e : R).
Hypothesis GL : good_lib M e.
Variable errdig : single.
Variable i : Z.
Hypothesis Fe : is_finite errdig = true.
Hypothesis Ie : Zfloor (B2R errdig) = i.
Hypothesis Ib : (1 <= i <= 3)%Z.
Notation nfr := (nfrac errdig i).

(** [r] is [s] rounded to [n] digits, times 10^(n - 1). *)
Definition rounds_to (s : double) (n x z : Z) (r : double) : Prop :=
  finite r /\ Rabs (IZR z - real_of s * ten (n - 1 - x)) <= / 2 + 4 * e * (real_of s * ten (n - 1 - x)) /\ (10 ^ (n - 1) <= z <= 10 ^ n)%Z /\
  Rabs (real_of r - IZR z * ten x) <= 3 * e * (IZR z * ten x).

Lemma d_ndigits_cases s : finite s -> ten (-300) <= real_of s <= ten 300 ->
  exists n s' x, d_ndigits M s errdig = Ret (n, s') /\ d_exponent M s = Ret x /\ x = Zfloor (real_of (lg M s)) /\ (-301 <= x <= 300)%Z /\
    ten x * (1 - margin) <= real_of s <= ten (x + 1) * (1 + margin) /\ finite s' /\ real_of s <= real_of s' /\
    ((s' = s /\ n = (i + 1)%Z /\ pfrac M s < nfr) \/
     (s' = s /\ n = i /\ nfr <= pfrac M s /\ exists z r, rounds_to s i x z r /\ (real_of r <= real_of s \/ nfr <= pfrac M r)) \/
     (n = (i + 1)%Z /\ nfr <= pfrac M s /\ pfrac M s' < nfr /\ real_of s < real_of s' /\ exists z, rounds_to s i x z s')).
Proof.
  intros F S. assert (P : 0 < real_of s) by (assert (Q := ten_pos (-300)); lra). assert (N : real_of s <> 0) by (apply Rgt_not_eq; lra).
  destruct (judge M e GL s F N) as (x & Ex & Fx & _ & J). assert (J' := J). rewrite Rabs_pos_eq in J' by lra.
  assert (X1 : (x <= 300)%Z) by (apply (ten_gt_inv (real_of s)); lra). assert (X2 : (-300 <= x + 1)%Z) by (apply (ten_lt_inv2 (real_of s)); lra).
  unfold d_ndigits. rewrite (naive_val M e GL errdig i Fe Ie Ib s F N). cbn [bind]. rewrite Ex. cbn [bind].
  destruct (Rltb_spec (pfrac M s) nfr) as [L|L].
  - destruct (rounded_value M e GL s (i + 1) x F P ltac:(lia) ltac:(lia) J) as (z & Fr & _ & Zb & Vr). cbv zeta in Fr, Vr.
    set (r := dmul (d_int_mantissa M s (i + 1) x) (dpow10 M x)) in *. exists (i + 1)%Z, s, x.
    split; [|split; [reflexivity|]; split; [exact Fx|]; split; [lia|]; split; [exact J'|]; split; [exact F|]; split; [lra|]; left; auto].
    rewrite Bltb_correct by assumption. case Rlt_bool_spec; intro H; [|reflexivity].
    fold (real_of s) in H. fold (real_of r) in H. rewrite (naive_val M e GL errdig i Fe Ie Ib r Fr) by (apply Rgt_not_eq; lra). cbn [bind].
    destruct (Rltb (pfrac M r) nfr); [now rewrite Z.ltb_irrefl|]. now replace (i + 1 <? i + 0)%Z with false by lia.
  - rewrite Z.add_0_r. destruct (rounded_value M e GL s i x F P ltac:(lia) ltac:(lia) J) as (z & Fr & Zc & Zb & Vr). cbv zeta in Fr, Vr.
    set (r := dmul (d_int_mantissa M s i x) (dpow10 M x)) in *. assert (RT : rounds_to s i x z r) by (split; auto).
    assert (Stay : real_of r <= real_of s \/ nfr <= pfrac M r -> exists s' n x0, Ret (i, s) = Ret (n, s') /\ Ret x = Ret x0 /\ x0 = Zfloor (real_of (lg M s)) /\ (-301 <= x0 <= 300)%Z /\
      ten x0 * (1 - margin) <= real_of s <= ten (x0 + 1) * (1 + margin) /\ finite s' /\ real_of s <= real_of s' /\ s' = s /\ n = i /\ nfr <= pfrac M s /\
      exists z r, rounds_to s i x0 z r /\ (real_of r <= real_of s \/ nfr <= pfrac M r)).
    { intro C. exists s, i, x. split; [reflexivity|]. split; [reflexivity|]. split; [exact Fx|]. split; [lia|]. split; [exact J'|]. split; [exact F|]. split; [lra|].
      split; [reflexivity|]. split; [reflexivity|]. split; [lra|]. exists z, r. auto. }
    rewrite Bltb_correct by assumption. fold (real_of s) (real_of r). case Rlt_bool_spec; intro H.
    + rewrite (naive_val M e GL errdig i Fe Ie Ib r Fr) by (apply Rgt_not_eq; lra). cbn [bind].
      destruct (Rltb_spec (pfrac M r) nfr) as [L'|L'].
      * replace (i <? i + 1)%Z with true by lia. exists (i + 1)%Z, r, x. split; [reflexivity|]. split; [reflexivity|]. split; [exact Fx|]. split; [lia|]. split; [exact J'|]. split; [exact Fr|].
        split; [lra|]. right. right. split; [reflexivity|]. split; [lra|]. split; [exact L'|]. split; [exact H|]. exists z. exact RT.
      * rewrite Z.add_0_r, Z.ltb_irrefl. destruct Stay as (s' & n & x0 & A & B & C & D & E & G & K & R); [right; lra|]. exists n, s', x0. do 7 (split; [assumption|]). right. left. exact R.
    + destruct Stay as (s' & n & x0 & A & B & C & D & E & G & K & R); [left; exact H|]. exists n, s', x0. do 7 (split; [assumption|]). right. left. exact R.
Qed.

(** With an integer number of digits the fractional part plays no role. *)
Lemma nfrac_integer : B2R errdig = IZR i -> nfr = 0.
Proof. intro H. unfold nfrac. rewrite H, Rminus_eq_0. apply round_0, valid_rnd_N. Qed.

(** ** When rounding changes the choice *)
Lemma plog_mono a b : real_of (lg M a) <= real_of (lg M b) -> plog M a <= plog M b.
Proof. apply near32_le. Qed.
Lemma lg_mono a b : finite a -> finite b -> 0 < real_of a -> real_of a * (1 + 3 * margin) <= real_of b -> real_of (lg M a) <= real_of (lg M b).
Proof.
  intros Fa Fb Pa H. assert (V := margin_val). assert (Pb : 0 < real_of b) by nra. apply Rnot_lt_le. intro Q.
  assert (A := lg_tau M e GL a Fa ltac:(apply Rgt_not_eq; lra)). assert (B := lg_tau M e GL b Fb ltac:(apply Rgt_not_eq; lra)).
  rewrite (Rabs_pos_eq (real_of a)) in A by lra. rewrite (Rabs_pos_eq (real_of b)) in B by lra. apply Rabs_le_inv in A, B.
  assert (L : log10 (real_of b) <= log10 (real_of a) + (tau + tau)) by lra.
  assert (X : real_of b <= real_of a * (Rpower 10 tau * Rpower 10 tau)).
  { rewrite <- (Rpower_log10 _ Pb), <- (Rpower_log10 _ Pa) at 1. rewrite <- !Rpower_plus. apply Rle_Rpower; [lra|exact L]. }
  destruct tau_margin as [T1 _]. assert (T0 : 0 < Rpower 10 tau) by apply exp_pos.
  assert (Rpower 10 tau * Rpower 10 tau <= (1 + margin) * (1 + margin)) by (apply Rmult_le_compat; lra). nra.
Qed.
(** a number below 9.5 * 10^x has the float of its logarithm below x + 1 *)
Lemma plog_below a x : finite a -> 0 < real_of a -> (-310 <= x <= 310)%Z -> real_of a <= 995 / 100 * ten x -> plog M a < IZR x + 1.
Proof.
  intros F P Hx H. assert (Nz : real_of a <> 0) by (apply Rgt_not_eq; lra).
  assert (A := lg_tau M e GL a F Nz). assert (B := plog_bounds M e GL a F Nz). rewrite (Rabs_pos_eq (real_of a)) in A by lra. apply Rabs_le_inv in A, B. assert (V := tau_val).
  assert (L : log10 (real_of a) <= IZR x + 999 / 1000).
  { rewrite <- (log10_Rpower (IZR x + 999 / 1000)). unfold log10. assert (L10 := ln10_bounds). apply Rmult_le_compat_r; [left; apply Rinv_0_lt_compat; lra|]. apply ln_le; [exact P|].
    apply Rle_trans with (1 := H). replace (IZR x + 999 / 1000) with (IZR x + 1 + - (1 / 1000)) by lra. rewrite !Rpower_plus, <- ten_Rpower. rewrite Rpower_1 by lra.
    assert (E : 1 - 24 / 10000 <= Rpower 10 (- (1 / 1000))). { unfold Rpower. assert (G := exp_ge (- (1 / 1000) * ln 10)). lra. }
    assert (Px := ten_pos x). nra. }
  lra.
Qed.
Lemma plog_above a x : finite a -> real_of a <> 0 -> (-400 <= x <= 400)%Z -> IZR x <= real_of (lg M a) -> IZR x <= plog M a.
Proof.
  intros F N Hx H. unfold plog. rewrite <- (near32_IZR x) by (assert (400 < 2 ^ 20)%Z by reflexivity; lia). now apply near32_le.
Qed.
Lemma Zfloor_between r k : IZR k <= r < IZR k + 1 -> Zfloor r = k.
Proof. intro H. apply Zfloor_imp. rewrite plus_IZR. exact H. Qed.

(** the choice can only change if rounding gives ten, or hardly changes the number *)
Lemma changed_choice s s' x z : finite s -> 0 < real_of s -> (-301 <= x <= 300)%Z -> x = Zfloor (real_of (lg M s)) -> rounds_to s 1 x z s' -> nfr <= pfrac M s -> pfrac M s' < nfr ->
  real_of s < real_of s' -> (z <= 9)%Z -> real_of s' < real_of s * (1 + 3 * margin).
Proof.
  intros F P Hx Ex (Fr & Zc & Zb & Vr) L L' Lt Z9. destruct (Rlt_le_dec (real_of s') (real_of s * (1 + 3 * margin))) as [|G]; [assumption|exfalso].
  assert (N : real_of s <> 0) by (apply Rgt_not_eq; lra). assert (N' : real_of s' <> 0) by (apply Rgt_not_eq; lra).
  assert (Mo := plog_mono s s' (lg_mono s s' F Fr P G)).
  assert (K := Zfloor_spec (real_of (lg M s))). rewrite <- Ex in K. assert (A := plog_above s x F N ltac:(lia) ltac:(lra)).
  destruct (e_rng M e GL) as [[E1 E2] _].
  assert (B := plog_below s' x Fr ltac:(lra) ltac:(lia)). 
  assert (Bb : real_of s' <= 995 / 100 * ten x).
  { apply Rabs_le_inv in Vr. assert (Px := ten_pos x). assert (IZR z <= 9) by (apply (IZR_le _ 9); lia). assert (1 <= IZR z) by (apply (IZR_le 1); lia). assert (IZR z * ten x <= 9 * ten x) by nra. nra. }
  specialize (B Bb). assert (Q1 := Zfloor_between (plog M s) x ltac:(lra)). assert (Q2 := Zfloor_between (plog M s') x ltac:(lra)).
  assert (W : pfrac M s <= pfrac M s'). { unfold pfrac. rewrite Q1, Q2. apply near32_le. lra. } lra.
Qed.
End Lib.
