(** * IoAcc3: number of digits of a double, computed with floats *)

From Coq Require Import List ZArith Bool Reals Ascii String Lra Lia Psatz.
From Flocq Require Import Core BinarySingleNaN Sterbenz.
From Verif Require Import Base Num Ieee SpecIeee IeeeProofs3 IeeeProofs4 IeeeCov Math SpecMathIeee MathAcc7 Io SpecIo IoProofs IoProofs2
  IoIeee SpecIoIeee IoAcc1 IoAcc2.
Import ListNotations.
Local Open Scope R_scope.

(** ** float *)
Notation fexp32 := (FLT_exp (-149) 24).
Definition near32 (r : R) : R := round radix2 fexp32 ZnearestE r.
Lemma near32_le a b : a <= b -> near32 a <= near32 b.
Proof. apply round_le; [apply FLT_exp_valid; reflexivity|apply valid_rnd_N]. Qed.
Lemma near32_format (a : single) : near32 (B2R a) = B2R a.
Proof. apply round_generic; [apply valid_rnd_N|]. apply (generic_format_B2R 24 128 a). Qed.
Lemma near32_IZR z : (Z.abs z <= 2 ^ 20)%Z -> near32 (IZR z) = IZR z.
Proof.
  intro H. apply round_generic; [apply valid_rnd_N|]. apply generic_format_FLT. exists (Float radix2 z 0); [unfold F2R; cbn; ring| |cbn; lia]. cbn [Fnum].
  apply Z.le_lt_trans with (1 := H). reflexivity.
Qed.
Lemma near32_err r : Rabs r < 512 -> Rabs (near32 r - r) <= / 65536.
Proof.
  intro H. destruct (Req_dec r 0) as [->|N]; [unfold near32; rewrite round_0 by apply valid_rnd_N; rewrite Rminus_0_r, Rabs_R0; lra|].
  eapply Rle_trans; [apply error_le_half_ulp; apply FLT_exp_valid; reflexivity|].
  assert (U : ulp radix2 fexp32 r <= bpow radix2 (-15)).
  { rewrite ulp_neq_0 by exact N. apply bpow_le. unfold cexp, FLT_exp. assert (mag radix2 r <= 9)%Z; [|lia]. apply mag_le_bpow; [exact N|exact H]. }
  change (bpow radix2 (-15)) with (/ 32768) in U. lra.
Qed.
Lemma small32 r : Rabs r <= 1000 -> Rlt_bool (Rabs (near32 r)) (bpow radix2 128) = true.
Proof.
  intro H. apply Rlt_bool_true. apply Rle_lt_trans with (bpow radix2 10); [|apply bpow_lt; lia].
  apply abs_round_le_generic; [apply FLT_exp_valid; reflexivity|apply valid_rnd_N| |change (bpow radix2 10) with 1024; lra].
  apply generic_format_bpow. unfold FLT_exp. lia.
Qed.
Lemma f_of_d_correct a : finite a -> Rabs (real_of a) <= 1000 -> is_finite (f_of_d a) = true /\ B2R (f_of_d a) = near32 (real_of a).
Proof.
  intros F H. destruct a as [s|s| |s m x B]; try discriminate.
  - split; [reflexivity|]. cbn. symmetry. apply round_0, valid_rnd_N.
  - cbn [f_of_d]. assert (C := binary_normalize_correct 24 128 prec24 emax128 mode_NE (cond_Zopp s (Z.pos m)) x s). cbv zeta in C.
    change (F2R (Float radix2 (cond_Zopp s (Z.pos m)) x)) with (real_of (B754_finite s m x B)) in C.
    change (round radix2 (SpecFloat.fexp 24 128) (round_mode mode_NE)) with near32 in C. rewrite small32 in C by exact H. destruct C as (C1 & C2 & _). split; [exact C2|exact C1].
Qed.
Lemma fofZ_exact z : (Z.abs z <= 1000)%Z -> is_finite (fofZ z) = true /\ B2R (fofZ z) = IZR z.
Proof.
  intro H. unfold fofZ. assert (C := binary_normalize_correct 24 128 prec24 emax128 mode_NE z 0 false). cbv zeta in C.
  assert (E : F2R (Float radix2 z 0) = IZR z) by (unfold F2R; cbn; ring). rewrite E in C.
  change (round radix2 (SpecFloat.fexp 24 128) (round_mode mode_NE)) with near32 in C.
  rewrite small32 in C by (rewrite <- abs_IZR; now apply IZR_le). destruct C as (C1 & C2 & _). split; [exact C2|]. rewrite C1. apply near32_IZR.
  assert (1000 < 2 ^ 20)%Z by reflexivity. lia.
Qed.
Lemma ffloor_correct a : is_finite a = true -> is_finite (ffloor a) = true /\ B2R (ffloor a) = IZR (Zfloor (B2R a)).
Proof.
  intro F. destruct (Bnearbyint_correct 24 128 _ mode_DN a) as (E & Fi & _). rewrite round_fix0 in E. split; [unfold ffloor; now rewrite Fi|exact E].
Qed.
Lemma fsub_correct a b : is_finite a = true -> is_finite b = true -> Rabs (B2R a - B2R b) <= 1000 -> is_finite (fsub a b) = true /\ B2R (fsub a b) = near32 (B2R a - B2R b).
Proof.
  intros Fa Fb H. assert (C := Bminus_correct 24 128 prec24 emax128 mode_NE a b Fa Fb).
  change (round radix2 (SpecFloat.fexp 24 128) (round_mode mode_NE)) with near32 in C. rewrite small32 in C by exact H. destruct C as (C1 & C2 & _). split; [exact C2|exact C1].
Qed.

(** ** naive_ndigits *)
(** the logarithm, as a float, and what exceeds the integer below it *)
Definition plog (M : cmath DN) (x : double) : R := near32 (real_of (lg M x)).
Definition pfrac (M : cmath DN) (x : double) : R := near32 (plog M x - IZR (Zfloor (plog M x))).

Section Lib.
Variables (M : cmath DN) (e : R).
Hypothesis GL : good_lib M e.
Variable errdig : single.
Variable i : Z.
Hypothesis Fe : is_finite errdig = true.
Hypothesis Ie : Zfloor (B2R errdig) = i.
Hypothesis Ib : (1 <= i <= 3)%Z.
Definition nfrac : R := near32 (B2R errdig - IZR i).

Lemma lg_small x : finite x -> real_of x <> 0 -> Rabs (real_of (lg M x)) <= 325.
Proof.
  intros F N. destruct (lg_spec M e GL x F N) as (_ & _ & B). assert (T := lg_tau M e GL x F N). assert (V := tau_val).
  apply Rabs_le_inv in B, T. apply Rabs_le. lra.
Qed.
Lemma plog_bounds x : finite x -> real_of x <> 0 -> Rabs (plog M x - real_of (lg M x)) <= / 65536.
Proof. intros F N. apply near32_err. assert (H := lg_small x F N). lra. Qed.

Lemma naive_val x : finite x -> real_of x <> 0 -> d_naive_ndigits M x errdig = Ret (i + (if Rltb (pfrac M x) nfrac then 1 else 0))%Z.
Proof.
  intros F N. destruct (lg_spec M e GL x F N) as (Fl & _). assert (S := lg_small x F N).
  destruct (f_of_d_correct (lg M x) Fl ltac:(lra)) as [Ff Ef]. fold (plog M x) in Ef.
  destruct (ffloor_correct errdig Fe) as [Fn En]. rewrite Ie in En.
  destruct (fofZ_exact i ltac:(lia)) as [Fi Ei]. destruct (ffloor_correct _ Ff) as [Fp Ep]. rewrite Ef in Ep.
  assert (K1 := Zfloor_spec (B2R errdig)). rewrite Ie in K1.
  destruct (fsub_correct errdig (fofZ i) Fe Fi) as [Fa Ea]; [rewrite Ei; apply Rabs_le; lra|]. rewrite Ei in Ea. fold nfrac in Ea.
  assert (K2 := Zfloor_spec (plog M x)).
  destruct (fsub_correct (f_of_d (lg M x)) (ffloor (f_of_d (lg M x))) Ff Fp) as [Fb Eb]; [rewrite Ef, Ep; apply Rabs_le; lra|]. rewrite Ef, Ep in Eb. fold (pfrac M x) in Eb.
  unfold d_naive_ndigits. rewrite (to_int_ok 24 128 _ _ i Fn En) by lia. cbn [bind]. change (c_log10 M (dabs x)) with (lg M x).
  rewrite Bltb_correct by assumption. change 24%Z with 24%Z in *. rewrite Ea, Eb. do 2 f_equal. unfold Rlt_bool. destruct (Rcompare_spec (pfrac M x) nfrac) as [H|H|H]; destruct (Rltb_spec (pfrac M x) nfrac); try lra; reflexivity.
Qed.
Lemma pfrac_range x : 0 <= pfrac M x.
Proof. unfold pfrac. assert (K := Zfloor_spec (plog M x)). assert (Q := near32_le 0 (plog M x - IZR (Zfloor (plog M x))) ltac:(lra)). rewrite (near32_IZR 0) in Q by (cbn; lia). exact Q. Qed.
End Lib.
