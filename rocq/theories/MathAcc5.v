(** * MathAcc5: a correctly rounded library; statements of C65 *)

From Coq Require Import List ZArith Reals Bool Lra Lia Psatz.
From Coquelicot Require Import Coquelicot.
From Flocq Require Import Core BinarySingleNaN.
From Verif Require Import Base Num Map UReal World SpecObs Ieee IeeeFacts SpecIeee IeeeProofs IeeeProofs3 IeeeProofs4 IeeeProofs5
  IeeeCov Nan Math SpecMathIeee IeeeRel MathAcc MathAcc2 MathAcc3 MathAcc4 Derivs.
Import ListNotations.
Local Open Scope R_scope.

(** ** The double nearest to a real number *)
Definition R2B (r : R) : double :=
  binary_normalize 53 1024 prec53 emax1024 mode_NE (ZnearestE (scaled_mantissa radix2 (FLT_exp (-1074) 53) r)) (cexp radix2 (FLT_exp (-1074) 53) r) false.
Lemma R2B_correct r : no_overflow r -> finite (R2B r) /\ real_of (R2B r) = nearest r.
Proof.
  intro H. assert (C := binary_normalize_correct 53 1024 prec53 emax1024 mode_NE (ZnearestE (scaled_mantissa radix2 (FLT_exp (-1074) 53) r)) (cexp radix2 (FLT_exp (-1074) 53) r) false).
  cbn zeta in C. change (SpecFloat.fexp 53 1024) with (FLT_exp (-1074) 53) in C. change (round_mode mode_NE) with ZnearestE in C.
  change (F2R _) with (nearest r) in C.
  assert (G : round radix2 (FLT_exp (-1074) 53) ZnearestE (nearest r) = nearest r).
  { apply round_generic; [apply valid_rnd_N|]. apply generic_format_round; [apply FLT_exp_valid; reflexivity|apply valid_rnd_N]. }
  rewrite G in C. rewrite Rlt_bool_true in C by exact H. destruct C as (E & F & _). split; [exact F|exact E].
Qed.
Lemma R2B_close r : regular r -> close ur (R2B r) r.
Proof.
  intros [->|[Lo Hi]].
  - assert (Z : nearest 0 = 0) by (apply round_0, valid_rnd_N). destruct (R2B_correct 0) as [F E]; [unfold no_overflow; rewrite Z, Rabs_R0; apply pow2_pos|].
    split; [exact F|]. rewrite E, Z, Rminus_eq_0, Rabs_R0. lra.
  - destruct (R2B_correct r) as [F E]; [apply fits; eapply Rle_trans; [exact Hi|apply pow2_le; lia]|]. split; [exact F|]. rewrite E. apply rel_err.
    eapply Rle_trans; [|exact Lo]. apply pow2_le. lia.
Qed.
Lemma R2B_exact r : (exists a : double, finite a /\ real_of a = r) -> finite (R2B r) /\ real_of (R2B r) = r.
Proof.
  intros (a & Fa & <-). assert (G : nearest (real_of a) = real_of a) by (apply round_generic; [apply valid_rnd_N|apply (generic_format_B2R 53 1024)]).
  rewrite <- G at 3. apply R2B_correct. unfold no_overflow. rewrite G. apply (abs_B2R_lt_emax 53 1024).
Qed.
Definition lift1 (F : R -> R) (a : double) : double := R2B (F (real_of a)).
Definition lift2 (F : R -> R -> R) (a b : double) : double := R2B (F (real_of a) (real_of b)).
(** every function correctly rounded *)
Definition rounded_cmath : cmath DN := mkCmath DN
  (lift1 (fun x => IZR (Ztrunc x))) (lift1 (fun x => IZR (ZnearestA x))) (lift1 exp) (lift1 (fun x => Rpower 2 x)) (lift1 (fun x => exp x - 1))
  (lift1 ln) (lift1 (fun x => ln x / ln 10)) (lift1 (fun x => ln x / ln 2)) (lift1 (fun x => ln (1 + x))) (lift1 R_cbrt)
  (lift1 sin) (lift1 cos) (lift1 tan) (lift1 asin) (lift1 acos)
  (lift1 atan) (lift1 sinh) (lift1 cosh) (lift1 tanh) (lift1 R_asinh)
  (lift1 R_acosh) (lift1 R_atanh) (lift1 R_erf) (lift1 (fun x => 1 - R_erf x))
  (lift2 R_fmod) (lift2 R_remainder) (lift2 Rmax) (lift2 Rmin) (lift2 Rpower)
  (lift2 (fun x y => sqrt (x * x + y * y))) (lift2 R_atan2).
Lemma rounded_accurate : accurate rounded_cmath uround.
Proof.
  split; try (intros a b _ _ _ H; exact (R2B_close _ H)); try (intros a _ _ H; exact (R2B_close _ H)).
  - intros a b Fa Fb. apply (R2B_exact (Rmax (real_of a) (real_of b))). unfold Rmax. destruct (Rle_dec _ _); [exists b|exists a]; auto.
  - intros a b Fa Fb. apply (R2B_exact (Rmin (real_of a) (real_of b))). unfold Rmin. destruct (Rle_dec _ _); [exists a|exists b]; auto.
  -
  change (close ur (R2B (R_atan2 (real_of (dofZ 0)) (real_of (dofZ (-1))))) PI).
  rewrite (real_lit 0 eq_refl), (real_lit (-1) eq_refl).
  replace (R_atan2 0 (-1)) with PI; [apply R2B_close; apply (rng_regular _ _ _) with (3 := pi_rng); lia|].
  unfold R_atan2. destruct (Rlt_dec 0 (-1)); [lra|]. destruct (Rlt_dec (-1) 0); [|lra]. destruct (Rlt_dec 0 0); [lra|].
  unfold Rdiv. rewrite Rmult_0_l, atan_0. ring.
Qed.

(** ** Statements *)
Lemma C65_functions_proof :
  accurate1 (fun _ => g_abs) (fun _ a => a <> 0) Rabs (fun _ => 0) /\
  accurate1 g_exp (fun _ _ => True) exp (fun _ => 3) /\
  accurate1 g_exp2 (fun _ a => -1000 <= a <= 1000) (fun x => Rpower 2 x) (fun _ => 5) /\
  accurate1 g_expm1 (fun _ a => Rabs a <= 500) (fun x => exp x - 1) (fun _ => 3) /\
  accurate1 g_log (fun _ a => pow2 (-1000) <= a <= pow2 1000) ln (fun _ => 3) /\
  accurate1 g_log10 (fun _ a => pow2 (-1000) <= a <= pow2 1000) (fun x => ln x / ln 10) (fun _ => 5) /\
  accurate1 g_log2 (fun _ a => pow2 (-1000) <= a <= pow2 1000) (fun x => ln x / ln 2) (fun _ => 5) /\
  accurate1 g_log1p (fun _ a => pow2 (-1000) <= 1 + a <= pow2 1000) (fun x => ln (1 + x)) (fun _ => 4) /\
  accurate1 (fun _ => g_sqrt) (fun _ a => pow2 (-1000) <= a <= pow2 1000) sqrt (fun _ => 5) /\
  accurate1 g_sin (fun _ a => regular (cos a)) sin (fun _ => 3) /\
  accurate1 g_cos (fun _ a => regular (sin a)) cos (fun _ => 3) /\
  accurate1 g_tan (fun _ a => cos a <> 0 /\ Rabs (tan a) <= pow2 500) tan (fun _ => 7) /\
  accurate1 g_atan (fun _ a => Rabs a <= pow2 500) atan (fun _ => 6) /\
  accurate1 g_sinh (fun _ a => Rabs a <= 500) sinh (fun _ => 3) /\
  accurate1 g_cosh (fun _ a => regular (sinh a)) cosh (fun _ => 3) /\
  accurate1 g_asinh (fun _ a => Rabs a <= pow2 500) R_asinh (fun _ => 7) /\
  accurate1 g_erf (fun _ a => Rabs a <= 22) R_erf (fun a => 16 + 3 * (a * a)) /\
  accurate1 g_erfc (fun _ a => Rabs a <= 22) (fun x => 1 - R_erf x) (fun a => 16 + 3 * (a * a)).
Proof.
  exact (conj A_abs (conj A_exp (conj A_exp2 (conj A_expm1 (conj A_log (conj A_log10 (conj A_log2 (conj A_log1p (conj A_sqrt (conj A_sin (conj A_cos (conj A_tan
    (conj A_atan (conj A_sinh (conj A_cosh (conj A_asinh (conj A_erf A_erfc))))))))))))))))).
Qed.
Lemma C65_cancelling_partial_proof :
  accurate1 g_asin (fun e a => 100 * e <= 1 - a * a) asin (fun a => 18 / (1 - a * a)) /\
  accurate1 g_acos (fun e a => 100 * e <= 1 - a * a) acos (fun a => 18 / (1 - a * a)) /\
  accurate1 g_atanh (fun e a => 100 * e <= 1 - a * a) R_atanh (fun a => 15 / (1 - a * a)) /\
  accurate1 g_tanh (fun e a => 100 * e <= 1 - tanh a * tanh a) tanh (fun a => 10 / (1 - tanh a * tanh a)) /\
  accurate1 g_acosh (fun e a => 1 < a <= pow2 500 /\ 100 * e * (a * a) <= a * a - 1) R_acosh (fun a => 14 * (a * a) / (a * a - 1)) /\
  accurate1 g_cbrt (fun _ a => pow2 (-1000) <= a <= pow2 1000) R_cbrt (fun a => 10 + 4 * Rabs (ln a)).
Proof. exact (conj A_asin (conj A_acos (conj A_atanh (conj A_tanh (conj A_acosh A_cbrt))))). Qed.

(** ** No uniform bound for the functions with cancellation *)
Definition one_var (a : double) : list (call DN) := [CNew 0%nat (a : DN) (dofZ 1 : DN)].
Lemma one_var_run a : run w_init (one_var a) = Ret (after (one_var a)).
Proof. reflexivity. Qed.
Lemma one_var_legal a : dlegal (one_var a).
Proof. apply dlegal_small; [repeat constructor|cbn; lia]. Qed.
Lemma f2_one {A B} (P : A -> B -> Prop) a b : List.Forall2 P [a] [b] -> P a b.
Proof. intro H. now inversion H. Qed.
Lemma refute1 (m : cmath DN -> ureal DN -> ureal DN) (dom : R -> R -> Prop) (F K : R -> R) (mu d' : double) (a : double) (r d : R) :
  accurate1 m dom F K -> (forall x : ureal DN, u_n x = a -> m rounded_cmath x = u_unary x mu d') -> finite a -> real_of a = r -> dom uround r -> regular (F r) ->
  is_derive F r d -> regular d -> Rabs (real_of (dmul (dofZ 1) d') - d) <= K r * ur * Rabs d.
Proof.
  intros H Em Fa <- D Rg Df Rd. set (w := after (one_var a)).
  assert (Un : u_n (w_var w 0%nat) = a) by reflexivity.
  destruct (H rounded_cmath uround ltac:(split; [apply Rle_refl|apply pow2_le; lia]) rounded_accurate (one_var a) w (one_var_legal a) ltac:(repeat constructor) (one_var_run a) 0%nat) as (_ & d1 & D1 & C & _).
  - rewrite Un. exact Fa.
  - rewrite Un. exact D.
  - rewrite Un. exact Rg.
  - rewrite Un in D1, C. rewrite (Em _ Un), coefs_unary in C.
    replace (coefs (w_var w 0%nat)) with [dofZ 1] in C by reflexivity. cbn [map] in C.
    assert (d1 = d) by (rewrite <- (is_derive_unique _ _ _ D1); now apply is_derive_unique). subst d1.
    assert (C1 := f2_one _ _ _ C). cbn beta in C1. rewrite (real_lit 1 eq_refl), Rmult_1_r in C1. destruct (C1 eq_refl Rd) as [_ B]. exact B.
Qed.
Definition a_low : double := dsub (dofZ 1) (half 1 27).
Definition a_high : double := dadd (dofZ 1) (half 1 27).
Lemma a_low_real : real_of a_low = 1 - / 134217728. Proof. realval. lra. Qed.
Lemma a_high_real : real_of a_high = 1 + / 134217728. Proof. realval. lra. Qed.
(** the derivative passed by the five functions, at these points *)
Lemma d_low1 : real_of (dmul (dofZ 1) (ddiv (dofZ 1) (dsub (dofZ 1) (dmul a_low a_low)))) = 67108864.
Proof. realval. lra. Qed.
Lemma d_low2 : real_of (dmul (dofZ 1) (ddiv (dofZ 1) (dsqrt (dsub (dofZ 1) (dmul a_low a_low))))) = 8192.
Proof. realval. lra. Qed.
Lemma d_low3 : real_of (dmul (dofZ 1) (ddiv (dopp (dofZ 1)) (dsqrt (dsub (dofZ 1) (dmul a_low a_low))))) = - 8192.
Proof. realval. lra. Qed.
Lemma d_high : real_of (dmul (dofZ 1) (ddiv (dofZ 1) (dsqrt (dsub (dmul a_high a_high) (dofZ 1))))) = 8192.
Proof. realval. lra. Qed.
Lemma ur_val : ur = / 9007199254740992. Proof. reflexivity. Qed.
Lemma small_K22 K : K <= 4194304 -> K * ur <= / 2147483648.
Proof. intro H. rewrite ur_val. lra. Qed.
Lemma reg_mid r : / 134217728 <= r <= 134217728 -> regular r.
Proof.
  intro H. right. rewrite Rabs_pos_eq by lra. split.
  - apply Rle_trans with (pow2 (-27)); [apply pow2_le; lia|]. change (pow2 (-27)) with (/ 134217728). lra.
  - apply Rle_trans with (pow2 27); [|apply pow2_le; lia]. change (pow2 27) with 134217728. lra.
Qed.
Lemma reg_opp r : regular r -> regular (- r).
Proof. intros [->|H]; [left; ring|right]. now rewrite Rabs_Ropp. Qed.
Lemma inv_sqrt_bounds q lo hi : 0 < lo -> 0 < hi -> 0 < q -> 1 <= hi * hi * q -> lo * lo * q <= 1 -> lo <= / sqrt q <= hi.
Proof.
  intros L H Q A0 B0.
  assert (A : / (hi * hi) <= q) by (assert (N : 0 < hi * hi) by nra; apply Rmult_le_reg_l with (hi * hi); [exact N|]; rewrite Rinv_r by lra; exact A0).
  assert (B : q <= / (lo * lo)) by (assert (N : 0 < lo * lo) by nra; apply Rmult_le_reg_l with (lo * lo); [exact N|]; rewrite Rinv_r by lra; exact B0).
  assert (S := sqrt_lt_R0 q Q). split.
  - rewrite <- (Rinv_involutive lo) by lra. apply Rinv_le_contravar; [exact S|]. rewrite <- (sqrt_square (/ lo)) by (left; now apply Rinv_0_lt_compat).
    apply sqrt_le_1_alt. rewrite <- Rinv_mult_distr by lra. exact B.
  - rewrite <- (Rinv_involutive hi) by lra. apply Rinv_le_contravar; [now apply Rinv_0_lt_compat|]. rewrite <- (sqrt_square (/ hi)) by (left; now apply Rinv_0_lt_compat).
    apply sqrt_le_1_alt. rewrite <- Rinv_mult_distr by lra. exact A.
Qed.
Lemma ln_bounds y lo hi : pow2 lo <= y <= pow2 hi -> IZR lo * ln 2 <= ln y <= IZR hi * ln 2.
Proof.
  intros [A B]. assert (P := pow2_pos lo). rewrite <- !ln_bpow. split; apply ln_le; lra.
Qed.
Lemma no_atanh K : K <= 4194304 -> ~ accurate1 g_atanh (fun _ a => -1 < a < 1) R_atanh (fun _ => K).
Proof.
  intros HK H. set (r := 1 - / 134217728). assert (Dm : -1 < r < 1) by (unfold r; lra).
  assert (Lr : / 134217728 <= R_atanh r <= 134217728).
  { unfold R_atanh. assert (Y : (1 + r) / (1 - r) = 268435455) by (unfold r; field). rewrite Y.
    assert (L := ln_bounds 268435455 27 28 ltac:(change (pow2 27) with 134217728; change (pow2 28) with 268435456; lra)).
    destruct ln2_rng as [A B]. change (pow2 (-1)) with (/ 2) in A. change (pow2 0) with 1 in B. lra. }
  assert (B := refute1 _ _ _ _ (c_atanh rounded_cmath a_low) (ddiv (dofZ 1) (dsub (dofZ 1) (dmul a_low a_low))) a_low r _ H
    ltac:(intros x <-; reflexivity) eq_refl a_low_real Dm (reg_mid _ Lr) (proj1 (proj2 D_atanh) r Dm)
    ltac:(apply reg_mid; unfold r; lra)).
  rewrite d_low1 in B. assert (S := small_K22 K HK). set (q := 1 - r * r) in *.
  assert (Q : q = / 67108864 - / 18014398509481984) by (unfold q, r; lra).
  assert (Iq : 0 < / q) by (apply Rinv_0_lt_compat; lra). assert (Eq : q * / q = 1) by (apply Rinv_r; lra).
  rewrite (Rabs_pos_eq (/ q)) in B by lra. assert (B' := Rabs_le_inv _ _ B). set (i := / q) in *. rewrite Q in Eq.
  assert (K * ur * i <= / 2147483648 * i) by (apply Rmult_le_compat_r; lra). lra.
Qed.
Lemma asin_mid r : / 2 <= r < 1 -> / 2 <= asin r <= 2.
Proof.
  intro H. assert (S := sin_asin r ltac:(lra)). assert (B := asin_bound r). assert (P := PI_4). split; [|lra].
  destruct (Rle_dec (asin r) 0) as [N|N].
  - assert (X : sin (- asin r) >= 0) by (apply Rle_ge, sin_ge_0; lra). rewrite sin_neg in X. lra.
  - apply Rnot_le_lt in N. assert (X := sin_lt_x _ N). lra.
Qed.
Lemma no_asin K : K <= 4194304 -> ~ accurate1 g_asin (fun _ a => -1 < a < 1) asin (fun _ => K).
Proof.
  intros HK H. set (r := 1 - / 134217728). assert (Dm : -1 < r < 1) by (unfold r; lra).
  assert (Lr := asin_mid r ltac:(unfold r; lra)).
  set (q := 1 - r * r). assert (Q : q = / 67108864 - / 18014398509481984) by (unfold q, r; lra).
  assert (Ib := inv_sqrt_bounds q 8000 9000 ltac:(lra) ltac:(lra) ltac:(lra) ltac:(lra) ltac:(lra)).
  assert (B := refute1 _ _ _ _ (c_asin rounded_cmath a_low) (ddiv (dofZ 1) (dsqrt (dsub (dofZ 1) (dmul a_low a_low)))) a_low r (/ sqrt q) H
    ltac:(intros x <-; reflexivity) eq_refl a_low_real Dm ltac:(apply reg_mid; lra) (proj1 (proj2 D_asin) r Dm) ltac:(apply reg_mid; lra)).
  rewrite d_low2 in B. assert (S := small_K22 K HK).
  assert (E2 : / sqrt q * / sqrt q * q = 1). { rewrite <- (sqrt_sqrt q) at 3 by lra. field. apply Rgt_not_eq, sqrt_lt_R0. lra. }
  set (i := / sqrt q) in *. rewrite (Rabs_pos_eq i) in B by lra. assert (B' := Rabs_le_inv _ _ B).
  assert (K * ur * i <= / 2147483648 * i) by (apply Rmult_le_compat_r; lra).
  assert (X : (1 - / 2147483648) * i <= 8192) by lra. assert (X2 : (1 - / 2147483648) * i * ((1 - / 2147483648) * i) <= 8192 * 8192) by (apply Rmult_le_compat; lra).
  rewrite Q in E2. nra.
Qed.
Lemma no_acos K : K <= 4194304 -> ~ accurate1 g_acos (fun _ a => -1 < a < 1) acos (fun _ => K).
Proof.
  intros HK H. set (r := 1 - / 134217728). assert (Dm : -1 < r < 1) by (unfold r; lra).
  set (q := 1 - r * r). assert (Q : q = / 67108864 - / 18014398509481984) by (unfold q, r; lra).
  assert (Ib := inv_sqrt_bounds q 8000 9000 ltac:(lra) ltac:(lra) ltac:(lra) ltac:(lra) ltac:(lra)).
  assert (Lr : / 134217728 <= acos r <= 4).
  { assert (Bc := acos_bound r). assert (P4 := PI_4). split; [|lra]. assert (Sc := sin_acos r ltac:(lra)).
    assert (Sq : / 9000 <= sqrt (1 - Rsqr r)). { unfold Rsqr. fold q. destruct Ib as [_ Ib]. rewrite <- (Rinv_involutive (sqrt q)) by (apply Rgt_not_eq, sqrt_lt_R0; lra).
      apply Rinv_le_contravar; [apply Rinv_0_lt_compat, sqrt_lt_R0; lra|exact Ib]. }
    destruct (Req_dec (acos r) 0) as [Z|Z]; [rewrite Z, sin_0 in Sc; lra|]. assert (X := sin_lt_x (acos r) ltac:(lra)). lra. }
  assert (B := refute1 _ _ _ _ (c_acos rounded_cmath a_low) (ddiv (dopp (dofZ 1)) (dsqrt (dsub (dofZ 1) (dmul a_low a_low)))) a_low r (- / sqrt q) H
    ltac:(intros x <-; reflexivity) eq_refl a_low_real Dm ltac:(apply reg_mid; lra) (proj1 (proj2 D_acos) r Dm) ltac:(apply reg_opp, reg_mid; lra)).
  rewrite d_low3 in B. assert (S := small_K22 K HK).
  assert (E2 : / sqrt q * / sqrt q * q = 1). { rewrite <- (sqrt_sqrt q) at 3 by lra. field. apply Rgt_not_eq, sqrt_lt_R0. lra. }
  set (i := / sqrt q) in *. rewrite Rabs_Ropp, (Rabs_pos_eq i) in B by lra. assert (B' := Rabs_le_inv _ _ B).
  assert (K * ur * i <= / 2147483648 * i) by (apply Rmult_le_compat_r; lra).
  assert (X : (1 - / 2147483648) * i <= 8192) by lra. assert (X2 : (1 - / 2147483648) * i * ((1 - / 2147483648) * i) <= 8192 * 8192) by (apply Rmult_le_compat; lra).
  rewrite Q in E2. nra.
Qed.
Lemma no_acosh K : K <= 4194304 -> ~ accurate1 g_acosh (fun _ a => 1 < a) R_acosh (fun _ => K).
Proof.
  intros HK H. set (r := 1 + / 134217728). assert (Dm : 1 < r) by (unfold r; lra).
  set (q := r * r - 1). assert (Q : q = / 67108864 + / 18014398509481984) by (unfold q, r; lra).
  assert (Ib := inv_sqrt_bounds q 8000 9000 ltac:(lra) ltac:(lra) ltac:(lra) ltac:(lra) ltac:(lra)).
  assert (Sb : / 9000 <= sqrt q <= / 8000).
  { assert (Sp : 0 < sqrt q) by (apply sqrt_lt_R0; lra). rewrite <- (Rinv_involutive (sqrt q)) by lra. split; apply Rinv_le_contravar; lra. }
  assert (Lr : / 134217728 <= R_acosh r <= 134217728).
  { unfold R_acosh. fold q. set (y := r + sqrt q). assert (Y : 1 + / 9000 <= y <= 2) by (unfold y, r; lra). split.
    - assert (X := exp_ineq1_le (- ln y)). rewrite exp_Ropp, exp_ln in X by lra.
      assert (/ y <= / (1 + / 9000)) by (apply Rinv_le_contravar; lra). lra.
    - destruct ln2_rng as [_ A2]. change (pow2 0) with 1 in A2. assert (ln y <= ln 2) by (apply ln_le; lra). lra. }
  assert (B := refute1 _ _ _ _ (c_acosh rounded_cmath a_high) (ddiv (dofZ 1) (dsqrt (dsub (dmul a_high a_high) (dofZ 1)))) a_high r (/ sqrt q) H
    ltac:(intros x <-; reflexivity) eq_refl a_high_real Dm ltac:(apply reg_mid; lra) (proj1 (proj2 D_acosh) r Dm) ltac:(apply reg_mid; lra)).
  rewrite d_high in B. assert (S := small_K22 K HK).
  assert (E2 : / sqrt q * / sqrt q * q = 1). { rewrite <- (sqrt_sqrt q) at 3 by lra. field. apply Rgt_not_eq, sqrt_lt_R0. lra. }
  set (i := / sqrt q) in *. rewrite (Rabs_pos_eq i) in B by lra. assert (B' := Rabs_le_inv _ _ B).
  assert (K * ur * i <= / 2147483648 * i) by (apply Rmult_le_compat_r; lra).
  assert (X : 8192 <= (1 + / 2147483648) * i) by lra. assert (X2 : 8192 * 8192 <= (1 + / 2147483648) * i * ((1 + / 2147483648) * i)) by (apply Rmult_le_compat; lra).
  rewrite Q in E2. nra.
Qed.
Lemma exp_80 : 1000000000000000000000000 <= exp 80.
Proof.
  replace 80 with (INR 80 * 1) by (rewrite INR_IZR_INZ; cbn; lra). replace (exp (INR 80 * 1)) with (Rpower (exp 1) (INR 80)).
  - rewrite Rpower_pow by apply exp_pos. assert (E := exp_ineq1_le 1). apply Rle_trans with (2 ^ 80); [lra|]. apply pow_incr. lra.
  - unfold Rpower. now rewrite ln_exp.
Qed.
Lemma tanh_40 : 1 - / 18014398509481984 <= tanh 40 < 1.
Proof.
  unfold tanh, sinh, cosh. rewrite exp_Ropp. assert (P := exp_pos 40).
  assert (E : exp 80 = exp 40 * exp 40) by (rewrite <- exp_plus; f_equal; lra). assert (X := exp_80). rewrite E in X.
  set (p := exp 40) in *. replace ((p - / p) / 2 / ((p + / p) / 2)) with (1 - 2 / (p * p + 1)) by (field; nra).
  assert (Q : 0 < 2 / (p * p + 1)) by (apply Rdiv_lt_0_compat; lra). split; [|lra].
  assert (2 / (p * p + 1) <= 2 * / 1000000000000000000000000) by (apply Rmult_le_compat_l; [lra|]; apply Rinv_le_contravar; lra). lra.
Qed.
Lemma nearest_tanh_40 : nearest (tanh 40) = 1.
Proof.
  assert (T := tanh_40). assert (V : Valid_exp (FLT_exp (-1074) 53)) by (apply FLT_exp_valid; reflexivity).
  assert (A : nearest (tanh 40) <= nearest 1) by (apply round_le; [exact V|apply valid_rnd_N|lra]).
  assert (B : nearest (1 - / 18014398509481984) <= nearest (tanh 40)) by (apply round_le; [exact V|apply valid_rnd_N|lra]).
  assert (N1 : nearest 1 = 1).
  { destruct (dmul_round (dofZ 1) (dofZ 1) eq_refl eq_refl) as [_ E]; rewrite (real_lit 1 eq_refl), Rmult_1_l in *.
    - apply fits. rewrite Rabs_R1. change 1 with (pow2 0). apply pow2_le. lia.
    - rewrite <- E. realval. lra. }
  assert (N2 : nearest (1 - / 18014398509481984) = 1).
  { assert (H : real_of (half 1 54) = / 18014398509481984) by (realval; lra).
    destruct (dsub_round (dofZ 1) (half 1 54) eq_refl eq_refl) as [_ E]; rewrite (real_lit 1 eq_refl), H in *.
    - apply fits. rewrite Rabs_pos_eq by lra. apply Rle_trans with (pow2 0); [change (pow2 0) with 1; lra|apply pow2_le; lia].
    - rewrite <- E. realval. lra. }
  lra.
Qed.
Lemma no_tanh K : K <= 4194304 -> ~ accurate1 g_tanh (fun _ _ => True) tanh (fun _ => K).
Proof.
  intros HK H. assert (T := tanh_40). set (t := c_tanh rounded_cmath (dofZ 40)).
  assert (O40 : real_of (dofZ 40) = 40) by exact (real_lit 40 eq_refl).
  assert (Rt : regular (tanh 40)) by (apply reg_mid; lra).
  assert (Ct : finite t /\ real_of t = 1).
  { unfold t. change (c_tanh rounded_cmath (dofZ 40)) with (R2B (tanh (real_of (dofZ 40)))). rewrite O40. destruct (R2B_correct (tanh 40)) as [F E]; [unfold no_overflow; rewrite nearest_tanh_40, Rabs_R1; change 1 with (pow2 0); apply pow2_lt; lia|].
    split; [exact F|]. now rewrite E, nearest_tanh_40. }
  destruct Ct as [Ft Et].
  assert (N1 : nearest 1 = 1).
  { replace 1 with (real_of (dofZ 1)) by exact (real_lit 1 eq_refl). apply round_generic; [apply valid_rnd_N|]. apply (generic_format_B2R 53 1024). }
  assert (N0 : nearest 0 = 0) by (apply round_0, valid_rnd_N).
  assert (P0 : pow2 0 = 1) by reflexivity.
  destruct (dmul_round t t Ft Ft) as [Fq Eq]; rewrite Et, Rmult_1_l in *; [unfold no_overflow; rewrite N1, Rabs_R1, <- P0; apply pow2_lt; lia|]. rewrite N1 in Eq.
  destruct (dsub_round (dofZ 1) (dmul t t) eq_refl Fq) as [Fd Ed]; rewrite (real_lit 1 eq_refl), Eq, Rminus_eq_0 in *; [unfold no_overflow; rewrite N0, Rabs_R0; apply pow2_pos|]. rewrite N0 in Ed.
  destruct (dmul_round (dofZ 1) (dsub (dofZ 1) (dmul t t)) eq_refl Fd) as [_ Em]; rewrite (real_lit 1 eq_refl), Ed, Rmult_0_r in *; [unfold no_overflow; rewrite N0, Rabs_R0; apply pow2_pos|]. rewrite N0 in Em.
  set (d := 1 - tanh 40 * tanh 40). assert (Dp : 0 < d) by (unfold d; nra).
  assert (Rd : regular d).
  { unfold d. assert (C := cosh_sinh 40). assert (Cp := cosh_pos 40). unfold tanh.
    assert (E : 1 - sinh 40 / cosh 40 * (sinh 40 / cosh 40) = (cosh 40 * cosh 40 - sinh 40 * sinh 40) * / (cosh 40 * cosh 40)) by (field; lra). rewrite E, C, Rmult_1_l.
    assert (Cr : rng 0 500 (cosh 40)).
    { unfold cosh. assert (P := exp_pos 40). assert (Q := exp_pos (Ropp 40)). assert (I := exp_ineq1_le 40). split; [change (pow2 0) with 1; lra|].
      assert (M1 : exp (Ropp 40) <= 1) by (rewrite <- exp_0; left; apply exp_increasing; lra).
      assert (M2 : exp 40 <= pow2 100).
      { rewrite <- Rpower2_bpow. unfold Rpower. destruct ln2_rng as [A2 _]. change (pow2 (-1)) with (/ 2) in A2. left. apply exp_increasing. lra. }
      assert (1 <= pow2 100) by (rewrite <- P0; apply pow2_le; lia). apply Rle_trans with (pow2 100); [lra|apply pow2_le; lia]. }
    apply (rng_regular _ _ _) with (3 := rng_inv _ _ _ (rng_mul _ _ _ _ _ _ Cr Cr)); lia. }
  assert (B := refute1 _ _ _ _ t (dsub (dofZ 1) (dmul t t)) (dofZ 40) 40 d H ltac:(intros x E; unfold g_tanh; rewrite E; reflexivity) eq_refl O40 I Rt (proj1 (proj2 D_tanh) 40 I) Rd).
  rewrite Em, Rminus_0_l, Rabs_Ropp in B. assert (S := small_K22 K HK). rewrite (Rabs_pos_eq d) in B by lra. nra.
Qed.
Lemma C65_uniform_bound_refuted_proof : forall K, K <= 4194304 ->
  ~ accurate1 g_asin (fun _ a => -1 < a < 1) asin (fun _ => K) /\
  ~ accurate1 g_acos (fun _ a => -1 < a < 1) acos (fun _ => K) /\
  ~ accurate1 g_atanh (fun _ a => -1 < a < 1) R_atanh (fun _ => K) /\
  ~ accurate1 g_acosh (fun _ a => 1 < a) R_acosh (fun _ => K) /\
  ~ accurate1 g_tanh (fun _ _ => True) tanh (fun _ => K).
Proof. intros K H. exact (conj (no_asin K H) (conj (no_acos K H) (conj (no_atanh K H) (conj (no_acosh K H) (no_tanh K H))))). Qed.
