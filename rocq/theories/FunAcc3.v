(** * FunAcc3: second derivatives and lost steps (C70) *)

From Coq Require Import List ZArith Bool Reals Lra Lia Psatz.
From Coquelicot Require Import Coquelicot.
From Flocq Require Import Core BinarySingleNaN.
From Verif Require Import Base Num Map UReal World SpecObs Ieee IeeeFacts SpecIeee IeeeProofs IeeeProofs2 IeeeProofs3 IeeeProofs4
  IeeeCov SpecFun Derivs MathProofs FunProofs FunAcc SpecFunIeee FunAcc2.
Import ListNotations.
Local Open Scope R_scope.

Lemma step_err_ur a h : 0 < h -> ur <= step_err a h.
Proof.
  intro H. unfold step_err. assert (U := ur_small). assert (0 <= Rabs a / h) by (apply Rmult_le_pos; [apply Rabs_pos|left; now apply Rinv_0_lt_compat]). nra.
Qed.
Lemma abs_mult_le x y b : Rabs x <= b -> Rabs (x * y) <= b * Rabs y.
Proof. intro H. rewrite Rabs_mult. apply Rmult_le_compat_r; [apply Rabs_pos|exact H]. Qed.

Lemma central_diff2 (f : double -> double) (F F1 F2 F3 F4 : R -> R) M del (mu s : double) :
  let a := real_of mu in let h := real_of s in finite mu -> good_step a s ->
  computes (near a (2 * h)) del f F -> derivs_on (near a (2 * h)) F [F1; F2; F3; F4] -> bounded_on (near a (2 * h)) F4 M ->
  central_size2 h (F a) (F1 a) (F2 a) (F3 a) M del ->
  let d := ddiv (dsub (dadd (f (dadd mu s)) (f (dsub mu s))) (dmul (dofZ 2) (f mu))) (dmul s s) in
  finite d /\ Rabs (real_of d - F2 a) <= central_err2 a h (F a) (F1 a) (F2 a) (F3 a) M del.
Proof.
  intros a h Fm G C D B [Lv L] d. destruct (good_step_facts _ _ G) as (H & R & _ & _). fold a h in H, R.
  destruct (central_points f F del mu s Fm G C) as (hr & hl & Hr & Hl & FA & EA & FL & EL & FC & EC). fold a h in Hr, Hl, EA, EL, EC.
  destruct (moved_near a h hr 1 H ltac:(ring) (proj2 R) Hr) as [_ Br]. destruct (moved_near a h hl (-1) H ltac:(ring) (proj2 R) Hl) as [_ Bl].
  assert (Na : near a (2 * h) a). { unfold near. rewrite Rminus_eq_0, Rabs_R0. apply Rabs_pos. }
  assert (Tr := tay4 a 1 (2 * h) ltac:(ring) ltac:(lra) F F1 F2 F3 F4 M D B hr ltac:(lra)).
  assert (Tl := tay4 a (-1) (2 * h) ltac:(ring) ltac:(lra) F F1 F2 F3 F4 M D B hl ltac:(lra)).
  assert (M0 : 0 <= M) by (eapply Rle_trans; [apply Rabs_pos|exact (B a Na)]).
  assert (D0 : 0 <= del) by (eapply Rle_trans; [apply Rabs_pos|exact EC]).
  assert (Ur := step_err_ur a h H).
  set (A := real_of (f (dadd mu s))) in *. set (B0 := real_of (f (dsub mu s))) in *. set (C0 := real_of (f mu)) in *.
  set (r := step_err a h) in *. set (f1 := F1 a) in *. set (f2 := F2 a) in *. set (f3 := F3 a) in *. set (f0 := F a) in *.
  assert (Hh : 0 < h * h) by (apply Rmult_lt_0_compat; lra).
  set (q := (A + B0 - 2 * C0) / (h * h)).
  assert (E0 : Rabs (q - f2) <= 9 / 4 * (r * Rabs f2) + 2 * (r * (Rabs f1 / h)) + 25 / 16 * (r * (h * Rabs f3)) + 21 / 100 * (M * (h * h)) + 4 * (del / (h * h))).
  { replace (q - f2) with (((A - F (a + 1 * hr)) + (B0 - F (a + -1 * hl)) - 2 * (C0 - f0) +
      (F (a + 1 * hr) - f0 - 1 * hr * f1 - hr ^ 2 / 2 * f2 - 1 * hr ^ 3 / 6 * f3) + (F (a + -1 * hl) - f0 - -1 * hl * f1 - hl ^ 2 / 2 * f2 - -1 * hl ^ 3 / 6 * f3) +
      (hr - hl) * f1 + ((hr - h) * (hr + h) + (hl - h) * (hl + h)) / 2 * f2 + (hr - hl) * (hr * hr + hr * hl + hl * hl) / 6 * f3) / (h * h)) by (unfold q; field; lra).
    unfold Rdiv at 1. rewrite Rabs_mult, (Rabs_pos_eq (/ (h * h))) by (left; now apply Rinv_0_lt_compat).
    apply Rmult_le_reg_r with (h * h); [lra|]. rewrite Rmult_assoc, Rinv_l, Rmult_1_r by lra.
    replace ((9 / 4 * (r * Rabs f2) + 2 * (r * (Rabs f1 / h)) + 25 / 16 * (r * (h * Rabs f3)) + 21 / 100 * (M * (h * h)) + 4 * (del / (h * h))) * (h * h))
      with (9 / 4 * (r * h * h) * Rabs f2 + 2 * (r * h) * Rabs f1 + 25 / 16 * (r * h * h * h) * Rabs f3 + 21 / 100 * (M * (h * h * h * h)) + 4 * del) by (field; lra).
    set (x1 := A - F (a + 1 * hr)) in *. set (x2 := B0 - F (a + -1 * hl)) in *. set (x0 := C0 - f0) in *.
    set (x3 := F (a + 1 * hr) - f0 - 1 * hr * f1 - hr ^ 2 / 2 * f2 - 1 * hr ^ 3 / 6 * f3) in *.
    set (x4 := F (a + -1 * hl) - f0 - -1 * hl * f1 - hl ^ 2 / 2 * f2 - -1 * hl ^ 3 / 6 * f3) in *.
    assert (C1 : Rabs (hr - hl) <= 2 * (r * h)).
    { replace (hr - hl) with ((hr - h) - (hl - h)) by ring. apply Rle_trans with (1 := Rabs_triang _ _). rewrite Rabs_Ropp. lra. }
    assert (RH : 0 <= r * h) by (apply Rmult_le_pos; lra).
    assert (C2 : Rabs (((hr - h) * (hr + h) + (hl - h) * (hl + h)) / 2) <= 9 / 4 * (r * h * h)).
    { unfold Rdiv. rewrite Rabs_mult, (Rabs_pos_eq (/ 2)) by lra.
      assert (Y1 : Rabs ((hr - h) * (hr + h)) <= r * h * (9 / 4 * h)) by (rewrite Rabs_mult, (Rabs_pos_eq (hr + h)) by lra; apply Rmult_le_compat; [apply Rabs_pos|lra|assumption|lra]).
      assert (Y2 : Rabs ((hl - h) * (hl + h)) <= r * h * (9 / 4 * h)) by (rewrite Rabs_mult, (Rabs_pos_eq (hl + h)) by lra; apply Rmult_le_compat; [apply Rabs_pos|lra|assumption|lra]).
      assert (Y3 := Rabs_triang ((hr - h) * (hr + h)) ((hl - h) * (hl + h))). lra. }
    assert (C3 : Rabs ((hr - hl) * (hr * hr + hr * hl + hl * hl) / 6) <= 25 / 16 * (r * h * h * h)).
    { assert (Y : 0 <= hr * hr + hr * hl + hl * hl <= 75 / 16 * (h * h)).
      { assert (Y0 : 0 <= hr /\ 0 <= hl) by lra. destruct Y0 as [Y0 Y0'].
        assert (0 <= hr * hr <= 25 / 16 * (h * h)) by nra. assert (0 <= hl * hl <= 25 / 16 * (h * h)) by nra. assert (0 <= hr * hl <= 25 / 16 * (h * h)); [|lra].
        split; [now apply Rmult_le_pos|]. replace (25 / 16 * (h * h)) with (5 / 4 * h * (5 / 4 * h)) by field. apply Rmult_le_compat; lra. }
      unfold Rdiv. rewrite !Rabs_mult, (Rabs_pos_eq (/ 6)) by lra. rewrite (Rabs_pos_eq (_ + _)) by lra.
      assert (Rabs (hr - hl) * (hr * hr + hr * hl + hl * hl) <= 2 * (r * h) * (75 / 16 * (h * h))) by (apply Rmult_le_compat; [apply Rabs_pos|lra|assumption|lra]). lra. }
    assert (X1 := abs_mult_le _ f1 _ C1). assert (X2 := abs_mult_le _ f2 _ C2). assert (X3 := abs_mult_le _ f3 _ C3).
    assert (Y1 : M / 24 * hr ^ 4 <= M / 24 * (625 / 256 * (h * h * h * h))) by (apply Rmult_le_compat_l; [lra|apply fourth_bound; lra]).
    assert (Y2 : M / 24 * hl ^ 4 <= M / 24 * (625 / 256 * (h * h * h * h))) by (apply Rmult_le_compat_l; [lra|apply fourth_bound; lra]).
    assert (W : 0 <= M * (h * h * h * h)) by (apply Rmult_le_pos; [exact M0|]; repeat apply Rmult_le_pos; lra).
    apply abs_bound in EA, EL, EC, Tr, Tl, X1, X2, X3. apply Rabs_le. lra. }
  assert (U := ur_small). assert (P := pow2_pos (-1074)).
  assert (Ep : M * h * h = M * (h * h)) by ring. assert (Ed4 : 4 * del / (h * h) = 4 * (del / (h * h))) by (unfold Rdiv; ring). rewrite Ep, Ed4 in L.
  assert (P0 : 0 <= M * (h * h)) by (apply Rmult_le_pos; lra).
  assert (Q0 : 0 <= del / (h * h)) by (apply Rmult_le_pos; [lra|left; now apply Rinv_0_lt_compat]).
  assert (T1 : 0 <= Rabs f1 / h) by (apply Rmult_le_pos; [apply Rabs_pos|left; now apply Rinv_0_lt_compat]).
  assert (T3 : 0 <= h * Rabs f3) by (apply Rmult_le_pos; [lra|apply Rabs_pos]).
  assert (T2 := Rabs_pos f2).
  unfold central_err2. fold r. rewrite Ep.
  replace (3 * r * Rabs f1 / h) with (3 * (r * (Rabs f1 / h))) by (unfold Rdiv; ring).
  replace (2 * r * h * Rabs f3) with (2 * (r * (h * Rabs f3))) by ring.
  replace ((5 * del + 3 * uround * Rabs f0) / (h * h)) with (5 * (del / (h * h)) + 3 * ur * (Rabs f0 / (h * h))) by (unfold Rdiv; ring).
  assert (T0 : 0 <= Rabs f0 / (h * h)) by (apply Rmult_le_pos; [apply Rabs_pos|left; now apply Rinv_0_lt_compat]).
  assert (EV : (Rabs f0 + del) / (h * h) = Rabs f0 / (h * h) + del / (h * h)) by (unfold Rdiv; ring).
  set (Q := Rabs f2 + 9 / 4 * (r * Rabs f2) + 2 * (r * (Rabs f1 / h)) + 25 / 16 * (r * (h * Rabs f3)) + 21 / 100 * (M * (h * h)) + 4 * (del / (h * h))).
  set (t1 := Rabs f1 / h) in *. set (t3 := h * Rabs f3) in *. set (t2 := Rabs f2) in *. set (p := M * (h * h)) in *. set (k := del / (h * h)) in *. set (v := Rabs f0 / (h * h)) in *.
  assert (R2 : ur * t2 <= r * t2 <= / 4 * t2) by (split; apply Rmult_le_compat_r; lra).
  assert (R1 : ur * t1 <= r * t1 <= / 4 * t1) by (split; apply Rmult_le_compat_r; lra).
  assert (R3 : ur * t3 <= r * t3 <= / 4 * t3) by (split; apply Rmult_le_compat_r; lra).
  assert (HQ : Rabs q <= Q).
  { replace q with ((q - f2) + f2) by ring. eapply Rle_trans; [apply Rabs_triang|]. fold t2. unfold Q. lra. }
  assert (HC : Rabs C0 <= Rabs f0 + del).
  { replace C0 with ((C0 - f0) + f0) by ring. eapply Rle_trans; [apply Rabs_triang|]. lra. }
  destruct (second_round (f (dadd mu s)) (f (dsub mu s)) (f mu) s Q (Rabs f0 + del) FA FL FC) as [Fd Ed]; try assumption.
  { apply G. } { apply G. }
  { change 491%Z with (1 + 490)%Z. rewrite pow2_S. unfold Q. lra. }
  fold h A B0 C0 q in Ed. split; [exact Fd|]. change (Rabs (real_of d - q) <= 41 / 10 * ur * Q + 21 / 10 * ur * (Rabs f0 + del) / (h * h) + pow2 (-1074) / 2) in Ed.
  replace (21 / 10 * ur * (Rabs f0 + del) / (h * h)) with (21 / 10 * ur * ((Rabs f0 + del) / (h * h))) in Ed by (unfold Rdiv; ring). rewrite EV in Ed.
  assert (P74 : pow2 (-1073) = 2 * pow2 (-1074)) by (rewrite <- pow2_S; reflexivity). rewrite P74.
  replace (real_of d - f2) with ((real_of d - q) + (q - f2)) by ring. eapply Rle_trans; [apply Rabs_triang|].
  assert (Z4 : 0 <= ur * p <= / 1000 * p) by (split; [apply Rmult_le_pos|apply Rmult_le_compat_r]; lra).
  assert (Z5 : 0 <= ur * k <= / 1000 * k) by (split; [apply Rmult_le_pos|apply Rmult_le_compat_r]; lra).
  assert (Z6 : 0 <= ur * v) by (apply Rmult_le_pos; lra). 
  assert (Z7 : ur <= / 10000) by (unfold uround, pow2; cbn; lra).
  assert (Z1 : 0 <= ur * t1) by (apply Rmult_le_pos; lra). assert (Z2 : 0 <= ur * t2) by (apply Rmult_le_pos; lra). assert (Z3 : 0 <= ur * t3) by (apply Rmult_le_pos; lra).
  set (r1 := r * t1) in *. set (r2 := r * t2) in *. set (r3 := r * t3) in *.
  assert (V1 : ur * r1 <= / 1000 * r1) by (apply Rmult_le_compat_r; lra). assert (V2 : ur * r2 <= / 1000 * r2) by (apply Rmult_le_compat_r; lra).
  assert (V3 : ur * r3 <= / 1000 * r3) by (apply Rmult_le_compat_r; lra).
  rewrite Rmult_plus_distr_r. replace (3 * r * t2) with (3 * r2) by (unfold r2; ring).
  unfold Q in Ed. lra.
Qed.

(** ** A step too small for the point is lost *)
Lemma nearest_absorbs_pos (x k : R) : generic_format radix2 fexp64 x -> 0 < x -> Rabs k <= x * pow2 (-55) -> nearest (x + k) = x.
Proof.
  intros G X K. apply abs_bound in K. assert (P55 := pow2_pos (-55)).
  assert (P53 : pow2 (-53) = 4 * pow2 (-55)). { change (-53)%Z with (1 + (1 + -55))%Z. rewrite !pow2_S. ring. }
  assert (XP : 0 < x * pow2 (-55)) by (now apply Rmult_lt_0_compat).
  assert (Us := ulp_FLT_gt radix2 (-1074) 53 x). rewrite Rabs_pos_eq in Us by lra. change (bpow radix2 (- (53))) with (pow2 (-53)) in Us. rewrite P53 in Us.
  assert (Ep := pred_plus_ulp radix2 fexp64 x X G). set (p := pred radix2 fexp64 x) in *.
  assert (Up := ulp_FLT_gt radix2 (-1074) 53 p). change (bpow radix2 (- (53))) with (pow2 (-53)) in Up. rewrite P53 in Up.
  change (FLT_exp (-1074) 53) with fexp64 in *.
  assert (Lp : p < x - 2 * (x * pow2 (-55))).
  { destruct (Rle_dec p (x / 2)) as [L|L].
    - assert (8 * pow2 (-55) <= 1). { replace (8 * pow2 (-55)) with (2 * pow2 (-53)) by (rewrite P53; ring). rewrite <- pow2_S. change 1 with (pow2 0). apply pow2_le. lia. } nra.
    - apply Rnot_le_lt in L. rewrite Rabs_pos_eq in Up by lra. nra. }
  unfold nearest. change (FLT_exp (-1074) 53) with fexp64. apply Rle_antisym.
  - apply round_N_le_midp; [apply FLT_exp_valid; reflexivity|exact G|]. rewrite succ_eq_pos by lra. lra.
  - apply round_N_ge_midp; [apply FLT_exp_valid; reflexivity|exact G|]. fold p. lra.
Qed.
Lemma nearest_absorbs (x k : R) : generic_format radix2 fexp64 x -> x <> 0 -> Rabs k <= Rabs x * pow2 (-55) -> nearest (x + k) = x.
Proof.
  intros G X K. destruct (Rle_dec 0 x) as [P|P].
  - rewrite (Rabs_pos_eq x) in K by exact P. apply nearest_absorbs_pos; [exact G|lra|exact K].
  - apply Rnot_le_lt in P. rewrite (Rabs_left x) in K by exact P.
    assert (E := nearest_absorbs_pos (- x) (- k) (generic_format_opp _ _ _ G) ltac:(lra)). rewrite Rabs_Ropp in E. specialize (E K).
    replace (- x + - k) with (- (x + k)) in E by ring. unfold nearest in *. rewrite round_NE_opp in E. lra.
Qed.
Lemma add_absorbs (mu s : double) : finite mu -> finite s -> pow2 55 * Rabs (real_of s) <= Rabs (real_of mu) -> real_of mu <> 0 ->
  dadd mu s = mu /\ dsub mu s = mu.
Proof.
  intros Fm Fs B N.
  assert (K : Rabs (real_of s) <= Rabs (real_of mu) * pow2 (-55)).
  { apply Rmult_le_reg_l with (pow2 55); [apply pow2_pos|]. rewrite (Rmult_comm (Rabs (real_of mu))), <- Rmult_assoc, <- pow2_add.
    change (pow2 (55 + -55)) with 1. lra. }
  assert (E1 := nearest_absorbs _ _ (B2R_format mu) N K).
  assert (E2 : nearest (real_of mu - real_of s) = real_of mu). { apply nearest_absorbs; [apply B2R_format|exact N|]. rewrite Rabs_Ropp. exact K. }
  assert (O : Rabs (real_of mu) < pow2 1024) by apply abs_B2R_lt_emax.
  assert (X : forall z, finite z -> real_of z = real_of mu -> z = mu).
  { intros z Fz Ez. assert (St : forall y : double, finite y -> real_of y <> 0 -> is_finite_strict y = true) by (intros [?|?| |? ? ? ?] Fy Ny; try discriminate Fy; [now elim Ny|reflexivity]).
    apply B2R_inj; [apply St; [exact Fz|rewrite Ez; exact N]|now apply St|exact Ez]. }
  split; apply X.
  - apply dadd_round; auto. unfold no_overflow. unfold real_of in *. now rewrite E1.
  - destruct (dadd_round mu s Fm Fs) as [_ V]; [unfold no_overflow, real_of in *; now rewrite E1|]. rewrite V. exact E1.
  - apply dsub_round; auto. unfold no_overflow. now rewrite E2.
  - destruct (dsub_round mu s Fm Fs) as [_ V]; [unfold no_overflow; now rewrite E2|]. rewrite V. exact E2.
Qed.
