(** * MathAcc4: accuracy of erf, erfc and cbrt (C65) *)

From Coq Require Import List ZArith Reals Bool Lra Lia Psatz.
From Coquelicot Require Import Coquelicot.
From Flocq Require Import Core BinarySingleNaN.
From Verif Require Import Base Num Map UReal World SpecObs Ieee IeeeFacts SpecIeee IeeeProofs3 IeeeProofs4
  IeeeCov Nan Math SpecMathIeee IeeeRel MathAcc MathAcc2 MathAcc3 Derivs.
Import ListNotations.
Local Open Scope R_scope.

Lemma exp_1p y : Rabs y <= / 2 -> Rabs (exp y - 1) <= 2 * Rabs y.
Proof.
  intro H. assert (H' := Rabs_le_inv _ _ H).
  destruct (Req_dec y 0) as [->|N]; [rewrite exp_0, Rminus_eq_0, Rabs_R0; lra|].
  assert (L1 := exp_ineq1 y N). assert (L2 := exp_ineq1 (- y) ltac:(lra)). assert (P := exp_pos y). assert (E : exp y * exp (- y) = 1) by (rewrite <- exp_plus, Rplus_opp_r; apply exp_0).
  assert (U : exp y * (1 - y) <= 1) by nra. apply Rabs_le. unfold Rabs in *. destruct (Rcase_abs y); split; nra.
Qed.
(** the exponential of a perturbed number *)
Lemma exp_pert e h (c : double) s y : ur <= e <= pow2 (-20) -> Rabs y <= h -> h <= / 8 -> close e c (exp (s + y)) -> close (e + 3 * h) c (exp s).
Proof.
  intros He Hy Hh [F B]. assert (S := e_small e He). split; [exact F|]. rewrite exp_plus in B. assert (P := exp_pos s). assert (A0 := Rabs_pos y).
  assert (X := exp_1p y ltac:(lra)). assert (X' := Rabs_le_inv _ _ X). assert (Q := exp_pos y).
  rewrite (Rabs_pos_eq (exp s)) by lra. rewrite Rabs_mult, (Rabs_pos_eq (exp s)), (Rabs_pos_eq (exp y)) in B by lra.
  replace (real_of c - exp s) with ((real_of c - exp s * exp y) + exp s * (exp y - 1)) by ring. eapply Rle_trans; [apply Rabs_triang|].
  rewrite (Rabs_mult (exp s)), (Rabs_pos_eq (exp s)) by lra.
  assert (Y1 : exp s * Rabs (exp y - 1) <= exp s * (2 * h)) by (apply Rmult_le_compat_l; lra).
  assert (Y2 : e * (exp s * exp y) <= e * (exp s * (1 + 2 * h))) by (apply Rmult_le_compat_l; [lra|]; apply Rmult_le_compat_l; lra).
  replace ((e + 3 * h) * exp s) with (e * exp s + 3 * (h * exp s)) by ring.
  assert (0 <= h * exp s) by (apply Rmult_le_pos; lra). assert (e * (2 * (h * exp s)) <= / 1000000 * (2 * (h * exp s))) by (apply Rmult_le_compat_r; lra). lra.
Qed.
Lemma close_mul e h1 h2 (a b : double) r s : ur <= e <= pow2 (-20) -> 0 <= h1 <= / 8 -> 0 <= h2 <= / 8 -> close h1 a r -> close h2 b s -> regular (r * s) ->
  close (9 / 8 * h1 + h2 + 2 * e) (dmul a b) (r * s).
Proof.
  intros He H1 H2 C1 C2 Rg. destruct (Req_dec r 0) as [Z|Nr]; [|destruct (Req_dec s 0) as [Z|Ns]].
  1, 2: subst; rewrite ?Rmult_0_l, ?Rmult_0_r in *; destruct C1 as [F1 B1], C2 as [F2 B2]; rewrite ?Rabs_R0, ?Rmult_0_r in *.
  1: assert (Za : real_of a = 0) by (unfold Rminus in B1; rewrite Ropp_0, Rplus_0_r in B1; destruct (Req_dec (real_of a) 0) as [Q|Q]; [exact Q|apply Rabs_pos_lt in Q; lra]).
  2: assert (Za : real_of b = 0) by (unfold Rminus in B2; rewrite Ropp_0, Rplus_0_r in B2; destruct (Req_dec (real_of b) 0) as [Q|Q]; [exact Q|apply Rabs_pos_lt in Q; lra]).
  1, 2: destruct (dmul_round a b F1 F2) as [F E]; rewrite Za, ?Rmult_0_l, ?Rmult_0_r in *;
    [apply fits; rewrite Rabs_R0; left; apply pow2_pos|]; split; [exact F|]; rewrite E; unfold nearest; rewrite round_0, Rminus_eq_0, Rabs_R0, Rmult_0_r by apply valid_rnd_N; lra.
  destruct (close_factor _ _ _ C1 Nr) as (x & E1 & B1). destruct (close_factor _ _ _ C2 Ns) as (y & E2 & B2). destruct C1 as [F1 _], C2 as [F2 _].
  assert (S := e_small e He).
  apply (close_round e (9 / 8 * h1 + h2) _ _ (x + y + x * y) He Rg); [lra| |].
  - eapply Rle_trans; [apply Rabs_triang|]. assert (T := Rabs_triang x y). rewrite Rabs_mult.
    assert (Rabs x * Rabs y <= h1 * / 8) by (apply Rmult_le_compat; try apply Rabs_pos; lra). lra.
  - replace (r * s * (1 + (x + y + x * y))) with (real_of a * real_of b) by (rewrite E1, E2; ring). now apply dmul_round.
Qed.

Lemma pi_rng : rng 1 2 PI.
Proof.
  split; [|change (pow2 2) with 4; apply PI_4]. change (pow2 1) with 2. assert (P := PI2_1). lra.
Qed.
Lemma erf_coeff_near M e : ur <= e <= pow2 (-20) -> accurate M e -> near e 3 (ddiv (dofZ 2) (dsqrt (c_atan2 M (dofZ 0) (dofZ (-1))))) (2 / sqrt PI).
Proof.
  intros He A. assert (Sr : rng 0 1 (sqrt PI)) by (apply rng_sqrt, (rng_weaken 1 2); [lia|lia|exact pi_rng]). assert (Sp := rng_pos _ _ _ Sr).
  apply (near_div e He 0 2); [lia|now apply near_lit_small| |lra|].
  - apply (near_sqrt e He 1); [lia|assert (P := PI_RGT_0); lra|apply (near_close e He), A|apply (rng_regular _ _ _) with (3 := Sr); lia].
  - assert (Mr : rng (1 + - (1)) (1 + - 0) (2 / sqrt PI)) by (apply rng_mul; [split; right; reflexivity|now apply rng_inv]).
    apply (rng_regular _ _ _) with (3 := Mr); lia.
Qed.
Lemma erf_exp M e (a : double) : ur <= e <= pow2 (-20) -> accurate M e -> finite a -> let r := real_of a in Rabs r <= 22 ->
  close (e + 3 * ((r * r + 1) * e)) (c_exp M (dmul (dopp a) a)) (exp (- (r * r))).
Proof.
  intros He A Fa r Hr. assert (S := e_small e He). assert (H' := Rabs_le_inv _ _ Hr). assert (R2 : 0 <= r * r <= 484) by (split; nra).
  assert (Fo : finite (dopp a)) by (unfold finite, dopp; now rewrite is_finite_Bopp).
  assert (Eo : real_of (dopp a) = - r) by (unfold real_of, dopp; now rewrite B2R_Bopp).
  assert (Hi : Rabs (real_of (dopp a) * real_of a) <= pow2 1023).
  { rewrite Eo. fold r. rewrite Rabs_mult, Rabs_Ropp, <- Rabs_mult, Rabs_pos_eq by lra. apply Rle_trans with (pow2 9); [change (pow2 9) with 512; lra|apply pow2_le; lia]. }
  destruct (dmul_round (dopp a) a Fo Fa (fits _ Hi)) as [F E]. rewrite Eo in E. fold r in E.
  destruct (nearest_pm (- r * r)) as (x & t & Hx & Ht & N). rewrite N in E.
  assert (T : pow2 (-1075) <= ur) by (apply pow2_le; lia).
  set (y := - (r * r) * x + t).
  assert (Hy : Rabs y <= (r * r + 1) * e).
  { unfold y. eapply Rle_trans; [apply Rabs_triang|]. rewrite Rabs_mult, Rabs_Ropp, (Rabs_pos_eq (r * r)) by lra.
    assert (r * r * Rabs x <= r * r * e) by (apply Rmult_le_compat_l; lra). lra. }
  assert (Y1 : (r * r + 1) * e <= / 1000) by (apply Rle_trans with (485 * / 1000000); [apply Rmult_le_compat; lra|lra]).
  assert (E' : real_of (dmul (dopp a) a) = - (r * r) + y) by (rewrite E; unfold y; ring).
  apply (exp_pert e _ _ _ y He Hy); [lra|]. rewrite <- E'. apply A; [exact F|exact I|].
  apply (rng_regular (-1000) 1000); [lia|lia|]. apply exp_rng. rewrite E'. apply Rabs_le. assert (Y := Rabs_le_inv _ _ Hy). lra.
Qed.
Lemma erf_rng r : Rabs r <= 22 -> rng (-1000) 1001 (2 / sqrt PI * exp (- (r * r))).
Proof.
  intro Hr. assert (H' := Rabs_le_inv _ _ Hr). assert (R2 : 0 <= r * r <= 484) by (split; nra).
  assert (Sr : rng 0 1 (sqrt PI)) by (apply rng_sqrt, (rng_weaken 1 2); [lia|lia|exact pi_rng]).
  assert (Mr : rng (1 + - (1)) (1 + - 0) (2 / sqrt PI)) by (apply rng_mul; [split; right; reflexivity|now apply rng_inv]).
  assert (Er : rng (-1000) 1000 (exp (- (r * r)))) by (apply exp_rng; rewrite Rabs_Ropp, Rabs_pos_eq; lra).
  exact (rng_mul _ _ _ _ _ _ Mr Er).
Qed.
Lemma erf_deriv M e (a : double) : ur <= e <= pow2 (-20) -> accurate M e -> finite a -> let r := real_of a in Rabs r <= 22 ->
  close ((11 + 3 * (r * r)) * e) (dmul (g_erf_coeff M) (c_exp M (dmul (dopp a) a))) (2 / sqrt PI * exp (- (r * r))).
Proof.
  intros He A Fa r Hr. assert (S := e_small e He). assert (H' := Rabs_le_inv _ _ Hr). assert (R2 : 0 <= r * r <= 484) by (split; nra).
  assert (C1 := close_near e He 3 _ _ ltac:(lia) (erf_coeff_near M e He A)). replace (INR 3 + 1) with 4 in C1 by (rewrite INR_IZR_INZ; simpl; lra).
  assert (C2 := erf_exp M e a He A Fa Hr). fold r in C2.
  assert (RE : 0 <= r * r * e <= / 1000) by (split; [apply Rmult_le_pos; lra|apply Rle_trans with (484 * / 1000000); [apply Rmult_le_compat; lra|lra]]).
  assert (C := close_mul e (4 * e) (e + 3 * ((r * r + 1) * e)) _ _ _ _ He ltac:(lra) ltac:(lra) C1 C2 ltac:(apply (rng_regular _ _ _) with (3 := erf_rng r Hr); lia)).
  eapply close_weaken; [|exact C]. lra.
Qed.
Lemma erf_K e r : ur <= e <= pow2 (-20) -> Rabs r <= 22 -> (16 + 3 * (r * r)) * e <= / 2.
Proof.
  intros He Hr. assert (S := e_small e He). assert (H' := Rabs_le_inv _ _ Hr). assert (R2 : 0 <= r * r <= 484) by (split; nra).
  apply Rle_trans with (2000 * / 1000000); [apply Rmult_le_compat|]; lra.
Qed.
Lemma A_erf : accurate1 g_erf (fun _ a => Rabs a <= 22) R_erf (fun a => 16 + 3 * (a * a)).
Proof.
  start (fun (M : cmath DN) (a : double) => c_erf M a) (fun (M : cmath DN) (a : double) => dmul (g_erf_coeff M) (c_exp M (dmul (dopp a) a))).
  assert (R2 := Rle_0_sqr (real_of a)). unfold Rsqr in R2.
  apply (fin_close M e R_erf _ _ (real_of a) _ (11 + 3 * (real_of a * real_of a)) _ He) with (2 := is_derive_erf (real_of a)); [apply A; auto|lra|lra|now apply erf_K|].
  now apply erf_deriv.
Qed.
Lemma A_erfc : accurate1 g_erfc (fun _ a => Rabs a <= 22) (fun x => 1 - R_erf x) (fun a => 16 + 3 * (a * a)).
Proof.
  start (fun (M : cmath DN) (a : double) => c_erfc M a) (fun (M : cmath DN) (a : double) => dmul (dopp (g_erf_coeff M)) (c_exp M (dmul (dopp a) a))).
  assert (R2 := Rle_0_sqr (real_of a)). unfold Rsqr in R2. assert (S := e_small e He).
  apply (fin_close M e (fun x => 1 - R_erf x) _ _ (real_of a) _ (11 + 3 * (real_of a * real_of a)) _ He) with (2 := proj1 (proj2 D_erfc) (real_of a) I);
    [apply A; auto|lra|lra|now apply erf_K|].
  set (r := real_of a) in *. assert (H' := Rabs_le_inv _ _ Da). assert (R3 : 0 <= r * r <= 484) by (split; nra).
  assert (C1 := close_near e He 3 _ _ ltac:(lia) (near_opp e 3 _ _ (erf_coeff_near M e He A))). replace (INR 3 + 1) with 4 in C1 by (rewrite INR_IZR_INZ; simpl; lra).
  assert (C2 := erf_exp M e a He A Fa Da). fold r in C2.
  assert (RE : 0 <= r * r * e <= / 1000) by (split; [apply Rmult_le_pos; lra|apply Rle_trans with (484 * / 1000000); [apply Rmult_le_compat; lra|lra]]).
  assert (Eq : - (2 / sqrt PI) * exp (- (r * r)) = - (2 / sqrt PI * exp (- (r * r)))) by ring.
  assert (Rg' : regular (- (2 / sqrt PI) * exp (- (r * r)))).
  { rewrite Eq. assert (E := erf_rng r Da). assert (P := rng_pos _ _ _ E). right. rewrite Rabs_Ropp, Rabs_pos_eq by lra.
    destruct E as [Lo Hi]. split; [eapply Rle_trans; [|exact Lo]|eapply Rle_trans; [exact Hi|]]; apply pow2_le; lia. }
  assert (C := close_mul e (4 * e) (e + 3 * ((r * r + 1) * e)) _ _ _ _ He ltac:(lra) ltac:(lra) C1 C2 Rg').
  rewrite Eq in C. eapply close_weaken; [|exact C]. lra.
Qed.

(** ** cbrt *)
Lemma Rpower_m23 x : 0 < x -> Rpower x (-2 / 3) = / (R_cbrt x * R_cbrt x).
Proof.
  intro H. rewrite cbrt_pos by exact H. rewrite <- Rpower_plus, <- Rpower_Ropp. f_equal. field.
Qed.
Lemma ln_range x : pow2 (-1000) <= x <= pow2 1000 -> Rabs (ln x) <= 1000.
Proof.
  intros [L U]. assert (P := pow2_pos (-1000)). destruct ln2_rng as [A B]. change (pow2 (-1)) with (/ 2) in A. change (pow2 0) with 1 in B.
  assert (E : forall n, ln (pow2 n) = IZR n * ln 2).
  { intro n. rewrite <- Rpower2_bpow. unfold Rpower. apply ln_exp. }
  assert (L1 : ln (pow2 (-1000)) <= ln x) by (apply ln_le; lra). assert (U1 : ln x <= ln (pow2 1000)) by (apply ln_le; lra).
  rewrite E in L1, U1. apply Rabs_le. split; lra.
Qed.
Lemma ln_bpow n : ln (pow2 n) = IZR n * ln 2. Proof. rewrite <- Rpower2_bpow. unfold Rpower. apply ln_exp. Qed.
Lemma Rpower_rng x b : pow2 (-1000) <= x <= pow2 1000 -> -1 <= b <= 0 -> rng (-1000) 1000 (Rpower x b).
Proof.
  intros [L U] [B1 B2]. assert (P := pow2_pos (-1000)). assert (Ln2 := rng_pos _ _ _ ln2_rng).
  assert (L1 : ln (pow2 (-1000)) <= ln x) by (apply ln_le; lra). assert (U1 : ln x <= ln (pow2 1000)) by (apply ln_le; lra).
  rewrite ln_bpow in L1, U1. assert (Up : forall n, pow2 n = exp (IZR n * ln 2)) by (intro; rewrite <- Rpower2_bpow; reflexivity).
  assert (Em : forall u v, u <= v -> exp u <= exp v) by (intros u v [H| ->]; [left; now apply exp_increasing|lra]).
  unfold rng, Rpower. rewrite !Up. split; apply Em; nra.
Qed.
Lemma A_cbrt : accurate1 g_cbrt (fun _ a => pow2 (-1000) <= a <= pow2 1000) R_cbrt (fun a => 10 + 4 * Rabs (ln a)).
Proof.
  start (fun (M : cmath DN) (a : double) => c_cbrt M a) (fun (M : cmath DN) (a : double) => ddiv (c_pow M a (ddiv (dopp (dofZ 2)) (dofZ 3))) (dofZ 3)).
  set (r := real_of a) in *. assert (S := e_small e He). assert (P := rng_pos _ _ _ Da). assert (Ln := ln_range r Da). assert (L0 := Rabs_pos (ln r)).
  set (l := Rabs (ln r)) in *.
  assert (LE : 0 <= l * e <= / 1000) by (split; [apply Rmult_le_pos; lra|apply Rle_trans with (1000 * / 1000000); [apply Rmult_le_compat; lra|lra]]).
  apply (fin_close M e R_cbrt _ _ r (Rpower r (-2 / 3) / 3) (8 + 4 * l) _ He).
  - apply A; auto.
  - rewrite Rpower_m23 by exact P. assert (D := is_derive_cbrt r ltac:(lra)). assert (Nz := cbrt_neq0 r ltac:(lra)).
    replace (/ (R_cbrt r * R_cbrt r) / 3) with (/ (3 * (R_cbrt r * R_cbrt r))) by (field; exact Nz). exact D.
  - lra.
  - lra.
  - lra.
  - assert (B : near e 1 (ddiv (dopp (dofZ 2)) (dofZ 3)) (-2 / 3)).
    { replace (-2 / 3) with (- (2) / 3) by lra. apply (near_div e He 0 0); [lia|apply near_opp; now apply near_lit_small|now apply near_lit_small|lra|].
      right. replace (Rabs (- (2) / 3)) with (2 / 3) by (unfold Rabs; destruct (Rcase_abs _); lra).
      split; [apply Rle_trans with (pow2 (-1)); [apply pow2_le; lia|change (pow2 (-1)) with (/ 2); lra]|apply Rle_trans with (pow2 0); [change (pow2 0) with 1; lra|apply pow2_le; lia]]. }
    assert (B1 := close_near e He 1 _ _ ltac:(lia) B). set (bd := ddiv (dopp (dofZ 2)) (dofZ 3)) in *. destruct B1 as [Fb B1].
    replace (INR 1 + 1) with 2 in B1 by (cbn; lra). replace (Rabs (-2 / 3)) with (2 / 3) in B1 by (unfold Rabs; destruct (Rcase_abs _); lra).
    set (b := real_of bd) in *. assert (B' := Rabs_le_inv _ _ B1).
    assert (Cp : close e (c_pow M a bd) (Rpower r b)).
    { apply A; auto. fold r b. assert (Pr := Rpower_rng r b Da ltac:(lra)). apply (rng_regular _ _ _) with (3 := Pr); lia. }
    assert (Cq : close (e + 3 * (4 / 3 * (l * e))) (c_pow M a bd) (Rpower r (-2 / 3))).
    { apply (exp_pert e _ _ _ ((b - -2 / 3) * ln r) He); [| |].
      - rewrite Rabs_mult. fold l. replace (4 / 3 * (l * e)) with (2 * e * (2 / 3) * l) by lra. apply Rmult_le_compat_r; lra.
      - lra.
      - replace (-2 / 3 * ln r + (b - -2 / 3) * ln r) with (b * ln r) by ring. exact Cp. }
    assert (Rp := Rpower_rng r (-2 / 3) Da ltac:(lra)). assert (Pp := rng_pos _ _ _ Rp).
    assert (R3 : regular (Rpower r (-2 / 3) / 3)).
    { right. rewrite Rabs_pos_eq by lra. destruct Rp as [Lo Hi]. assert (P2 : pow2 (-1000) = 4 * pow2 (-1002)) by (change (-1000)%Z with (2 + -1002)%Z; now rewrite pow2_add).
      assert (Q := pow2_pos (-1002)). split; [apply Rle_trans with (pow2 (-1002)); [apply pow2_le; lia|lra]|apply Rle_trans with (pow2 1000); [lra|apply pow2_le; lia]]. }
    destruct (close_factor _ _ _ Cq ltac:(lra)) as (x & Ex & Bx).
    apply (close_weaken (e + 3 * (4 / 3 * (l * e)) + 2 * e)); [|]. 2: apply (close_round e _ _ _ x He R3); [lra|exact Bx|].
    + lra.
    + intro No. replace (Rpower r (-2 / 3) / 3 * (1 + x)) with (real_of (c_pow M a bd) / real_of (dofZ 3)) in *
        by (rewrite Ex, (real_lit 3 eq_refl); field). apply ddiv_round; [apply Cq|rewrite (real_lit 3 eq_refl); lra|exact No].
Qed.
