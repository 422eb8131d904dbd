(** * MathAcc3: accuracy of the functions of math.hpp with cancellation or amplified errors (C65) *)

From Coq Require Import List ZArith Reals Bool Lra Lia Psatz.
From Coquelicot Require Import Coquelicot.
From Flocq Require Import Core BinarySingleNaN.
From Verif Require Import Base Num Map UReal World SpecObs Ieee IeeeFacts SpecIeee IeeeProofs3 IeeeProofs4
  IeeeCov Nan Math SpecMathIeee IeeeRel MathAcc MathAcc2 Derivs.
Import ListNotations.
Local Open Scope R_scope.

Lemma close_weaken h h' a r : h <= h' -> close h a r -> close h' a r.
Proof. intros H [F B]. split; [exact F|]. eapply Rle_trans; [exact B|]. apply Rmult_le_compat_r; [apply Rabs_pos|exact H]. Qed.
Lemma close_factor h a r : close h a r -> r <> 0 -> exists x, real_of a = r * (1 + x) /\ Rabs x <= h.
Proof.
  intros [_ B] N. exists ((real_of a - r) / r). split; [field; exact N|]. unfold Rdiv. rewrite Rabs_mult, Rabs_inv.
  assert (P := Rabs_pos_lt r N). apply Rmult_le_reg_r with (Rabs r); [exact P|]. rewrite Rmult_assoc, Rinv_l by lra. lra.
Qed.
Lemma sqrt_1p x : Rabs x <= / 4 -> Rabs (sqrt (1 + x) - 1) <= Rabs x.
Proof.
  intro H. assert (H' := Rabs_le_inv _ _ H). assert (P : 0 <= 1 + x) by lra. assert (S := sqrt_pos (1 + x)). assert (Q := sqrt_sqrt _ P).
  replace (sqrt (1 + x) - 1) with (x / (sqrt (1 + x) + 1)).
  - unfold Rdiv. rewrite Rabs_mult, Rabs_inv, (Rabs_pos_eq (_ + 1)) by lra. rewrite <- (Rmult_1_r (Rabs x)) at 2.
    apply Rmult_le_compat_l; [apply Rabs_pos|]. assert (X := Rinv_le_contravar 1 (sqrt (1 + x) + 1) ltac:(lra) ltac:(lra)). rewrite Rinv_1 in X. exact X.
  - apply Rmult_eq_reg_r with (sqrt (1 + x) + 1); [|lra]. unfold Rdiv. rewrite Rmult_assoc, Rinv_l by lra.
    transitivity (sqrt (1 + x) * sqrt (1 + x) - 1); [rewrite Q; ring|ring].
Qed.
Lemma inv_1p x h : Rabs x <= h -> h <= / 4 -> Rabs (/ (1 + x) - 1) <= 4 / 3 * h.
Proof.
  intros Hx Hh. assert (H' := Rabs_le_inv _ _ Hx). assert (A0 := Rabs_pos x). assert (P : 3 / 4 <= 1 + x) by lra.
  replace (/ (1 + x) - 1) with (- x * / (1 + x)) by (field; lra). rewrite Rabs_mult, Rabs_Ropp, Rabs_inv, (Rabs_pos_eq (1 + x)) by lra.
  rewrite (Rmult_comm (4 / 3)). apply Rmult_le_compat; [exact A0|left; apply Rinv_0_lt_compat; lra|exact Hx|].
  replace (4 / 3) with (/ (3 / 4)) by lra. apply Rinv_le_contravar; lra.
Qed.
(** rounding a number known up to the relative error [h] *)
Lemma close_round e h (a : double) r y : ur <= e <= pow2 (-20) -> regular r -> h <= / 2 -> Rabs y <= h ->
  (no_overflow (r * (1 + y)) -> finite a /\ real_of a = nearest (r * (1 + y))) -> close (h + 2 * e) a r.
Proof.
  intros He Rg Hh Hy H. assert (S := e_small e He). assert (Y := Rabs_le_inv _ _ Hy). assert (h0 := Rle_trans _ _ _ (Rabs_pos y) Hy).
  destruct Rg as [->|[Lo Hi]].
  - rewrite Rmult_0_l in H. assert (Z : nearest 0 = 0) by (apply round_0, valid_rnd_N).
    destruct H as [F E]; [unfold no_overflow; rewrite Z, Rabs_R0; apply pow2_pos|]. split; [exact F|]. rewrite E, Z, Rminus_eq_0, Rabs_R0. lra.
  - assert (P21 : pow2 (-1021) = 2 * pow2 (-1022)) by (unfold pow2; change (-1021)%Z with (1 + -1022)%Z; rewrite bpow_plus; f_equal).
    assert (P23 : pow2 1023 = 2 * pow2 1022) by (unfold pow2; change 1023%Z with (1 + 1022)%Z; rewrite bpow_plus; f_equal).
    assert (B0 := pow2_pos (-1022)). assert (B1 := pow2_pos 1022). assert (Ra := Rabs_pos r).
    assert (Ab : Rabs (r * (1 + y)) = Rabs r * (1 + y)) by (rewrite Rabs_mult, (Rabs_pos_eq (1 + y)); lra).
    assert (L1 : pow2 (-1022) <= Rabs (r * (1 + y))) by (rewrite Ab; nra).
    assert (L2 : Rabs (r * (1 + y)) <= pow2 1023) by (rewrite Ab; nra).
    destruct (H (fits _ L2)) as [F E]. split; [exact F|]. rewrite E. assert (RE := rel_err _ L1). fold ur in RE.
    replace (nearest (r * (1 + y)) - r) with ((nearest (r * (1 + y)) - r * (1 + y)) + y * r) by ring.
    eapply Rle_trans; [apply Rabs_triang|]. rewrite (Rabs_mult y), Ab in *.
    assert (ur * (Rabs r * (1 + y)) <= e * (Rabs r * 2)) by (apply Rmult_le_compat; [assert (U := ur_small); lra|nra|lra|nra]).
    assert (Rabs y * Rabs r <= h * Rabs r) by (apply Rmult_le_compat_r; lra). lra.
Qed.
Lemma close_sqrt e h a r : ur <= e <= pow2 (-20) -> 0 < r -> regular (sqrt r) -> h <= / 4 -> close h a r -> close (h + 2 * e) (dsqrt a) (sqrt r).
Proof.
  intros He R0 Rg Hh C. destruct (close_factor _ _ _ C ltac:(lra)) as (x & E & B). destruct C as [Fa _]. assert (X := Rabs_le_inv _ _ B).
  apply (close_round e h _ _ (sqrt (1 + x) - 1) He Rg); [lra| |].
  - eapply Rle_trans; [apply sqrt_1p|]; lra.
  - intros _. replace (sqrt r * (1 + (sqrt (1 + x) - 1))) with (sqrt (real_of a)); [apply sqrt_d; [exact Fa|rewrite E; apply Rmult_le_pos; lra]|].
    rewrite E, sqrt_mult_alt by lra. ring.
Qed.
Lemma close_inv e h z a r : ur <= e <= pow2 (-20) -> (Z.abs z <= 1)%Z -> 0 < r -> regular (IZR z / r) -> h <= / 4 -> close h a r ->
  close (4 / 3 * h + 2 * e) (ddiv (dofZ z) a) (IZR z / r).
Proof.
  intros He Hz R0 Rg Hh C. destruct (close_factor _ _ _ C ltac:(lra)) as (x & E & B). destruct C as [Fa _]. assert (X := Rabs_le_inv _ _ B).
  apply (close_round e (4 / 3 * h) _ _ (/ (1 + x) - 1) He Rg); [lra| |].
  - apply inv_1p; lra.
  - replace (IZR z / r * (1 + (/ (1 + x) - 1))) with (real_of (dofZ z) / real_of a).
    + apply ddiv_round; [apply (near_lit ur); rewrite <- abs_IZR; apply IZR_le; lia|]. rewrite E. apply Rmult_integral_contrapositive. lra.
    + rewrite (real_lit z) by (apply Z.leb_le; lia). rewrite E. field. lra.
Qed.

(** 1 - r^2 *)
Lemma one_minus e k a r : ur <= e <= pow2 (-20) -> (k <= 1)%nat -> near e k a r -> 100 * e <= 1 - r * r ->
  close (8 / (1 - r * r) * e) (dsub one (dmul a a)) (1 - r * r).
Proof.
  intros He K N Q. assert (S := e_small e He). assert (R2 := Rle_0_sqr r). unfold Rsqr in R2.
  assert (R1 : Rabs r <= 1) by (apply Rabs_le; split; nra).
  destruct (near_square e He k a r ltac:(lia) N) as (F & V0 & t & s & E & W & Hs).
  { apply Rle_trans with 1; [exact R1|]. change 1 with (pow2 0). apply pow2_le. lia. }
  assert (T := within_lin e He (k + k + 1) t ltac:(lia) W).
  assert (IK : INR (k + k + 1) <= 3) by (replace 3 with (INR 3) by (rewrite INR_IZR_INZ; reflexivity); apply le_INR; lia).
  assert (T4 : Rabs (t - 1) <= 4 * e) by (eapply Rle_trans; [exact T|apply Rmult_le_compat_r; lra]).
  assert (S1 : pow2 (-1075) <= ur) by (apply pow2_le; lia).
  set (v := real_of (dmul a a)) in *.
  assert (B : Rabs (v - r * r) <= 5 * e).
  { rewrite E. replace (r * r * t + s - r * r) with (r * r * (t - 1) + s) by ring. eapply Rle_trans; [apply Rabs_triang|].
    rewrite Rabs_mult, (Rabs_pos_eq (r * r)) by exact R2.
    assert (r * r * Rabs (t - 1) <= 1 * (4 * e)) by (apply Rmult_le_compat; [exact R2|apply Rabs_pos|lra|exact T4]). lra. }
  assert (B' := Rabs_le_inv _ _ B). assert (O : real_of one = 1) by exact (real_lit 1 eq_refl).
  assert (Hi : Rabs (real_of one - v) <= pow2 1023).
  { rewrite O. apply Rle_trans with (pow2 1); [|apply pow2_le; lia]. change (pow2 1) with 2. apply Rabs_le. split; lra. }
  destruct (dsub_round one (dmul a a) eq_refl F (fits _ Hi)) as [Fz Ez]. split; [exact Fz|].
  assert (Nm := nearest_sum one (dopp (dmul a a))). destruct Nm as (dl & D & Nm).
  assert (Op : real_of (dopp (dmul a a)) = - v) by (unfold real_of, dopp; rewrite B2R_Bopp; reflexivity).
  rewrite Op, O in Nm. replace (1 + - v) with (1 - v) in Nm by ring. fold v in Ez. rewrite O in Ez. rewrite Ez, Nm.
  assert (q0 : 0 < 1 - r * r) by lra. rewrite (Rabs_pos_eq (1 - r * r)) by lra.
  replace (8 / (1 - r * r) * e * (1 - r * r)) with (8 * e) by (field; lra).
  replace ((1 - v) * (1 + dl) - (1 - r * r)) with ((r * r - v) + dl * (1 - v)) by ring. eapply Rle_trans; [apply Rabs_triang|].
  rewrite Rabs_mult, (Rabs_minus_sym (r * r)), (Rabs_pos_eq (1 - v)) by lra.
  assert (Rabs dl * (1 - v) <= e * 2) by (apply Rmult_le_compat; [apply Rabs_pos|lra|lra|lra]). lra.
Qed.

(** from a relative error of the derivative *)
Lemma fin_close (M : cmath DN) e (F : R -> R) (mu d' : double) a d (K' K : R) : ur <= e <= pow2 (-20) ->
  close e mu (F a) -> is_derive F a d -> 0 <= K' -> K' + 2 <= K -> K * e <= / 2 -> close (K' * e) d' d ->
  close e mu (F a) /\ 0 <= K /\ K * e <= / 2 /\ exists d, is_derive F a d /\
    forall c, finite c -> regular (d * real_of c) -> close (K * e) (dmul c d') (d * real_of c).
Proof.
  intros He Cm D K0 KK KE C. assert (S := e_small e He). split; [exact Cm|]. split; [lra|]. split; [exact KE|]. exists d. split; [exact D|].
  intros c Fc Rg. apply (close_weaken ((K' + 2) * e)); [apply Rmult_le_compat_r; lra|]. apply coef_close; try assumption.
  eapply Rle_trans; [|exact KE]. apply Rmult_le_compat_r; lra.
Qed.
Lemma quot_ge1 c q : 0 <= c -> 0 < q <= 1 -> c <= c / q.
Proof. intros C Q. unfold Rdiv. rewrite <- (Rmult_1_r c) at 1. apply Rmult_le_compat_l; [exact C|]. rewrite <- Rinv_1. apply Rinv_le_contravar; lra. Qed.
Lemma quot_le c q e h : 0 <= c -> 0 < e -> 0 < q -> c * e <= h * q -> c / q * e <= h.
Proof. intros C E Q H. apply Rmult_le_reg_r with q; [exact Q|]. replace (c / q * e * q) with (c * e) by (field; lra). exact H. Qed.

Lemma q_rng e q : ur <= e <= pow2 (-20) -> 100 * e <= q <= 1 -> rng (-53 + -53) (0 + 0) q.
Proof.
  intros He H. assert (S := e_small e He). split; [|change (pow2 (0 + 0)) with 1; lra]. apply Rle_trans with ur; [apply pow2_le; lia|lra].
Qed.
Lemma A_atanh : accurate1 g_atanh (fun e a => 100 * e <= 1 - a * a) R_atanh (fun a => 15 / (1 - a * a)).
Proof.
  start (fun (M : cmath DN) (a : double) => c_atanh M a) (fun (M : cmath DN) (a : double) => ddiv (dofZ 1) (dsub (dofZ 1) (dmul a a))).
  set (r := real_of a) in *. assert (S := e_small e He). assert (R2 := Rle_0_sqr r). unfold Rsqr in R2.
  assert (Dm : -1 < r < 1) by (split; nra). set (q := 1 - r * r) in *. assert (Q : 0 < q <= 1) by (unfold q in *; lra).
  apply (fin_close M e R_atanh _ _ r (/ q) (13 / q) _ He).
  - apply A; auto.
  - exact (proj1 (proj2 D_atanh) r Dm).
  - apply Rmult_le_pos; [lra|left; apply Rinv_0_lt_compat; lra].
  - assert (X := quot_ge1 2 q ltac:(lra) Q). unfold Rdiv in *. lra.
  - apply quot_le; lra.
  - assert (C := one_minus e 0 a r He ltac:(lia) (near_exact e a Fa) Da). fold q in C.
    assert (C' := close_inv e (8 / q * e) 1 _ q He ltac:(lia) (proj1 Q) ltac:(unfold Rdiv; rewrite Rmult_1_l; apply (rng_regular _ _ _) with (3 := rng_inv _ _ _ (q_rng e q He (conj Da (proj2 Q)))); lia)
      ltac:(apply quot_le; lra) C).
    replace (/ q) with (1 / q) by (unfold Rdiv; ring). apply (close_weaken (4 / 3 * (8 / q * e) + 2 * e)); [|exact C'].
    assert (X := quot_ge1 2 q ltac:(lra) Q). assert (13 / q = 4 / 3 * (8 / q) + (7 / 3) * / q) by (field; lra).
    assert (2 <= 7 / 3 * / q) by (unfold Rdiv in X; assert (0 < / q) by (apply Rinv_0_lt_compat; lra); lra). nra.
Qed.

(** 1/sqrt(1 - r^2) *)
Lemma inv_sqrt_q e h z s q : ur <= e <= pow2 (-20) -> (z = 1 \/ z = -1)%Z -> 100 * e <= q <= 1 -> 0 <= h -> h * e <= / 8 -> close (h * e) s q ->
  close ((4 / 3 * h + 5) * e) (ddiv (dofZ z) (dsqrt s)) (IZR z / sqrt q).
Proof.
  intros He Hz Q H0 H1 C. assert (S := e_small e He). assert (Qr := q_rng e q He Q). assert (Sr := rng_sqrt (-53) 0 q Qr).
  assert (Sp := rng_pos _ _ _ Sr).
  assert (C1 := close_sqrt e (h * e) s q He ltac:(lra) ltac:(apply (rng_regular _ _ _) with (3 := Sr); lia) ltac:(lra) C).
  assert (Rz : regular (IZR z / sqrt q)).
  { assert (Ri := rng_inv _ _ _ Sr). assert (Rp := rng_pos _ _ _ Ri). right. unfold Rdiv. rewrite Rabs_mult, (Rabs_pos_eq (/ _)) by lra.
    replace (Rabs (IZR z)) with 1 by (destruct Hz as [-> | ->]; unfold Rabs; destruct (Rcase_abs _); lra). rewrite Rmult_1_l.
    destruct Ri as [Lo Hi]. split; [eapply Rle_trans; [|exact Lo]|eapply Rle_trans; [exact Hi|]]; apply pow2_le; lia. }
  assert (C2 := close_inv e (h * e + 2 * e) z _ (sqrt q) He ltac:(destruct Hz as [-> | ->]; cbn; lia) Sp Rz ltac:(lra) C1).
  apply (close_weaken (4 / 3 * (h * e + 2 * e) + 2 * e)); [lra|exact C2].
Qed.
Lemma A_asin : accurate1 g_asin (fun e a => 100 * e <= 1 - a * a) asin (fun a => 18 / (1 - a * a)).
Proof.
  start (fun (M : cmath DN) (a : double) => c_asin M a) (fun (M : cmath DN) (a : double) => ddiv (dofZ 1) (dsqrt (dsub (dofZ 1) (dmul a a)))).
  set (r := real_of a) in *. assert (S := e_small e He). assert (R2 := Rle_0_sqr r). unfold Rsqr in R2.
  assert (Dm : -1 < r < 1) by (split; nra). set (q := 1 - r * r) in *. assert (Q : 0 < q <= 1) by (unfold q in *; lra).
  assert (I0 : 0 < / q) by (apply Rinv_0_lt_compat; lra).
  assert (X := quot_ge1 1 q ltac:(lra) Q). unfold Rdiv in X. rewrite Rmult_1_l in X.
  apply (fin_close M e asin _ _ r (/ sqrt q) (16 / q) _ He).
  - apply A; auto. fold r. lra.
  - exact (proj1 (proj2 D_asin) r Dm).
  - apply Rmult_le_pos; lra.
  - unfold Rdiv. lra.
  - apply quot_le; lra.
  - assert (C := one_minus e 0 a r He ltac:(lia) (near_exact e a Fa) Da). fold q in C.
    assert (C' := inv_sqrt_q e (8 / q) 1 _ q He ltac:(auto) ltac:(lra) ltac:(unfold Rdiv; lra) ltac:(apply quot_le; lra) C).
    replace (/ sqrt q) with (1 / sqrt q) by (unfold Rdiv; ring).
    apply (close_weaken ((4 / 3 * (8 / q) + 5) * e)); [|exact C']. apply Rmult_le_compat_r; [lra|]. unfold Rdiv. lra.
Qed.
Lemma A_acos : accurate1 g_acos (fun e a => 100 * e <= 1 - a * a) acos (fun a => 18 / (1 - a * a)).
Proof.
  start (fun (M : cmath DN) (a : double) => c_acos M a) (fun (M : cmath DN) (a : double) => ddiv (dopp (dofZ 1)) (dsqrt (dsub (dofZ 1) (dmul a a)))).
  set (r := real_of a) in *. assert (S := e_small e He). assert (R2 := Rle_0_sqr r). unfold Rsqr in R2.
  assert (Dm : -1 < r < 1) by (split; nra). set (q := 1 - r * r) in *. assert (Q : 0 < q <= 1) by (unfold q in *; lra).
  assert (I0 : 0 < / q) by (apply Rinv_0_lt_compat; lra).
  assert (X := quot_ge1 1 q ltac:(lra) Q). unfold Rdiv in X. rewrite Rmult_1_l in X.
  replace (dopp (dofZ 1)) with (dofZ (-1)) by (apply B2SF_inj; reflexivity).
  apply (fin_close M e acos _ _ r (- / sqrt q) (16 / q) _ He).
  - apply A; auto. fold r. lra.
  - exact (proj1 (proj2 D_acos) r Dm).
  - apply Rmult_le_pos; lra.
  - unfold Rdiv. lra.
  - apply quot_le; lra.
  - assert (C := one_minus e 0 a r He ltac:(lia) (near_exact e a Fa) Da). fold q in C.
    assert (C' := inv_sqrt_q e (8 / q) (-1) _ q He ltac:(auto) ltac:(lra) ltac:(unfold Rdiv; lra) ltac:(apply quot_le; lra) C).
    replace (- / sqrt q) with (-1 / sqrt q) by (unfold Rdiv; ring).
    apply (close_weaken ((4 / 3 * (8 / q) + 5) * e)); [|exact C']. apply Rmult_le_compat_r; [lra|]. unfold Rdiv. lra.
Qed.
Lemma A_tanh : accurate1 g_tanh (fun e a => 100 * e <= 1 - tanh a * tanh a) tanh (fun a => 10 / (1 - tanh a * tanh a)).
Proof.
  start (fun (M : cmath DN) (a : double) => c_tanh M a) (fun (M : cmath DN) (a : double) => dsub (dofZ 1) (dmul (c_tanh M a) (c_tanh M a))).
  set (r := tanh (real_of a)) in *. assert (S := e_small e He). assert (R2 := Rle_0_sqr r). unfold Rsqr in R2.
  set (q := 1 - r * r) in *. assert (Q : 0 < q <= 1) by (unfold q in *; lra).
  assert (I0 : 0 < / q) by (apply Rinv_0_lt_compat; lra).
  assert (X := quot_ge1 1 q ltac:(lra) Q). unfold Rdiv in X. rewrite Rmult_1_l in X.
  assert (Ct : close e (c_tanh M a) r) by (apply A; auto).
  apply (fin_close M e tanh _ _ (real_of a) q (8 / q) _ He).
  - exact Ct.
  - exact (proj1 (proj2 D_tanh) (real_of a) I).
  - apply Rmult_le_pos; lra.
  - unfold Rdiv. lra.
  - apply quot_le; lra.
  - exact (one_minus e 1 _ r He ltac:(lia) (near_close e He _ _ Ct) Da).
Qed.

(** r^2 - 1 *)
Lemma minus_one e (a : double) : ur <= e <= pow2 (-20) -> finite a -> let r := real_of a in 1 < r <= pow2 500 -> 100 * e * (r * r) <= r * r - 1 ->
  close (4 * (r * r) / (r * r - 1) * e) (dsub (dmul a a) one) (r * r - 1).
Proof.
  intros He Fa r R1 Q. assert (S := e_small e He). assert (R2 : 1 < r * r) by nra. set (q := r * r - 1) in *. assert (q0 : 0 < q) by (unfold q; lra).
  assert (Ub : r * r <= pow2 1000). { change 1000%Z with (500 + 500)%Z. rewrite pow2_add. apply Rmult_le_compat; lra. }
  assert (L1 : pow2 (-1022) <= Rabs (r * r)).
  { rewrite Rabs_pos_eq by lra. apply Rle_trans with (pow2 0); [apply pow2_le; lia|]. change (pow2 0) with 1. lra. }
  assert (F2 : Rabs (r * r) <= pow2 1023) by (rewrite Rabs_pos_eq by lra; eapply Rle_trans; [exact Ub|apply pow2_le; lia]).
  destruct (dmul_round a a Fa Fa (fits _ F2)) as [F E]. assert (RE := rel_err _ L1). fold r in E. rewrite <- E in RE.
  rewrite (Rabs_pos_eq (r * r)) in RE by lra. set (v := real_of (dmul a a)) in *.
  assert (B : Rabs (v - r * r) <= e * (r * r)) by (eapply Rle_trans; [exact RE|apply Rmult_le_compat_r; [lra|exact (proj1 He)]]).
  assert (B' := Rabs_le_inv _ _ B). assert (O : real_of one = 1) by exact (real_lit 1 eq_refl).
  assert (Vu : 0 <= v - 1 <= 2 * (r * r)) by (unfold q in *; split; nra).
  assert (P1 : pow2 1001 = 2 * pow2 1000) by (change 1001%Z with (1 + 1000)%Z; now rewrite pow2_add).
  assert (Hi : Rabs (real_of (dmul a a) - real_of one) <= pow2 1023).
  { fold v. rewrite O, Rabs_pos_eq by lra. apply Rle_trans with (pow2 1001); [lra|apply pow2_le; lia]. }
  destruct (dsub_round (dmul a a) one F eq_refl (fits _ Hi)) as [Fz Ez]. split; [exact Fz|].
  assert (Nm := nearest_sum (dmul a a) (dopp one)). destruct Nm as (dl & D & Nm).
  assert (Op : real_of (dopp one) = -1) by (unfold real_of, dopp; rewrite B2R_Bopp; fold (real_of one); rewrite O; lra).
  rewrite Op in Nm. fold v in Nm, Ez. rewrite O in Ez. replace (v + -1) with (v - 1) in Nm by ring. rewrite Ez, Nm.
  rewrite (Rabs_pos_eq q) by lra. replace (4 * (r * r) / q * e * q) with (4 * (r * r) * e) by (field; lra).
  replace ((v - 1) * (1 + dl) - q) with ((v - r * r) + dl * (v - 1)) by (unfold q; ring). eapply Rle_trans; [apply Rabs_triang|].
  rewrite Rabs_mult, (Rabs_pos_eq (v - 1)) by lra.
  assert (Rabs dl * (v - 1) <= e * (2 * (r * r))) by (apply Rmult_le_compat; [apply Rabs_pos|lra|lra|lra]). nra.
Qed.
Lemma A_acosh : accurate1 g_acosh (fun e a => 1 < a <= pow2 500 /\ 100 * e * (a * a) <= a * a - 1) R_acosh (fun a => 14 * (a * a) / (a * a - 1)).
Proof.
  start (fun (M : cmath DN) (a : double) => c_acosh M a) (fun (M : cmath DN) (a : double) => ddiv (dofZ 1) (dsqrt (dsub (dmul a a) (dofZ 1)))).
  destruct Da as [Dm Da]. assert (C := minus_one e a He Fa Dm Da).
  set (r := real_of a) in *. assert (S := e_small e He). assert (R2 : 1 < r * r) by nra. set (q := r * r - 1) in *. assert (q0 : 0 < q) by (unfold q; lra).
  assert (Ub : r * r <= pow2 1000). { change 1000%Z with (500 + 500)%Z. rewrite pow2_add. apply Rmult_le_compat; lra. }
  assert (I0 : 0 < / q) by (apply Rinv_0_lt_compat; lra).
  assert (X : 1 <= r * r / q). { apply Rmult_le_reg_r with q; [exact q0|]. unfold Rdiv. rewrite Rmult_assoc, Rinv_l by lra. unfold q. lra. }
  set (g := r * r / q) in *. assert (G : forall c, c * (r * r) / q = c * g) by (intro; unfold g, Rdiv; ring).
  assert (GE : 100 * (g * e) <= 1). { replace (100 * (g * e)) with (100 * e * (r * r) / q) by (unfold g, Rdiv; ring). apply Rmult_le_reg_r with q; [exact q0|]. unfold Rdiv. rewrite Rmult_assoc, Rinv_l by lra. lra. }
  rewrite G in C |- *.
  assert (Qr : rng (-500 + -500) (500 + 500) q).
  { split; [|change (500 + 500)%Z with 1000%Z; unfold q; lra]. apply Rle_trans with ur; [apply pow2_le; lia|]. nra. }
  assert (Sr := rng_sqrt _ _ _ Qr). assert (Sp := rng_pos _ _ _ Sr).
  apply (fin_close M e R_acosh _ _ r (/ sqrt q) (4 / 3 * (4 * g) + 6) _ He).
  - apply A; auto. fold r. lra.
  - exact (proj1 (proj2 D_acosh) r (proj1 Dm)).
  - lra.
  - lra.
  - lra.
  - assert (C1 := close_sqrt e (4 * g * e) _ q He q0 ltac:(apply (rng_regular _ _ _) with (3 := Sr); lia) ltac:(lra) C).
    assert (Ri := rng_inv _ _ _ Sr).
    assert (C2 := close_inv e (4 * g * e + 2 * e) 1 _ (sqrt q) He ltac:(lia) Sp
      ltac:(unfold Rdiv; rewrite Rmult_1_l; apply (rng_regular _ _ _) with (3 := Ri); lia) ltac:(lra) C1).
    replace (/ sqrt q) with (1 / sqrt q) by (unfold Rdiv; ring).
    apply (close_weaken (4 / 3 * (4 * g * e + 2 * e) + 2 * e)); [lra|exact C2].
Qed.
