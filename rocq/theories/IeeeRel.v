(** * IeeeRel: a calculus of relative errors *)

From Coq Require Import List ZArith Reals Bool Lra Lia Psatz.
From Coquelicot Require Import Coquelicot.
From Flocq Require Import Core BinarySingleNaN.
From Verif Require Import Base Num Map UReal World Ieee IeeeFacts SpecIeee IeeeProofs IeeeProofs2 IeeeProofs3 IeeeProofs4 IeeeCov
  Nan Math SpecMathIeee.
Import ListNotations.
Local Open Scope R_scope.

(** [t] is a product of [k] factors 1 + d or 1 / (1 + d) with |d| <= e *)
Definition within (e : R) (k : nat) (t : R) : Prop := (1 - e) ^ k <= t <= / (1 - e) ^ k.
Definition near (e : R) (k : nat) (a : double) (r : R) : Prop := finite a /\ exists t, real_of a = r * t /\ within e k t.

Section Rel.
  Variable e : R.
  Hypothesis He : ur <= e <= pow2 (-20).

  Lemma e_small : 0 < e <= / 1000000.
  Proof.
    assert (U := ur_small). assert (E : pow2 (-20) = / 1048576) by reflexivity. split; [lra|].
    rewrite E in He. lra.
  Qed.
  Lemma pw_pos k : 0 < (1 - e) ^ k. Proof. apply pow_lt. assert (S := e_small). lra. Qed.
  Lemma pw_le1 k : (1 - e) ^ k <= 1.
  Proof. assert (S := e_small). assert (P := pow_incr (1 - e) 1 k ltac:(lra)). rewrite pow1 in P. exact P. Qed.
  Lemma pw_lin k : 1 - INR k * e <= (1 - e) ^ k.
  Proof.
    assert (S := e_small). induction k as [|k IH]; [change (INR 0) with 0; rewrite pow_O; lra|]. rewrite S_INR. cbn [pow].
    assert (P := pw_le1 k). assert (P0 := pw_pos k). assert (Q := pos_INR k). nra.
  Qed.
  Lemma pw_half k : (k <= 1000)%nat -> / 2 <= (1 - e) ^ k.
  Proof.
    intro H. assert (P := pw_lin k). assert (S := e_small). apply le_INR in H. replace (INR 1000) with 1000 in H by (rewrite INR_IZR_INZ; reflexivity).
    assert (Q := pos_INR k). assert (INR k * e <= 1000 * / 1000000) by (apply Rmult_le_compat; lra). lra.
  Qed.
  Lemma pw_mono k k' : (k <= k')%nat -> (1 - e) ^ k' <= (1 - e) ^ k.
  Proof.
    intro H. replace k' with (k + (k' - k))%nat by lia. rewrite pow_add. assert (A := pw_pos k). assert (B := pw_le1 (k' - k)).
    nra.
  Qed.
  Lemma within_weaken k k' t : (k <= k')%nat -> within e k t -> within e k' t.
  Proof.
    intros H [A B]. assert (M := pw_mono k k' H). assert (P := pw_pos k'). split; [lra|].
    eapply Rle_trans; [exact B|]. apply Rinv_le_contravar; [exact P|exact M].
  Qed.
  Lemma within_pos k t : within e k t -> 0 < t.
  Proof. intros [A _]. assert (P := pw_pos k). lra. Qed.
  Lemma within_1 : within e 0 1. Proof. split; rewrite pow_O; [lra|rewrite Rinv_1; lra]. Qed.
  Lemma within_one k : within e k 1. Proof. apply (within_weaken 0); [lia|apply within_1]. Qed.
  Lemma within_mul k l s t : within e k s -> within e l t -> within e (k + l) (s * t).
  Proof.
    intros [A B] [C D]. assert (P := pw_pos k). assert (Q := pw_pos l). split; rewrite pow_add.
    - apply Rmult_le_compat; lra.
    - rewrite Rinv_mult_distr by lra. apply Rmult_le_compat; lra.
  Qed.
  Lemma within_inv k t : within e k t -> within e k (/ t).
  Proof.
    intros [A B]. assert (P := pw_pos k). split.
    - rewrite <- (Rinv_involutive ((1 - e) ^ k)) by lra. apply Rinv_le_contravar; lra.
    - apply Rinv_le_contravar; lra.
  Qed.
  Lemma within_sqrt k t : within e k t -> within e k (sqrt t).
  Proof.
    intros [A B]. assert (P := pw_pos k). assert (L := pw_le1 k). split.
    - apply Rle_trans with (sqrt ((1 - e) ^ k)); [|now apply sqrt_le_1_alt].
      rewrite <- (sqrt_square ((1 - e) ^ k)) at 1 by lra. apply sqrt_le_1_alt. nra.
    - apply Rle_trans with (sqrt (/ (1 - e) ^ k)); [now apply sqrt_le_1_alt|].
      assert (I := Rinv_le_contravar _ _ P L). rewrite Rinv_1 in I. generalize dependent (/ (1 - e) ^ k). intros q _ I.
      rewrite <- (sqrt_square q) at 2 by lra. apply sqrt_le_1_alt. nra.
  Qed.
  Lemma within_delta dl : Rabs dl <= e -> within e 1 (1 + dl).
  Proof.
    intro H. apply Rabs_le_inv in H. assert (S := e_small). split; rewrite pow_1; [lra|].
    apply Rmult_le_reg_r with (1 - e); [lra|]. rewrite Rinv_l by lra. nra.
  Qed.
  Lemma within_2 k t : (k <= 1000)%nat -> within e k t -> / 2 <= t <= 2.
  Proof.
    intros H [A B]. assert (P := pw_half k H). split; [lra|]. eapply Rle_trans; [exact B|].
    rewrite <- (Rinv_involutive 2) by lra. apply Rinv_le_contravar; lra.
  Qed.
  (** a weighted mean *)
  Lemma within_mean k r s t1 t2 : 0 <= r -> 0 <= s -> 0 < r + s -> within e k t1 -> within e k t2 ->
    exists t, r * t1 + s * t2 = (r + s) * t /\ within e k t.
  Proof.
    intros R0 S0 P [A B] [C D]. exists ((r * t1 + s * t2) / (r + s)). split; [field; lra|]. split.
    - apply Rmult_le_reg_r with (r + s); [exact P|]. unfold Rdiv. rewrite Rmult_assoc, Rinv_l, Rmult_1_r by lra. nra.
    - apply Rmult_le_reg_r with (r + s); [exact P|]. unfold Rdiv. rewrite Rmult_assoc, Rinv_l, Rmult_1_r by lra. nra.
  Qed.
  Lemma within_lin k t : (k <= 500)%nat -> within e k t -> Rabs (t - 1) <= (INR k + 1) * e.
  Proof.
    intros H [A B]. assert (P := pw_lin k). assert (S := e_small). apply le_INR in H. replace (INR 500) with 500 in H by (rewrite INR_IZR_INZ; reflexivity).
    assert (Q := pos_INR k). assert (KE : INR k * e <= 500 * / 1000000) by (apply Rmult_le_compat; lra).
    assert (P0 := pw_pos k). apply Rabs_le. split; [lra|].
    assert (B' : / (1 - e) ^ k <= / (1 - INR k * e)) by (apply Rinv_le_contravar; lra).
    assert (G : / (1 - INR k * e) <= 1 + (INR k + 1) * e).
    { apply Rmult_le_reg_r with (1 - INR k * e); [lra|]. rewrite Rinv_l by lra.
      assert (K2 : INR k * (INR k + 1) * e <= 1 / 2).
      { apply Rle_trans with (500 * 501 * / 1000000); [|lra]. apply Rmult_le_compat; [nra|lra|nra|lra]. }
      replace ((1 + (INR k + 1) * e) * (1 - INR k * e)) with (1 + e * (1 - INR k * (INR k + 1) * e)) by ring.
      assert (0 <= e * (1 - INR k * (INR k + 1) * e)) by (apply Rmult_le_pos; lra). lra. }
    lra.
  Qed.

  Lemma near_exact a : finite a -> near e 0 a (real_of a).
  Proof. intro F. split; [exact F|]. exists 1. split; [ring|apply within_1]. Qed.
  Lemma near_weaken k k' a r : (k <= k')%nat -> near e k a r -> near e k' a r.
  Proof. intros H [F (t & E & W)]. split; [exact F|]. exists t. split; [exact E|]. now apply (within_weaken k). Qed.
  Lemma near_close a r : close e a r -> near e 1 a r.
  Proof.
    intros [F H]. split; [exact F|]. destruct (Req_dec r 0) as [->|N].
    - exists 1. split; [|apply within_one]. rewrite Rabs_R0, Rmult_0_r in H. unfold Rminus in H. rewrite Ropp_0, Rplus_0_r in H.
      assert (Q := Rabs_pos (real_of a)). assert (Z : Rabs (real_of a) = 0) by lra.
      destruct (Req_dec (real_of a) 0) as [->|N]; [ring|]. apply Rabs_no_R0 in N. contradiction.
    - exists (1 + (real_of a - r) / r). split; [field; exact N|]. apply within_delta. unfold Rdiv. rewrite Rabs_mult, Rabs_inv.
      assert (P := Rabs_pos_lt r N). apply Rmult_le_reg_r with (Rabs r); [exact P|]. rewrite Rmult_assoc, Rinv_l, Rmult_1_r by lra. exact H.
  Qed.
  Lemma close_near k a r : (k <= 500)%nat -> near e k a r -> close ((INR k + 1) * e) a r.
  Proof.
    intros H [F (t & E & W)]. split; [exact F|]. rewrite E. replace (r * t - r) with ((t - 1) * r) by ring. rewrite Rabs_mult.
    apply Rmult_le_compat_r; [apply Rabs_pos|]. now apply within_lin.
  Qed.
  Lemma near_opp k a r : near e k a r -> near e k (dopp a) (- r).
  Proof.
    intros [F (t & E & W)]. split; [unfold finite, dopp; now rewrite is_finite_Bopp|]. exists t. split; [|exact W].
    unfold real_of, dopp in *. rewrite B2R_Bopp, E. ring.
  Qed.
  Lemma near_eq k a r s : r = s -> near e k a r -> near e k a s. Proof. now intros ->. Qed.

  (** rounding a number known up to the factor [t] *)
  Lemma near_round k (a : double) (r t : R) : (k <= 999)%nat -> regular r -> within e k t ->
    (no_overflow (r * t) -> finite a /\ real_of a = nearest (r * t)) -> near e (S k) a r.
  Proof.
    intros K Rg W H. assert (T2 := within_2 k t ltac:(lia) W).
    destruct Rg as [->|[L U]].
    - rewrite Rmult_0_l in H. assert (Z : nearest 0 = 0) by (apply round_0, valid_rnd_N).
      destruct H as [F E]; [unfold no_overflow; rewrite Z, Rabs_R0; apply pow2_pos|]. split; [exact F|].
      exists 1. split; [rewrite E, Z; ring|apply within_one].
    - assert (P21 : pow2 (-1021) = 2 * pow2 (-1022)) by (unfold pow2; change (-1021)%Z with (1 + -1022)%Z; rewrite bpow_plus; f_equal).
      assert (P23 : pow2 1023 = 2 * pow2 1022) by (unfold pow2; change 1023%Z with (1 + 1022)%Z; rewrite bpow_plus; f_equal).
      assert (Ab : Rabs (r * t) = Rabs r * t) by (rewrite Rabs_mult, (Rabs_pos_eq t); lra).
      assert (Q := Rabs_pos r). assert (B0 := pow2_pos (-1022)). assert (B1 := pow2_pos 1022).
      assert (Lo : pow2 (-1022) <= Rabs (r * t)) by (rewrite Ab; nra).
      assert (Hi : Rabs (r * t) <= pow2 1023) by (rewrite Ab; nra).
      destruct (H (fits _ Hi)) as [F E]. split; [exact F|].
      assert (RE := rel_err _ Lo). assert (Nz : r * t <> 0) by (intro Z; rewrite Z, Rabs_R0 in Lo; lra).
      exists (t * (1 + (nearest (r * t) - r * t) / (r * t))). split.
      + rewrite E. assert (r <> 0 /\ t <> 0) by (split; intros ->; apply Nz; ring). field. tauto.
      + replace (S k) with (k + 1)%nat by lia. apply within_mul; [exact W|]. apply within_delta. unfold Rdiv. rewrite Rabs_mult, Rabs_inv.
        assert (P := Rabs_pos_lt _ Nz). apply Rmult_le_reg_r with (Rabs (r * t)); [exact P|]. rewrite Rmult_assoc, Rinv_l, Rmult_1_r by lra.
        eapply Rle_trans; [exact RE|]. apply Rmult_le_compat_r; [lra|]. exact (proj1 He).
  Qed.
  Lemma near_mul k l a b r s : (k + l <= 999)%nat -> near e k a r -> near e l b s -> regular (r * s) -> near e (S (k + l)) (dmul a b) (r * s).
  Proof.
    intros K [Fa (t1 & E1 & W1)] [Fb (t2 & E2 & W2)] Rg.
    apply (near_round (k + l) _ _ (t1 * t2)); [lia|exact Rg|now apply within_mul|].
    replace (r * s * (t1 * t2)) with (real_of a * real_of b) by (rewrite E1, E2; ring). now apply dmul_round.
  Qed.
  Lemma near_div k l a b r s : (k + l <= 999)%nat -> near e k a r -> near e l b s -> s <> 0 -> regular (r / s) -> near e (S (k + l)) (ddiv a b) (r / s).
  Proof.
    intros K [Fa (t1 & E1 & W1)] [Fb (t2 & E2 & W2)] Ns Rg. assert (T2 := within_pos _ _ W2).
    assert (Nb : real_of b <> 0) by (rewrite E2; apply Rmult_integral_contrapositive; lra).
    apply (near_round (k + l) _ _ (t1 * / t2)); [lia|exact Rg|apply within_mul; [exact W1|now apply within_inv]|].
    replace (r / s * (t1 * / t2)) with (real_of a / real_of b) by (rewrite E1, E2; field; split; [lra|exact Ns]). now apply ddiv_round.
  Qed.
  Lemma near_sqrt k a r : (k <= 999)%nat -> 0 <= r -> near e k a r -> regular (sqrt r) -> near e (S k) (dsqrt a) (sqrt r).
  Proof.
    intros K R0 [Fa (t & E & W)] Rg. assert (T := within_pos _ _ W).
    apply (near_round k _ _ (sqrt t)); [exact K|exact Rg|now apply within_sqrt|]. intros _.
    rewrite <- sqrt_mult_alt by exact R0. rewrite <- E. apply sqrt_d; [exact Fa|]. rewrite E. apply Rmult_le_pos; lra.
  Qed.
  Lemma near_add k a b r s : (k <= 999)%nat -> near e k a r -> near e k b s -> 0 <= r -> 0 <= s -> r + s <= pow2 1022 ->
    near e (S k) (dadd a b) (r + s).
  Proof.
    intros K [Fa (t1 & E1 & W1)] [Fb (t2 & E2 & W2)] R0 S0 U.
    assert (A1 := within_2 k _ ltac:(lia) W1). assert (A2 := within_2 k _ ltac:(lia) W2).
    assert (P23 : pow2 1023 = 2 * pow2 1022) by (unfold pow2; change 1023%Z with (1 + 1022)%Z; rewrite bpow_plus; f_equal).
    assert (Hi : Rabs (real_of a + real_of b) <= pow2 1023) by (rewrite E1, E2, Rabs_pos_eq; nra).
    destruct (dadd_round a b Fa Fb (fits _ Hi)) as [F E]. split; [exact F|].
    destruct (nearest_sum a b) as (dl & D & N). rewrite E, N.
    destruct (Req_dec (r + s) 0) as [Z|Nz].
    - exists 1. split; [|apply within_one]. assert (r = 0) by lra. assert (s = 0) by lra. subst. rewrite E1, E2. ring.
    - destruct (within_mean k r s t1 t2 R0 S0 ltac:(lra) W1 W2) as (t & Et & Wt). exists (t * (1 + dl)). split.
      + rewrite E1, E2, Et. ring.
      + replace (S k) with (k + 1)%nat by lia. apply within_mul; [exact Wt|]. apply within_delta. lra.
  Qed.
  Lemma near_lit z : Rabs (IZR z) <= 1024 -> near e 0 (dofZ z) (IZR z).
  Proof.
    intro H. assert (Zs : (Z.abs z <= 1024)%Z) by (apply le_IZR; rewrite abs_IZR; exact H).
    assert (C := binary_normalize_correct 53 1024 prec53 emax1024 mode_NE z 0 false).
    assert (E : round radix2 (SpecFloat.fexp 53 1024) (round_mode mode_NE) (F2R (Float radix2 z 0)) = IZR z).
    { rewrite round_generic; [unfold F2R; cbn; ring| apply valid_rnd_round_mode |].
      change (SpecFloat.fexp 53 1024) with (FLT_exp (-1074) 53). apply generic_format_FLT.
      exists (Float radix2 z 0); [reflexivity| |cbn; lia]. cbn [Fnum]. apply Z.le_lt_trans with 1024%Z; [exact Zs|reflexivity]. }
    cbv zeta in C. rewrite E in C. rewrite Rlt_bool_true in C.
    2:{ eapply Rle_lt_trans; [exact H|]. change 1024 with (bpow radix2 10). apply bpow_lt. lia. }
    destruct C as (C1 & C2 & _). split; [exact C2|]. exists 1. split; [unfold real_of, dofZ; rewrite C1; ring|apply within_1].
  Qed.
  (** 1 + r^2, where the square may underflow *)
  Lemma near_square k a r : (k <= 400)%nat -> near e k a r -> Rabs r <= pow2 500 ->
    finite (dmul a a) /\ 0 <= real_of (dmul a a) /\
    exists t s, real_of (dmul a a) = r * r * t + s /\ within e (k + k + 1) t /\ Rabs s <= pow2 (-1075).
  Proof.
    intros K [Fa (t & E & W)] U. assert (T2 := within_2 k t ltac:(lia) W).
    assert (Sq : r * r <= pow2 1000).
    { change 1000%Z with (500 + 500)%Z. rewrite pow2_add. assert (Q := Rabs_pos r).
      replace (r * r) with (Rabs r * Rabs r) by (unfold Rabs; destruct (Rcase_abs r); ring). apply Rmult_le_compat; assumption. }
    assert (P1 : pow2 1023 = 8388608 * pow2 1000) by (unfold pow2; change 1023%Z with (23 + 1000)%Z; rewrite bpow_plus; f_equal).
    assert (B := pow2_pos 1000). assert (R2 := Rle_0_sqr r). unfold Rsqr in R2.
    assert (Hi : Rabs (real_of a * real_of a) <= pow2 1023).
    { rewrite E. replace (r * t * (r * t)) with (r * r * (t * t)) by ring. assert (T4 : 0 <= t * t <= 4) by nra.
      rewrite Rabs_pos_eq by (apply Rmult_le_pos; lra). apply Rle_trans with (pow2 1000 * 4); [apply Rmult_le_compat; lra|lra]. }
    destruct (dmul_round a a Fa Fa (fits _ Hi)) as [F V]. split; [exact F|].
    split; [rewrite V; apply nearest_nonneg, Rle_0_sqr|].
    destruct (nearest_pm (real_of a * real_of a)) as (dl & s & D & Hs & N). exists (t * t * (1 + dl)), s. split.
    - rewrite V, N, E. ring.
    - split; [|exact Hs]. apply within_mul; [now apply within_mul|]. apply within_delta. lra.
  Qed.
End Rel.
Lemma near_1psq e k a r : ur <= e <= pow2 (-20) -> (k <= 400)%nat -> near e k a r -> Rabs r <= pow2 500 ->
  near e (k + k + 3) (dadd (dofZ 1) (dmul a a)) (1 + r * r).
Proof.
  intros He K N U. destruct (near_square e He k a r K N U) as (F & V0 & t & s & E & W & S).
  assert (T2 := within_2 e He (k + k + 1) t ltac:(lia) W). assert (R2 := Rle_0_sqr r). unfold Rsqr in R2.
  assert (P : pow2 1000 = pow2 500 * pow2 500) by (rewrite <- pow2_add; reflexivity). assert (P0 := pow2_pos 500).
  assert (Sq : r * r <= pow2 1000).
  { rewrite P. assert (Q := Rabs_pos r).
    replace (r * r) with (Rabs r * Rabs r) by (unfold Rabs; destruct (Rcase_abs r); ring). apply Rmult_le_compat; assumption. }
  assert (S1 : pow2 (-1075) <= ur) by (apply pow2_le; lia). assert (Us := ur_small).
  assert (P23 : pow2 1023 = 8388608 * pow2 1000) by (unfold pow2; change 1023%Z with (23 + 1000)%Z; rewrite bpow_plus; f_equal).
  assert (P1 : 1 <= pow2 1000) by (change 1 with (pow2 0); apply pow2_le; lia).
  assert (O := one_B2R). fold real_of in O. change (real_of (dofZ 1) = 1) in O.
  assert (Hi : Rabs (real_of (dofZ 1) + real_of (dmul a a)) <= pow2 1023).
  { rewrite O. apply Rabs_le_inv in S. rewrite Rabs_pos_eq by lra. rewrite E. assert (r * r * t <= pow2 1000 * 2) by (apply Rmult_le_compat; lra). lra. }
  destruct (dadd_round (dofZ 1) (dmul a a) eq_refl F (fits _ Hi)) as [Fz Ez]. split; [exact Fz|].
  destruct (nearest_sum (dofZ 1) (dmul a a)) as (dl & D & Nz). rewrite Ez, Nz, O, E.
  assert (W1 : within e (k + k + 1) 1) by (now apply within_one).
  assert (Q : 0 <= r * r * t) by (apply Rmult_le_pos; lra).
  destruct (within_mean e (k + k + 1) 1 (r * r) 1 t ltac:(lra) R2 ltac:(lra) W1 W) as (t' & Et & Wt).
  exists (t' * (1 + s / (1 + r * r * t)) * (1 + dl)). split.
  - rewrite <- Rmult_assoc, <- Rmult_assoc, <- Et. field. lra.
  - replace (k + k + 3)%nat with (k + k + 1 + 1 + 1)%nat by lia. repeat apply within_mul; try assumption.
    + apply (within_delta e He). unfold Rdiv. rewrite Rabs_mult, Rabs_inv, (Rabs_pos_eq (1 + _)) by lra.
      apply Rle_trans with (ur * 1); [|lra]. apply Rmult_le_compat; [apply Rabs_pos|left; apply Rinv_0_lt_compat; lra|lra|].
      rewrite <- Rinv_1. apply Rinv_le_contravar; lra.
    + apply (within_delta e He). lra.
Qed.
