(** * IeeeProofs3: rounding errors of means and deviations (C52, C56, C57) *)

From Coq Require Import List ZArith Reals Bool Lra Lia Psatz.
From Flocq Require Import Core Relative BinarySingleNaN.
From Verif Require Import Base Num Map UReal World URealFacts SpecObs URealProofs URealProofs2 Ieee IeeeFacts SpecIeee IeeeProofs IeeeProofs2.
Import ListNotations.
Local Open Scope R_scope.

#[local] Instance fexp64_valid : Valid_exp fexp64 := FLT_exp_valid (-1074) 53.
Lemma nearest_rnd r : nearest r = rnd64 r. Proof. reflexivity. Qed.
Lemma pow2_lt a b : (a < b)%Z -> pow2 a < pow2 b. Proof. apply bpow_lt. Qed.
Lemma pow2_le a b : (a <= b)%Z -> pow2 a <= pow2 b. Proof. apply bpow_le. Qed.
Lemma pow2_pos a : 0 < pow2 a. Proof. apply bpow_gt_0. Qed.
Lemma pow2_add a b : pow2 (a + b) = pow2 a * pow2 b. Proof. apply bpow_plus. Qed.

(** ** C52 *)
Lemma dadd_round a b : finite a -> finite b -> no_overflow (real_of a + real_of b) ->
  finite (dadd a b) /\ real_of (dadd a b) = nearest (real_of a + real_of b).
Proof.
  intros Fa Fb L. assert (H := Bplus_correct 53 1024 prec53 emax1024 mode_NE a b Fa Fb). rewrite Rlt_bool_true in H by exact L.
  destruct H as (H1 & H2 & _). split; [exact H2|exact H1].
Qed.
Lemma dsub_round a b : finite a -> finite b -> no_overflow (real_of a - real_of b) ->
  finite (dsub a b) /\ real_of (dsub a b) = nearest (real_of a - real_of b).
Proof.
  intros Fa Fb L. assert (H := Bminus_correct 53 1024 prec53 emax1024 mode_NE a b Fa Fb). rewrite Rlt_bool_true in H by exact L.
  destruct H as (H1 & H2 & _). split; [exact H2|exact H1].
Qed.
Lemma dmul_round a b : finite a -> finite b -> no_overflow (real_of a * real_of b) ->
  finite (dmul a b) /\ real_of (dmul a b) = nearest (real_of a * real_of b).
Proof.
  intros Fa Fb L. assert (H := Bmult_correct 53 1024 prec53 emax1024 mode_NE a b). rewrite Rlt_bool_true in H by exact L.
  destruct H as (H1 & H2 & _). split; [unfold finite, dmul; now rewrite H2, Fa, Fb|exact H1].
Qed.
Lemma ddiv_round a b : finite a -> real_of b <> 0 -> no_overflow (real_of a / real_of b) ->
  finite (ddiv a b) /\ real_of (ddiv a b) = nearest (real_of a / real_of b).
Proof.
  intros Fa Nb L. assert (H := Bdiv_correct 53 1024 prec53 emax1024 mode_NE a b Nb). rewrite Rlt_bool_true in H by exact L.
  destruct H as (H1 & H2 & _). split; [unfold finite, ddiv; now rewrite H2, Fa|exact H1].
Qed.

Lemma C52_mean_rounded_once_proof : forall w, dreachable w -> forall u v,
  let a := u_n (w_var w u) in let b := u_n (w_var w v) in
  finite a -> finite b ->
  (no_overflow (real_of a + real_of b) -> exists z, u_add (w_var w u) (w_var w v) = Ret z /\
     finite (u_n z) /\ real_of (u_n z) = nearest (real_of a + real_of b)) /\
  (no_overflow (real_of a - real_of b) -> exists z, u_sub (w_var w u) (w_var w v) = Ret z /\
     finite (u_n z) /\ real_of (u_n z) = nearest (real_of a - real_of b)) /\
  (no_overflow (real_of a * real_of b) -> exists z, u_mul (w_var w u) (w_var w v) = Ret z /\
     finite (u_n z) /\ real_of (u_n z) = nearest (real_of a * real_of b)) /\
  (finite (u_n (u_neg (w_var w u))) /\ real_of (u_n (u_neg (w_var w u))) = - real_of a).
Proof.
  intros w Rw u v a b Fa Fb. destruct (dreach_wwf w Rw) as [[_ W] B].
  assert (K : forall mu dx dy, exists z, u_binary (w_var w u) (w_var w v) mu dx dy = Ret z /\ u_n z = mu).
  { intros mu dx dy. destruct (binary_wf (w_last w) _ _ mu dx dy (W u) (W v) B) as (z & E & _ & M & _). exists z. auto. }
  split; [|split; [|split]].
  - intro L. destruct (K (nadd a b) n1 n1) as (z & E & M). exists z. split; [exact E|]. rewrite M. now apply dadd_round.
  - intro L. destruct (K (nsub a b) n1 (nopp n1)) as (z & E & M). exists z. split; [exact E|]. rewrite M. now apply dsub_round.
  - intro L. destruct (K (nmul a b) b a) as (z & E & M). exists z. split; [exact E|]. rewrite M. now apply dmul_round.
  - unfold u_neg, u_n. destruct (unary_wf (w_last w) (w_var w u) (nopp (umu (w_var w u))) (nopp n1) (W u)) as (_ & _ & M). rewrite M.
    split; [unfold finite; cbn [nopp DN]; unfold dopp; now rewrite is_finite_Bopp|]. apply B2R_Bopp.
Qed.

Lemma rel_err r : pow2 (-1022) <= Rabs r -> Rabs (nearest r - r) <= pow2 (-53) * Rabs r.
Proof.
  intro H. assert (E := relative_error_N_FLT radix2 (-1074) 53 eq_refl (fun x => negb (Z.even x)) r H).
  replace (/ 2 * bpow radix2 (- (53) + 1)) with (pow2 (-53)) in E; [exact E|].
  unfold pow2. change (-53)%Z with ((-1) + (-(53) + 1))%Z. rewrite bpow_plus. reflexivity.
Qed.
Lemma pow2_inv e : / pow2 e = pow2 (- e). Proof. unfold pow2. now rewrite bpow_opp. Qed.
Lemma u_small : 0 < pow2 (-53) < / 1000.
Proof. split; [apply pow2_pos|]. replace (pow2 (-53)) with (/ IZR (2 ^ 53)) by reflexivity. apply Rinv_lt_contravar; lra. Qed.
Lemma C52_quotient_partial_proof : forall w, dreachable w -> forall u v,
  let a := u_n (w_var w u) in let b := u_n (w_var w v) in
  finite a -> finite b ->
  pow2 (-1021) <= Rabs (real_of b) <= pow2 1021 ->
  (real_of a = 0 \/ pow2 (-1021) <= Rabs (real_of a / real_of b) <= pow2 1022) ->
  exists z, u_div (w_var w u) (w_var w v) = Ret z /\ finite (u_n z) /\
    Rabs (real_of (u_n z) - real_of a / real_of b) <= (pow2 (-52) + pow2 (-106)) * Rabs (real_of a / real_of b).
Proof.
  intros w Rw u v a b Fa Fb Hb Ha. destruct (dreach_wwf w Rw) as [[_ W] B].
  set (r := ndiv n1 b). set (m := nmul a r).
  destruct (binary_wf (w_last w) _ _ m r (nmul (nopp m) r) (W u) (W v) B) as (z & E & _ & M & _).
  exists z. split; [exact E|]. assert (Mz : u_n z = m) by exact M. rewrite Mz. clear E M Mz z.
  assert (U := u_small). assert (P := pow2_pos (-1021)).
  assert (Nb : real_of b <> 0) by (intro Z; rewrite Z, Rabs_R0 in Hb; lra).
  set (q := / real_of b).
  assert (Pb : 0 < Rabs (real_of b)) by lra.
  assert (Q1 : pow2 (-1021) <= Rabs q <= pow2 1021).
  { unfold q. rewrite Rabs_Rinv by exact Nb. 
    assert (I1 : pow2 (-1021) = / pow2 1021) by (rewrite pow2_inv; reflexivity).
    assert (I2 : pow2 1021 = / pow2 (-1021)) by (rewrite pow2_inv; reflexivity).
    split; [rewrite I1|rewrite I2]; apply Rinv_le; lra. }
  assert (E1 : Rabs (nearest q - q) <= pow2 (-53) * Rabs q).
  { apply rel_err. apply Rle_trans with (2 := proj1 Q1). apply pow2_le. lia. }
  assert (L1 : Rabs (nearest q) <= 2 * Rabs q).
  { replace (nearest q) with (q + (nearest q - q)) by ring. eapply Rle_trans; [apply Rabs_triang|]. assert (0 <= Rabs q) by apply Rabs_pos. nra. }
  assert (T1 : 2 * pow2 1021 = pow2 1022) by (change 2 with (pow2 1); rewrite <- pow2_add; reflexivity).
  assert (T2 : 2 * pow2 1022 = pow2 1023) by (change 2 with (pow2 1); rewrite <- pow2_add; reflexivity).
  assert (T3 : 2 * pow2 1023 = pow2 1024) by (change 2 with (pow2 1); rewrite <- pow2_add; reflexivity).
  assert (T4 : 2 * pow2 (-1022) = pow2 (-1021)) by (change 2 with (pow2 1); rewrite <- pow2_add; reflexivity).
  assert (Ov : Rabs (nearest q) < pow2 1024) by lra.
  destruct (ddiv_round (dofZ 1) b eq_refl Nb) as [Fr Er].
  { unfold no_overflow. change (real_of (dofZ 1)) with (B2R (dofZ 1)). rewrite one_B2R. unfold Rdiv. rewrite Rmult_1_l. exact Ov. }
  change (real_of (dofZ 1)) with (B2R (dofZ 1)) in Er. rewrite one_B2R in Er. unfold Rdiv in Er. rewrite Rmult_1_l in Er.
  change (ddiv (dofZ 1) b) with r in Fr, Er. fold q in Er.
  assert (Eq : real_of a / real_of b = real_of a * q) by reflexivity. rewrite Eq in *. clear Eq.
  assert (P4 := pow2_pos (-1022)).
  assert (Er' : Rabs (real_of a * nearest q - real_of a * q) <= pow2 (-53) * Rabs (real_of a * q)).
  { replace (real_of a * nearest q - real_of a * q) with (real_of a * (nearest q - q)) by ring. rewrite !Rabs_mult.
    assert (0 <= Rabs (real_of a)) by apply Rabs_pos. nra. }
  set (t := real_of a * nearest q) in *.
  assert (E2 : Rabs (nearest t - t) <= pow2 (-53) * Rabs t /\ Rabs t <= 2 * Rabs (real_of a * q) /\ Rabs (real_of a * q) <= pow2 1022).
  { destruct Ha as [Z|Ha].
    - unfold t. rewrite Z, !Rmult_0_l, Rabs_R0. unfold nearest. rewrite round_0 by apply valid_rnd_N. rewrite Rminus_0_r, Rabs_R0.
      assert (Q := pow2_pos 1022). lra.
    - assert (G : Rabs (real_of a * q) - Rabs (t - real_of a * q) <= Rabs t <= Rabs (real_of a * q) + Rabs (t - real_of a * q)).
      { split.
        - assert (Tr := Rabs_triang t (- (t - real_of a * q))). replace (t + - (t - real_of a * q)) with (real_of a * q) in Tr by ring. rewrite Rabs_Ropp in Tr. lra.
        - assert (Tr := Rabs_triang (real_of a * q) (t - real_of a * q)). replace (real_of a * q + (t - real_of a * q)) with t in Tr by ring. lra. }
      split; [|split; [nra|lra]]. apply rel_err. nra. }
  destruct E2 as (E2 & E3 & E4).
  assert (A0 : 0 <= Rabs (real_of a * q)) by apply Rabs_pos.
  assert (L2 : Rabs (nearest t) < pow2 1024).
  { replace (nearest t) with (t + (nearest t - t)) by ring. eapply Rle_lt_trans; [apply Rabs_triang|]. nra. }
  destruct (dmul_round a r Fa Fr) as [Fm Em].
  { unfold no_overflow. rewrite Er. exact L2. }
  rewrite Er in Em. fold t in Em. split; [exact Fm|].
  change (real_of m) with (real_of (dmul a r)). rewrite Em.
  replace (nearest t - real_of a * q) with ((nearest t - t) + (t - real_of a * q)) by ring.
  eapply Rle_trans; [apply Rabs_triang|].
  assert (Tt : Rabs t <= (1 + pow2 (-53)) * Rabs (real_of a * q)).
  { assert (Tr := Rabs_triang (real_of a * q) (t - real_of a * q)). replace (real_of a * q + (t - real_of a * q)) with t in Tr by ring. lra. }
  replace (pow2 (-52)) with (2 * pow2 (-53)) by (change 2 with (pow2 1); rewrite <- pow2_add; reflexivity).
  replace (pow2 (-106)) with (pow2 (-53) * pow2 (-53)) by (rewrite <- pow2_add; reflexivity).
  nra.
Qed.

(** ** C56: sqrt (x * x) = x *)
Lemma round_close (x y h : R) : generic_format radix2 fexp64 x -> 0 < x ->
  x <> bpow radix2 (mag radix2 x - 1) -> h = / 2 * ulp radix2 fexp64 x -> x - h < y < x + h -> nearest y = x.
Proof.
  intros F P Nb Eh [A B]. subst h. unfold nearest. change (FLT_exp (-1074) 53) with fexp64. apply Rle_antisym.
  - apply round_N_le_midp; [apply fexp64_valid|exact F|]. rewrite succ_eq_pos by lra. lra.
  - apply round_N_ge_midp; [apply fexp64_valid|exact F|]. rewrite pred_eq_pos by lra. unfold pred_pos. rewrite Req_bool_false by exact Nb. lra.
Qed.
Lemma rnd_sqrt_square (x : R) : generic_format radix2 fexp64 x -> pow2 (-511) <= x <= pow2 511 ->
  nearest (sqrt (nearest (x * x))) = x.
Proof.
  intros F [H1 H2]. assert (P : 0 < x) by (eapply Rlt_le_trans; [apply (pow2_pos (-511))|exact H1]).
  set (k := (mag radix2 x - 1)%Z).
  assert (Bk : pow2 k <= x < pow2 (k + 1)).
  { unfold k. replace (mag radix2 x - 1 + 1)%Z with (mag radix2 x : Z) by ring. destruct (mag radix2 x) as [e He]; cbn [mag_val].
    rewrite <- (Rabs_pos_eq x) by lra. apply He. lra. }
  assert (K1 : (-511 <= k)%Z). { apply Z.lt_succ_r. unfold Z.succ. apply (lt_bpow radix2). eapply Rle_lt_trans; [exact H1|apply Bk]. }
  assert (K2 : (k <= 511)%Z). { apply (le_bpow radix2). eapply Rle_trans; [apply Bk|exact H2]. }
  destruct (Req_dec x (pow2 k)) as [E|N].
  - assert (Fs : nearest (x * x) = x * x).
    { unfold nearest. apply round_generic; [apply valid_rnd_N|]. rewrite E. unfold pow2. rewrite <- bpow_plus. apply generic_format_bpow. unfold FLT_exp. lia. }
    rewrite Fs, sqrt_square by lra. unfold nearest. apply round_generic; [apply valid_rnd_N|exact F].
  - assert (Ul : ulp radix2 fexp64 x = pow2 (k - 52)).
    { rewrite ulp_neq_0 by lra. unfold cexp, SpecFloat.fexp, SpecFloat.emin. unfold pow2. f_equal. unfold k in *. lia. }
    assert (Up : x <= pow2 (k + 1) - pow2 (k - 52)).
    { assert (Ff := F). unfold generic_format, F2R in Ff. cbn [Fnum Fexp] in Ff.
      set (m := Ztrunc (scaled_mantissa radix2 fexp64 x)) in Ff.
      assert (Ce : cexp radix2 fexp64 x = (k - 52)%Z) by (unfold cexp, SpecFloat.fexp, SpecFloat.emin, k in *; lia).
      rewrite Ce in Ff. assert (Em : pow2 (k + 1) = IZR (2 ^ 53) * pow2 (k - 52)).
      { replace (IZR (2 ^ 53)) with (pow2 53) by reflexivity. rewrite <- pow2_add. f_equal. ring. }
      assert (Q := pow2_pos (k - 52)). rewrite Em in Bk |- *.
      assert (Lt : (m < 2 ^ 53)%Z). { apply lt_IZR. fold (pow2 (k - 52)) in Ff. nra. }
      assert (Le : IZR m <= IZR (2 ^ 53 - 1)) by (apply IZR_le; lia). rewrite minus_IZR in Le. fold (pow2 (k - 52)) in Ff. rewrite Ff. nra. }
    assert (T : pow2 (k + 1) = 2 * pow2 k) by (rewrite pow2_add; change (pow2 1) with 2; ring).
    assert (Hu : pow2 (k - 52) = 2 * pow2 (-53) * pow2 k).
    { replace (k - 52)%Z with (1 + ((-53) + k))%Z by ring. rewrite !pow2_add. change (pow2 1) with 2. ring. }
    assert (U := u_small). assert (Pk := pow2_pos k). set (u := pow2 (-53)) in *.
    assert (Er : Rabs (nearest (x * x) - x * x) <= u * (x * x)).
    { rewrite <- (Rabs_pos_eq (x * x)) at 3 by nra. apply rel_err. rewrite Rabs_pos_eq by nra.
      replace (-1022)%Z with (-511 + -511)%Z by reflexivity. rewrite pow2_add. assert (Q := pow2_pos (-511)). nra. }
    apply Rabs_le_inv in Er. set (p := nearest (x * x)) in *.
    assert (Pp : 0 <= p) by nra.
    apply (round_close x (sqrt p) (u * pow2 k)); [exact F|exact P|exact N| |].
    + rewrite Ul, Hu. field.
    + assert (B1 : u * pow2 k < x) by nra. split.
      * rewrite <- (sqrt_Rsqr (x - u * pow2 k)) by lra. apply sqrt_lt_1_alt. unfold Rsqr. split; [nra|].
        assert (G : x * (2 * pow2 k - x) >= pow2 k * (2 * u * pow2 k)) by nra.
        clearbody u p. revert Pk B1 G. generalize (pow2 k). intros K Pk B1 G.
        assert (KK : 0 < K * K) by (apply Rmult_lt_0_compat; lra).
        assert (Q : 0 < u * u * (K * K)) by (apply Rmult_lt_0_compat; [apply Rmult_lt_0_compat; lra|lra]).
        assert (G' : u * (x * (2 * K - x)) >= u * (K * (2 * u * K))) by (apply Rmult_ge_compat_l; lra). lra.
      * rewrite <- (sqrt_Rsqr (x + u * pow2 k)) by nra. apply sqrt_lt_1_alt. unfold Rsqr. split; [exact Pp|].
        clearbody u p. rewrite T in Bk. revert Pk Bk. generalize (pow2 k). intros K Pk Bk.
        assert (Q : u * (x * x) < u * (2 * K * x)) by (apply Rmult_lt_compat_l; [lra|]; apply Rmult_lt_compat_r; lra).
        assert (Q2 : 0 < u * u * (K * K)) by (apply Rmult_lt_0_compat; apply Rmult_lt_0_compat; lra). lra.
Qed.
Lemma sqrt_square_d (a : double) : finite a -> pow2 (-511) <= Rabs (real_of a) <= pow2 511 ->
  dsqrt (dadd dzero (dmul a a)) = dabs a.
Proof.
  intros Fa H. assert (P := pow2_pos (-511)).
  assert (Ff : generic_format radix2 fexp64 (Rabs (real_of a))) by (apply generic_format_abs, B2R_format).
  assert (Sq : real_of a * real_of a = Rabs (real_of a) * Rabs (real_of a)) by (rewrite <- Rabs_mult; symmetry; apply Rabs_pos_eq; nra).
  set (x := Rabs (real_of a)) in *. assert (Kx := rnd_sqrt_square x Ff H).
  assert (Er : Rabs (nearest (x * x) - x * x) <= pow2 (-53) * (x * x)).
  { rewrite <- (Rabs_pos_eq (x * x)) at 3 by nra. apply rel_err. rewrite Rabs_pos_eq by nra.
    replace (-1022)%Z with (-511 + -511)%Z by reflexivity. rewrite pow2_add. nra. }
  assert (U := u_small). apply Rabs_le_inv in Er.
  assert (L : x * x <= pow2 1022). { replace 1022%Z with (511 + 511)%Z by reflexivity. rewrite pow2_add. nra. }
  assert (T2 : 2 * pow2 1022 = pow2 1023) by (change 2 with (pow2 1); rewrite <- pow2_add; reflexivity).
  assert (T3 : 2 * pow2 1023 = pow2 1024) by (change 2 with (pow2 1); rewrite <- pow2_add; reflexivity).
  assert (Pp : 0 < nearest (x * x)) by nra.
  destruct (dmul_round a a Fa Fa) as [Fm Em].
  { unfold no_overflow. rewrite Sq. rewrite Rabs_pos_eq by lra. assert (Q := pow2_pos 1022). nra. }
  rewrite Sq in Em. set (d := dmul a a) in *.
  assert (E0 : dadd dzero d = d).
  { destruct d as [s|s| |s m e Hm]; try reflexivity. exfalso. cbn in Em. lra. }
  rewrite E0. destruct (Bsqrt_correct 53 1024 prec53 emax1024 mode_NE d) as (R1 & R2 & R3).
  assert (Fs : is_finite (dsqrt d) = true).
  { unfold dsqrt. rewrite R2. destruct d as [s|s| |[|] m e Hm]; try reflexivity; try discriminate Fm. 
    assert (real_of (B754_finite true m e Hm) < 0) by (apply F2R_lt_0; reflexivity). lra. }
  assert (Ev : B2R (dsqrt d) = x).
  { unfold dsqrt. rewrite R1. change (B2R d) with (real_of d). rewrite Em. exact Kx. }
  apply B2R_inj.
  - destruct (dsqrt d); try reflexivity; try discriminate Fs. cbn in Ev. lra.
  - unfold finite in Fa. destruct a as [s|s| |s m e Hm]; try reflexivity; try discriminate Fa. exfalso. unfold x in H. cbn in H. rewrite Rabs_R0 in H. lra.
  - rewrite Ev. unfold dabs. now rewrite B2R_Babs.
Qed.

(** x + c, c + x and x - c, where c is a number *)
Lemma ufind_const k (n : DN) : ufind k (u_const n : ureal DN) = None. Proof. reflexivity. Qed.
Lemma dep_s (z : ureal DN) : uid z = invalid_id -> usdev z = nopp n1 -> u_s z = dsqrt (u_s2 z).
Proof. intros U Sd. unfold u_s. rewrite U, Sd. reflexivity. Qed.
Lemma single_sigma last (z : ureal DN) i (a : double) : wf last z -> uid z = invalid_id ->
  (forall k, ufind k z = if (k =? i)%Z then Some a else None) -> usigma z = [(i, a)].
Proof.
  intros W U F. assert (S1 : msorted (V := double) [(i, a)]) by repeat constructor.
  apply (msorted_ext (V := double)); [apply W|exact S1|]. intro k. specialize (F k). unfold ufind in F. rewrite U in F. exact (eq_trans F (eq_sym (single_find (N := DN) k i a))).
Qed.
Lemma safe_sqrt (a : double) : safe_dev (dabs a) -> dsqrt (dadd dzero (dmul a a)) = dabs a.
Proof.
  intros [F [Z|H]].
  - unfold finite, dabs in F. rewrite is_finite_Babs in F. unfold real_of, dabs in Z. rewrite B2R_Babs in Z.
    destruct a as [s|s| |s m e Hm]; try discriminate F; [destruct s; reflexivity|].
    exfalso. assert (N : B2R (B754_finite s m e Hm) <> 0) by (apply F2R_neq_0; destruct s; discriminate).
    apply N. destruct (Req_dec (B2R (B754_finite s m e Hm)) 0) as [E|E]; [exact E|]. apply Rabs_no_R0 in E. contradiction.
  - apply sqrt_square_d; [unfold finite, dabs in *; now rewrite is_finite_Babs in F|].
    unfold real_of, dabs in H. rewrite B2R_Babs, Rabs_Rabsolu in H. exact H.
Qed.
Lemma C56_adding_a_number_partial_proof : forall cs w, dlegal cs -> List.Forall (fun c => self_assign c = false) cs ->
  run w_init cs = Ret w -> forall v (n : DN), let x := w_var w v in let c := u_const n in
  u_isindep x = Ret false \/ safe_dev (u_s x) ->
  exists z1 z2 z3, u_add x c = Ret z1 /\ u_add c x = Ret z2 /\ u_sub x c = Ret z3 /\
    u_s z1 = u_s x /\ u_s z2 = u_s x /\ u_s z3 = u_s x.
Proof.
  intros cs w L NS E v n x c Hx. assert (Fr := wfresh_init cs w L NS E v). fold x in Fr.
  destruct (dreach_wwf w) as [[_ W] B]; [now exists cs|]. specialize (W v). fold x in W.
  assert (Wc : wf (w_last w) c) by apply const_wf.
  assert (K : forall z : ureal DN, wf (w_last w) z -> uid z = invalid_id -> usdev z = nopp n1 ->
    (forall k, ozeq (ufind k z) (ufind k x)) -> u_s z = u_s x).
  { intros z Wz Uz Sz F. rewrite (dep_s z Uz Sz). rewrite (fresh_s x Fr).
    destruct (Z.leb_spec 0 (uid x)) as [P|P].
    - destruct (Z.ltb_spec 0 (uid x)) as [Q|Q].
      + assert (Sd : safe_dev (u_s x)).
        { destruct Hx as [Hx|Hx]; [|exact Hx]. unfold u_isindep in Hx. rewrite (wf_nonneg _ _ W P) in Hx. cbn in Hx. destruct (uid x <? 0)%Z; discriminate Hx. }
        assert (Es : u_s x = dabs (usdev x)) by (unfold u_s; apply Z.leb_le in P; now rewrite P). rewrite Es in Sd.
        assert (Fz : exists a : double, zeq a (usdev x) /\ usigma z = [(uid x, a)]).
        { assert (Fk := F (uid x)). unfold ufind in Fk at 2. destruct (Z.ltb_spec 0 (uid x)); [|lia]. rewrite Z.eqb_refl in Fk.
          destruct (ufind (uid x) z) as [a|] eqn:Ea; [|destruct Fk]. exists a. split; [exact Fk|]. apply (single_sigma (w_last w)); auto.
          intro k. destruct (Z.eqb_spec k (uid x)) as [->|Nk]; [exact Ea|]. assert (Fk' := F k). unfold ufind in Fk' at 2.
          destruct (Z.ltb_spec 0 (uid x)); [|lia]. apply Z.eqb_neq in Nk. rewrite Nk in Fk'. destruct (ufind k z); [destruct Fk'|reflexivity]. }
        destruct Fz as (a & Za & Ez). unfold u_s2. rewrite Ez. cbn [fold_left snd]. change (dsqrt (dadd dzero (dmul a a)) = dabs (usdev x)).
        rewrite (zeq_sq _ _ Za). now apply safe_sqrt.
      + assert (Ux : uid x = 0%Z) by lia. rewrite (wf_zero _ _ W Ux). 
        assert (Ez : usigma z = []). { apply (msorted_ext (V := double)); [apply Wz|constructor|]. intro k. specialize (F k). unfold ufind in F. rewrite Uz, Ux in F. change (mfind k (usigma z) = None). 
          destruct (mfind k (usigma z)); [destruct F|reflexivity]. }
        unfold u_s2. rewrite Ez. reflexivity.
    - assert (Ux := wf_neg _ _ W P). unfold u_s2. cbn [nsqrt DN n0 nadd nmul]. f_equal.
      apply lzeq_s2; [|exact dzero_pos]. apply lzeq_ext; [apply Wz|apply W|]. intro k. specialize (F k). unfold ufind in F. rewrite Uz, Ux in F. exact F. }
  destruct (binary_wf (w_last w) x c (nadd (umu x) (umu c)) n1 n1 W Wc B) as (z1 & E1 & W1 & _ & F1 & U1 & D1).
  destruct (binary_wf (w_last w) c x (nadd (umu c) (umu x)) n1 n1 Wc W B) as (z2 & E2 & W2 & _ & F2 & U2 & D2).
  destruct (binary_wf (w_last w) x c (nsub (umu x) (umu c)) n1 (nopp n1) W Wc B) as (z3 & E3 & W3 & _ & F3 & U3 & D3).
  exists z1, z2, z3. split; [exact E1|]. split; [exact E2|]. split; [exact E3|]. split; [|split]; apply K; auto; intro k.
  - rewrite F1. change (ufind k c) with (@None DN). destruct (ufind k x) as [a|]; [|exact I]. left. exact (dmul_1_l a).
  - rewrite F2. change (ufind k c) with (@None DN). destruct (ufind k x) as [a|]; [|exact I].
    change (zeq (dadd dzero (dmul (dofZ 1) a)) a). rewrite dmul_1_l. apply zeq_add0.
  - rewrite F3. change (ufind k c) with (@None DN). destruct (ufind k x) as [a|]; [|exact I]. left. exact (dmul_1_l a).
Qed.

