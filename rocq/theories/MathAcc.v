(** * MathAcc: from the accuracy of a derivative to the accuracy of the result *)

From Coq Require Import List ZArith Reals Bool Lra Lia Psatz.
From Coquelicot Require Import Coquelicot.
From Flocq Require Import Core BinarySingleNaN.
From Verif Require Import Base Num Map UReal World SpecObs URealFacts URealProofs Ieee IeeeFacts SpecIeee IeeeProofs IeeeProofs2 IeeeProofs3 IeeeProofs4
  IeeeCov IeeeCorr Nan Math SpecMathIeee IeeeRel.
Import ListNotations.
Local Open Scope R_scope.

Lemma run_app_d cs1 : forall (w w1 : world DN) cs2, run w cs1 = Ret w1 -> run w (cs1 ++ cs2) = run w1 cs2.
Proof.
  induction cs1 as [|c cs1 IH]; intros w w1 cs2; cbn; [now intros [= ->]|].
  destruct (exec w c) as [w' [| | |]]; try congruence; apply IH.
Qed.
Lemma coefs_unary (x : ureal DN) mu d : coefs (u_unary x mu d) = map (fun c => dmul c d) (coefs x).
Proof.
  unfold coefs, u_unary. destruct (0 <? uid x)%Z eqn:A; cbn [uid usdev usigma]; [now rewrite A|].
  destruct (uid x <? 0)%Z eqn:B; cbn [uid usdev usigma]; rewrite A, B; [|reflexivity]. unfold mmap. now rewrite !map_map.
Qed.
Lemma mean_unary (x : ureal DN) mu d : u_n (u_unary x mu d) = mu.
Proof. unfold u_unary, u_n. destruct (0 <? uid x)%Z; [reflexivity|]. destruct (uid x <? 0)%Z; reflexivity. Qed.

(** the square of a number known up to the relative error [h] *)
Lemma square_bounds (a r h : R) : 0 <= h <= 1 -> Rabs (a - r) <= h * Rabs r ->
  (1 - h) * (1 - h) * (r * r) <= a * a <= (1 + h) * (1 + h) * (r * r).
Proof.
  intros Hh H. assert (A : (1 - h) * Rabs r <= Rabs a <= (1 + h) * Rabs r).
  { assert (B := Rabs_triang_inv r a). assert (C := Rabs_triang_inv a r). rewrite Rabs_minus_sym in B. lra. }
  replace (a * a) with (Rabs a * Rabs a) by (unfold Rabs; destruct (Rcase_abs a); ring).
  replace (r * r) with (Rabs r * Rabs r) by (unfold Rabs; destruct (Rcase_abs r); ring).
  assert (P := Rabs_pos r). assert (Q := Rabs_pos a). assert (P1 : 0 <= (1 - h) * Rabs r) by (apply Rmult_le_pos; lra). split.
  - replace ((1 - h) * (1 - h) * (Rabs r * Rabs r)) with ((1 - h) * Rabs r * ((1 - h) * Rabs r)) by ring. apply Rmult_le_compat; lra.
  - replace ((1 + h) * (1 + h) * (Rabs r * Rabs r)) with ((1 + h) * Rabs r * ((1 + h) * Rabs r)) by ring. apply Rmult_le_compat; lra.
Qed.
Lemma sum_sq_scaled (d h : R) (f : double -> double) l : 0 <= h <= 1 ->
  (forall c, In c l -> Rabs (real_of (f c) - d * real_of c) <= h * Rabs (d * real_of c)) ->
  (1 - h) * (1 - h) * (d * d * sum_sq l) <= sum_sq (map f l) <= (1 + h) * (1 + h) * (d * d * sum_sq l).
Proof.
  intros Hh. induction l as [|c l IH]; intro H; [cbn; lra|]. unfold sum_sq in *. cbn [map fold_right].
  assert (S := square_bounds _ _ h Hh (H c (or_introl eq_refl))). destruct IH as [I1 I2]; [intros q Q; apply H; now right|].
  revert S I1 I2. generalize (fold_right (fun c r => real_of c * real_of c + r) 0 l) (fold_right (fun c r => real_of c * real_of c + r) 0 (map f l)).
  intros X Y S I1 I2. lra.
Qed.
Lemma sqrt_root_bound (s D kh z : R) : 0 <= s -> 0 <= D -> 0 <= kh <= / 2 -> 0 <= z <= / 4 ->
  (1 - z) * ((1 - kh) * (1 - kh) * (D * D)) <= s * s -> (1 - z) * (s * s) <= (1 + kh) * (1 + kh) * (D * D) -> Rabs (s - D) <= (kh + z) * D.
Proof.
  intros S0 D0 K Z L U. apply Rabs_le. split.
  - enough ((1 - (kh + z)) * D <= s) by lra. destruct (Rle_dec (1 - (kh + z)) 0) as [N|P]; [nra|].
    apply Rnot_le_lt in P. apply Rsqr_incr_0_var; [|exact S0]. unfold Rsqr.
    assert (Q : (1 - (kh + z)) * (1 - (kh + z)) <= (1 - z) * ((1 - kh) * (1 - kh))).
    { assert (A1 : 1 - (kh + z) <= (1 - z) * (1 - kh)) by nra. apply Rle_trans with ((1 - z) * (1 - kh) * (1 - kh)); [|nra].
      apply Rmult_le_compat; lra. }
    assert (D2 := Rmult_le_pos D D D0 D0). nra.
  - enough (s <= (1 + (kh + z)) * D) by lra. apply Rsqr_incr_0_var; [|nra]. unfold Rsqr.
    assert (Q : (1 + kh) * (1 + kh) <= (1 - z) * ((1 + (kh + z)) * (1 + (kh + z)))).
    { set (p := 1 + kh). assert (P : 1 <= p <= 3 / 2) by (unfold p; lra). replace (1 + (kh + z)) with (p + z) by (unfold p; ring).
      assert (E : (1 - z) * ((p + z) * (p + z)) - p * p = z * (2 * p - p * p + z * (1 - 2 * p - z))) by ring.
      assert (0 <= z * (2 * p - p * p + z * (1 - 2 * p - z))); [|lra]. apply Rmult_le_pos; [lra|].
      assert (A1 : 3 / 4 <= 2 * p - p * p) by nra. assert (A2 : - (9 / 4) <= 1 - 2 * p - z) by lra.
      assert (A3 : - (9 / 16) <= z * (1 - 2 * p - z)) by nra. lra. }
    assert (D2 := Rmult_le_pos D D D0 D0). apply Rmult_le_reg_l with (1 - z); [lra|]. nra.
Qed.

(** the deviation of the result, from the coefficients *)
Lemma unary_deviation M e (K d : R) (mu d' : double) : ur <= e <= pow2 (-20) -> accurate M e -> 0 <= K -> K * e <= / 2 ->
  (forall c, finite c -> regular (d * real_of c) -> close (K * e) (dmul c d') (d * real_of c)) ->
  forall cs w, dlegal cs -> List.Forall (fun c => self_assign c = false) cs -> run w_init cs = Ret w ->
  forall v, let x := w_var w v in let z := u_unary x mu d' in let n := List.length (coefs x) in
  List.Forall (fun c => finite c /\ (real_of c = 0 \/ pow2 (-500) <= Rabs (d * real_of c))) (coefs x) ->
  d * d * sum_sq (coefs x) <= pow2 1000 ->
  close ((K + INR n + 3) * e) (u_s z) (Rabs d * sqrt (sum_sq (coefs x))).
Proof.
  intros He _ K0 K2 HC cs w L NS E v x z n Hc Hs. assert (Es := e_small e He). set (h := K * e) in *.
  assert (Hh : 0 <= h <= 1) by (unfold h in *; split; [apply Rmult_le_pos|]; lra).
  set (cs' := cs ++ [CUnary v v (fun _ => mu : DN) (fun _ => d' : DN)]). set (w' := w_set w v z).
  assert (L' : dlegal cs').
  { destruct L as [L1 L2]. split; [apply Forall_app; split; [exact L1|repeat constructor]|].
    unfold cs', count_new. rewrite filter_app. cbn [filter is_new]. rewrite app_nil_r. exact L2. }
  assert (NS' : List.Forall (fun c => self_assign c = false) cs') by (apply Forall_app; split; [exact NS|repeat constructor]).
  assert (E' : run w_init cs' = Ret w') by (unfold cs'; now rewrite (run_app_d cs w_init w _ E)).
  assert (Ez : w_var w' v = z) by (unfold w'; cbn; unfold upd; now rewrite Nat.eqb_refl).
  assert (Cz : coefs z = map (fun c => dmul c d') (coefs x)) by apply coefs_unary.
  assert (Lc : forall c, In c (coefs x) -> real_of c * real_of c <= sum_sq (coefs x)).
  { clear. induction (coefs x) as [|q l IH]; intros c [].
    - subst. unfold sum_sq. cbn [fold_right]. assert (N := sum_sq_nonneg l). unfold sum_sq in N. lra.
    - assert (I := IH c H). unfold sum_sq in *. cbn [fold_right]. assert (Q := Rle_0_sqr (real_of q)). unfold Rsqr in Q. lra. }
  assert (P500 : pow2 1000 = pow2 500 * pow2 500) by (rewrite <- pow2_add; reflexivity).
  assert (Rg : forall c, In c (coefs x) -> finite c /\ regular (d * real_of c)).
  { intros c Ic. rewrite List.Forall_forall in Hc. destruct (Hc c Ic) as [Fc [Z|Lo]]; (split; [exact Fc|]); [left; rewrite Z; ring|right]. split.
    - eapply Rle_trans; [|exact Lo]. apply pow2_le. lia.
    - apply Rle_trans with (pow2 500); [|apply pow2_le; lia]. apply Rsqr_incr_0_var; [|left; apply pow2_pos]. unfold Rsqr. rewrite <- P500.
      eapply Rle_trans; [|exact Hs]. rewrite <- Rabs_mult, Rabs_pos_eq by apply Rle_0_sqr.
      replace (d * real_of c * (d * real_of c)) with (d * d * (real_of c * real_of c)) by ring.
      apply Rmult_le_compat_l; [apply Rle_0_sqr|now apply Lc]. }
  assert (Cl : forall c, In c (coefs x) -> close h (dmul c d') (d * real_of c)) by (intros c Ic; apply HC; now apply Rg).
  assert (SB := sum_sq_scaled d h (fun c => dmul c d') (coefs x) Hh (fun c Ic => proj2 (Cl c Ic))). rewrite <- Cz in SB.
  assert (S0 := sum_sq_nonneg (coefs x)). assert (D2 := Rle_0_sqr d). unfold Rsqr in D2. assert (DS := Rmult_le_pos _ _ D2 S0).
  assert (NU : no_underflow (coefs z)).
  { rewrite Cz. unfold no_underflow. apply List.Forall_forall. intros c' Ic'. apply in_map_iff in Ic' as (c & <- & Ic). destruct (Cl c Ic) as [F B].
    split; [exact F|]. rewrite List.Forall_forall in Hc. destruct (Hc c Ic) as [_ [Z|Lo]].
    - left. rewrite Z, Rmult_0_r, Rabs_R0, Rmult_0_r in B. unfold Rminus in B. rewrite Ropp_0, Rplus_0_r in B.
      destruct (Req_dec (real_of (dmul c d')) 0) as [Q|Q]; [exact Q|]. apply Rabs_pos_lt in Q. lra.
    - right. assert (P10 : pow2 (-500) = 1024 * pow2 (-510)) by (unfold pow2; change (-500)%Z with (10 + -510)%Z; rewrite bpow_plus; f_equal).
      assert (P0 := pow2_pos (-510)). assert (T := Rabs_triang_inv (d * real_of c) (real_of (dmul c d'))). rewrite Rabs_minus_sym in T.
      assert (h * Rabs (d * real_of c) <= / 2 * Rabs (d * real_of c)) by (apply Rmult_le_compat_r; [apply Rabs_pos|exact K2]). lra. }
  assert (SM : sum_sq (coefs z) <= pow2 1020).
  { assert (P20 : pow2 1020 = 1048576 * pow2 1000) by (unfold pow2; change 1020%Z with (20 + 1000)%Z; rewrite bpow_plus; f_equal).
    assert (P0 := pow2_pos 1000). assert ((1 + h) * (1 + h) <= 4) by nra. nra. }
  assert (A := C57_accuracy_proof cs' w' L' NS' E' v). rewrite Ez in A. cbv zeta in A. specialize (A NU SM). destruct A as (Fs & _ & [B1 B2] & _).
  assert (Ln : List.length (coefs z) = n) by (rewrite Cz; apply map_length). rewrite Ln in B1, B2.
  split; [exact Fs|].
  assert (Sn := s_nonneg z Fs). set (m := (n + 3)%nat) in *.
  assert (Rw : dreachable w) by (now exists cs). destruct (dreach_wwf w Rw) as [[Pl W] B]. 
  assert (Kc := keys_count (w_last w) x (W v) Pl). fold n in Kc.
  assert (Im : INR m = INR n + 3) by (unfold m; rewrite plus_INR; cbn; lra).
  assert (Zs : 0 <= INR m * ur <= / 4).
  { assert (U := ur_small). split; [apply Rmult_le_pos; [apply pos_INR|lra]|].
    assert (Mb : INR m <= 4294967296). { rewrite INR_IZR_INZ. apply IZR_le. unfold maxid in B. unfold m. lia. }
    apply Rle_trans with (4294967296 * ur); [apply Rmult_le_compat_r; lra|]. unfold ur. change 4294967296 with (pow2 32). rewrite <- pow2_add.
    change (32 + -53)%Z with (-21)%Z. apply Rle_trans with (pow2 (-2)); [apply pow2_le; lia|]. right. unfold pow2. cbn. lra. }
  set (D := Rabs d * sqrt (sum_sq (coefs x))).
  assert (D0 : 0 <= D) by (apply Rmult_le_pos; [apply Rabs_pos|apply sqrt_pos]).
  assert (DD : D * D = d * d * sum_sq (coefs x)).
  { unfold D. transitivity ((Rabs d * Rabs d) * (sqrt (sum_sq (coefs x)) * sqrt (sum_sq (coefs x)))); [ring|].
    rewrite sqrt_sqrt by exact S0. rewrite <- Rabs_mult, Rabs_pos_eq by exact D2. reflexivity. }
  rewrite <- DD in SB.
  assert (PL := pow_lin m ltac:(lra)). destruct PL as [_ PL].
  assert (PI : (1 - INR m * ur) * (1 + ur) ^ m <= 1).
  { apply Rle_trans with ((1 - ur) ^ m * (1 + ur) ^ m); [apply Rmult_le_compat_r; [|exact PL]|].
    - left. apply pow_lt. assert (U := ur_small). lra.
    - rewrite <- Rpow_mult_distr. assert (U := ur_small). assert (Q0 : 0 <= (1 - ur) * (1 + ur) <= 1) by (split; nra).
      assert (Q := pow_incr _ _ m Q0). now rewrite pow1 in Q. }
  rewrite (Rabs_pos_eq D) by exact D0.
  apply Rle_trans with ((h + INR m * ur) * D).
  - apply sqrt_root_bound; [exact Sn|exact D0|lra|exact Zs| |].
    + eapply Rle_trans; [|exact B1]. apply Rmult_le_compat; [lra| |exact PL|exact (proj1 SB)].
      apply Rmult_le_pos; [apply Rmult_le_pos; lra|]. rewrite DD. exact DS.
    + apply Rle_trans with ((1 - INR m * ur) * ((1 + ur) ^ m * sum_sq (coefs z))); [apply Rmult_le_compat_l; [lra|exact B2]|].
      rewrite <- Rmult_assoc. eapply Rle_trans; [|exact (proj2 SB)].
      assert (SZ := sum_sq_nonneg (coefs z)). rewrite <- (Rmult_1_l (sum_sq (coefs z))) at 2. now apply Rmult_le_compat_r.
  - apply Rmult_le_compat_r; [exact D0|]. rewrite Im. unfold h. destruct He as [He _].
    assert (I0 := pos_INR n). assert ((INR n + 3) * ur <= (INR n + 3) * e) by (apply Rmult_le_compat_l; lra). lra.
Qed.

(** A function defined by [unary] is accurate if the mean and the derivative it passes are. *)
Lemma accurate1_intro (m : cmath DN -> ureal DN -> ureal DN) (dom : R -> R -> Prop) (F K : R -> R) (fm fd : cmath DN -> double -> double) :
  (forall M x, m M x = u_unary x (fm M (u_n x)) (fd M (u_n x))) ->
  (forall M e a, ur <= e <= pow2 (-20) -> accurate M e -> finite a -> dom e (real_of a) -> regular (F (real_of a)) ->
     close e (fm M a) (F (real_of a)) /\ 0 <= K (real_of a) /\ K (real_of a) * e <= / 2 /\
     exists d, is_derive F (real_of a) d /\
       forall c, finite c -> regular (d * real_of c) -> close (K (real_of a) * e) (dmul c (fd M a)) (d * real_of c)) ->
  accurate1 m dom F K.
Proof.
  intros Hm H M e He A cs w L NS E v x a z n Fx Da Rg.
  destruct (H M e (u_n x) He A Fx Da Rg) as (Cm & K0 & K2 & d & Dv & HC).
  unfold z. rewrite Hm, mean_unary. split; [exact Cm|]. exists d. split; [exact Dv|]. split.
  - rewrite coefs_unary. clear -HC. induction (coefs x) as [|c l IH]; cbn [map]; constructor; [|exact IH]. exact (HC c).
  - exact (unary_deviation M e _ d _ _ He A K0 K2 HC cs w L NS E v).
Qed.
(** from a bound on the number of roundings *)
Lemma coef_near e k d (d' : double) : ur <= e <= pow2 (-20) -> (k <= 400)%nat -> near e k d' d ->
  forall c, finite c -> regular (d * real_of c) -> close ((INR k + 2) * e) (dmul c d') (d * real_of c).
Proof.
  intros He K N c Fc Rg. replace (INR k + 2) with (INR (S k) + 1) by (rewrite S_INR; ring).
  apply (close_near e He); [lia|]. rewrite Rmult_comm in *. 
  apply (near_mul e He 0 k); [lia|now apply near_exact|exact N|exact Rg].
Qed.
(** from a relative error *)
Lemma coef_close e K d (d' : double) : ur <= e <= pow2 (-20) -> 0 <= K -> (K + 2) * e <= / 2 -> close (K * e) d' d ->
  forall c, finite c -> regular (d * real_of c) -> close ((K + 2) * e) (dmul c d') (d * real_of c).
Proof.
  intros He K0 K2 [Fd B] c Fc Rg. assert (Es := e_small e He). set (r := d * real_of c) in *.
  assert (Bp : Rabs (real_of c * real_of d' - r) <= K * e * Rabs r).
  { unfold r. replace (real_of c * real_of d' - d * real_of c) with ((real_of d' - d) * real_of c) by ring. rewrite !Rabs_mult.
    rewrite <- Rmult_assoc. apply Rmult_le_compat_r; [apply Rabs_pos|exact B]. }
  destruct Rg as [Z|[Lo Hi]].
  - rewrite Z in *. rewrite Rabs_R0, Rmult_0_r in Bp. unfold Rminus in Bp. rewrite Ropp_0, Rplus_0_r in Bp.
    assert (Z2 : real_of c * real_of d' = 0). { destruct (Req_dec (real_of c * real_of d') 0) as [Q|Q]; [exact Q|]. apply Rabs_pos_lt in Q. lra. }
    destruct (dmul_round c d' Fc Fd) as [F V]; [rewrite Z2; unfold no_overflow; replace (nearest 0) with 0 by (symmetry; apply round_0, valid_rnd_N); rewrite Rabs_R0; apply pow2_pos|].
    split; [exact F|]. rewrite V, Z2. replace (nearest 0) with 0 by (symmetry; apply round_0, valid_rnd_N). rewrite Rminus_eq_0, Rabs_R0. lra.
  - assert (P21 : pow2 (-1021) = 2 * pow2 (-1022)) by (unfold pow2; change (-1021)%Z with (1 + -1022)%Z; rewrite bpow_plus; f_equal).
    assert (P23 : pow2 1023 = 2 * pow2 1022) by (unfold pow2; change 1023%Z with (1 + 1022)%Z; rewrite bpow_plus; f_equal).
    assert (B0 := pow2_pos (-1022)). assert (B1 := pow2_pos 1022). assert (Ra := Rabs_pos r).
    assert (KE : 0 <= K * e <= / 2) by (split; [apply Rmult_le_pos|]; lra).
    set (p := real_of c * real_of d') in *. assert (T1 := Rabs_triang_inv r p). rewrite Rabs_minus_sym in T1. assert (T2 := Rabs_triang_inv p r).
    assert (KR : K * e * Rabs r <= / 2 * Rabs r) by (apply Rmult_le_compat_r; lra).
    destruct (dmul_round c d' Fc Fd) as [F V]; [apply fits; fold p; lra|]. split; [exact F|]. fold p in V. rewrite V.
    assert (RE := rel_err p ltac:(lra)).
    replace (nearest p - r) with ((nearest p - p) + (p - r)) by ring. eapply Rle_trans; [apply Rabs_triang|].
    fold ur in RE. assert (ur * Rabs p <= e * (2 * Rabs r)) by (apply Rmult_le_compat; [assert (U := ur_small); lra|apply Rabs_pos|lra|lra]).
    apply Rle_trans with (e * (2 * Rabs r) + K * e * Rabs r); [lra|right; ring].
Qed.
