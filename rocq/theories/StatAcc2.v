(** * StatAcc2: corr_matrix and corr2cov on doubles (C81) *)

From Coq Require Import List ZArith Reals Bool Lra Lia Psatz.
From Flocq Require Import Core BinarySingleNaN.
From Verif Require Import Base Num Map UReal World URealFacts SpecLin SpecObs URealProofs URealProofs2 Sums Stat StatProofs Ieee IeeeFacts SpecIeee
  SpecIeee2 IeeeProofs IeeeProofs2 IeeeProofs3 IeeeProofs4 IeeeProofs5 IeeeCov IeeeCorr SpecStatIeee StatAcc.
Import ListNotations.
Local Open Scope R_scope.

Lemma ddiv_val a b : finite a -> real_of b <> 0 -> finite (ddiv a b) -> real_of (ddiv a b) = nearest (real_of a / real_of b).
Proof.
  intros Fa Nb Fd. assert (H := Bdiv_correct 53 1024 prec53 emax1024 mode_NE a b Nb). destruct (Rlt_bool _ _); [apply H|].
  exfalso. unfold finite, ddiv in Fd. rewrite <- is_finite_SF_B2SF, H in Fd. discriminate Fd.
Qed.

Lemma half_pow m : (Z.of_nat m <= 2147483700)%Z -> (1 + ur) ^ m <= 2 /\ / 2 <= (1 - ur) ^ m.
Proof.
  intro H. assert (Ue : ur = / 9007199254740992) by reflexivity. assert (Q : INR m * ur <= / 4).
  { rewrite INR_IZR_INZ. apply IZR_le in H. rewrite Ue. lra. }
  destruct (pow_lin m) as [H1 H2]; [lra|]. lra.
Qed.
(** the deviations of regular variables *)
Lemma dev_range cs w u : dlegal cs -> List.Forall (fun c => self_assign c = false) cs -> run w_init cs = Ret w ->
  regular_dev (w_var w u) -> let s := u_s (w_var w u) in
  finite s /\ 0 < real_of s /\ pow2 (-1021) <= real_of s * real_of s <= pow2 1021.
Proof.
  intros L NS E [U HS] s. assert (Rw : dreachable w) by (now exists cs).
  destruct (dreach_wwf w Rw) as [[Pl W] B]. assert (Wx := W u).
  destruct (common_length _ _ _ Wx Wx (conj Pl B)) as [_ L2].
  destruct (C57_accuracy_proof cs w L NS E u U (proj2 HS)) as (Fs & _ & Bs & _). fold s in Fs, Bs.
  set (x := w_var w u) in *. split; [exact Fs|].
  destruct (half_pow (length (coefs x) + 3)) as [P1 P2]; [lia|].
  assert (Cx : pow2 (-1020) <= sum_sq (coefs x)) by (destruct (sum_sq_cases _ U); lra).
  assert (T1 : pow2 (-1020) = 2 * pow2 (-1021)) by (change (-1020)%Z with (1 + -1021)%Z; rewrite pow2_add; reflexivity).
  assert (T2 : pow2 1021 = 2 * pow2 1020) by (change 1021%Z with (1 + 1020)%Z; rewrite pow2_add; reflexivity).
  assert (Q := pow2_pos (-1021)). assert (N0 := s_nonneg x Fs). fold s in N0. cbv zeta in Bs. fold ur in Bs. change uround with ur in Bs.
  assert (R1 : pow2 (-1021) <= real_of s * real_of s) by nra. assert (R2 : real_of s * real_of s <= pow2 1021) by nra.
  split; [nra|]. split; assumption.
Qed.

Lemma between_squares a b lo hi : 0 < a -> 0 < b -> 0 < lo -> lo <= a * a <= hi -> lo <= b * b <= hi -> lo <= a * b <= hi.
Proof.
  intros Ha Hb Hl [A1 A2] [B1 B2]. assert (0 < a * b) by nra. split.
  - apply Rnot_lt_le. intro C. assert (a * b * (a * b) < lo * lo) by nra. assert (lo * lo <= (a * a) * (b * b)) by nra. nra.
  - apply Rnot_lt_le. intro C. assert (hi * hi < a * b * (a * b)) by nra. assert ((a * a) * (b * b) <= hi * hi) by nra. nra.
Qed.

Lemma round_trip (V p : double) : finite V -> finite p -> 0 < real_of p <= pow2 1021 -> finite (ddiv V p) -> Rabs (real_of (ddiv V p)) <= 2 ->
  let r := dmul p (ddiv V p) in
  finite r /\ Rabs (real_of r - real_of V) <= 3 * ur * Rabs (real_of V) + pow2 (-1075) * (1 + (1 + ur) * real_of p).
Proof.
  intros FV Fp Hp Fc Hc r. assert (Ec := ddiv_val V p FV ltac:(lra) Fc). set (c := ddiv V p) in *.
  assert (U := ur_small). assert (T2 : pow2 1023 = 4 * pow2 1021) by (change 1023%Z with (2 + 1021)%Z; rewrite pow2_add; f_equal; unfold pow2; cbn; lra).
  destruct (dmul_round p c Fp Fc) as [Fr Er].
  { apply fits. rewrite Rabs_mult, (Rabs_pos_eq (real_of p)) by lra. assert (0 <= Rabs (real_of c)) by apply Rabs_pos. nra. }
  split; [exact Fr|]. unfold r. rewrite Er. destruct (nearest_pm (real_of p * real_of c)) as (e2 & t2 & He2 & Ht2 & ->).
  rewrite Ec. destruct (nearest_pm (real_of V / real_of p)) as (e1 & t1 & He1 & Ht1 & ->).
  replace (real_of p * (real_of V / real_of p * (1 + e1) + t1) * (1 + e2) + t2 - real_of V)
    with (real_of V * (e1 + e2 + e1 * e2) + (t1 * (1 + e2) * real_of p + t2)) by (field; lra).
  eapply Rle_trans; [apply Rabs_triang|]. apply Rplus_le_compat.
  - rewrite Rabs_mult, Rmult_comm. apply Rmult_le_compat_r; [apply Rabs_pos|].
    apply Rabs_le_inv in He1. apply Rabs_le_inv in He2. apply Rabs_le. nra.
  - eapply Rle_trans; [apply Rabs_triang|]. rewrite !Rabs_mult, (Rabs_pos_eq (real_of p)) by lra.
    assert (H2 : Rabs (1 + e2) <= 1 + ur) by (apply Rabs_le_inv in He2; apply Rabs_le; lra).
    assert (H3 : Rabs t1 * Rabs (1 + e2) <= pow2 (-1075) * (1 + ur)) by (apply Rmult_le_compat; auto using Rabs_pos). nra.
Qed.

Lemma C81_corr_matrix_proof : forall cs w, dlegal cs -> List.Forall (fun c => self_assign c = false) cs -> run w_init cs = Ret w ->
  forall us : list nat, let xs := map (w_var w) us in let n := length us in
  exists C, corr_matrix xs = Ret C /\ length C = (n * n)%nat /\
  (forall i j, (i < n)%nat -> (j < n)%nat -> nth_error C (n * i + j) = nth_error C (n * j + i)) /\
  ((forall u, In u us -> regular_dev (w_var w u)) -> List.Forall finite C /\
   forall i j u v, nth_error us i = Some u -> nth_error us j = Some v ->
     let x := w_var w u in let y := w_var w v in let m := Nat.max (length (coefs x)) (length (coefs y)) in
     let rho := sum_prod (common x y) / (exact_dev x * exact_dev y) in
     Rabs rho <= 1 /\ Rabs (entry n C i j - rho) <= 7 * (INR m + 3) * uround).
Proof.
  intros cs w L NS E us xs n. destruct (C17_corr_matrix_layout_proof DN xs) as (C & EC & LC & F).
  assert (Ln : length xs = n) by (apply map_length). rewrite Ln in LC, F.
  assert (K : forall u v, regular_dev (w_var w u) -> regular_dev (w_var w v) -> let x := w_var w u in let y := w_var w v in
    let m := Nat.max (length (coefs x)) (length (coefs y)) in let rho := sum_prod (common x y) / (exact_dev x * exact_dev y) in
    finite (u_corr x y) /\ Rabs rho <= 1 /\ Rabs (real_of (u_corr x y) - rho) <= 7 * (INR m + 3) * uround).
  { intros u v [Uu Hu] [Uv Hv] x y m rho. assert (H := C63_correlation_accuracy_partial_proof cs w L NS E u v Uu Uv Hu Hv).
    cbv zeta in H. fold x y in H. unfold rho, exact_dev. rewrite <- sqrt_mult by (unfold x, y; lra). exact H. }
  exists C. split; [exact EC|]. split; [exact LC|]. split.
  - intros i j Hi Hj. rewrite (F i j _ _ (seq_nth (w_var w) us 0%nat i Hi) (seq_nth (w_var w) us 0%nat j Hj)).
    rewrite (F j i _ _ (seq_nth (w_var w) us 0%nat j Hj) (seq_nth (w_var w) us 0%nat i Hi)). f_equal. apply C54_symmetric_proof.
  - intro HB. split.
    + apply List.Forall_forall. intros c Hc. apply In_nth_error in Hc as [k Hk].
      assert (Kn : (k < n * n)%nat) by (rewrite <- LC; apply nth_error_Some; intro Q; discriminate (eq_trans (eq_sym Q) Hk)).
      destruct (index_split n k Kn) as (Ek & Li & Lj). rewrite Ek in Hk.
      assert (Q := eq_trans (eq_sym Hk) (F _ _ _ _ (seq_nth (w_var w) us 0%nat _ Li) (seq_nth (w_var w) us 0%nat _ Lj))). injection Q as ->.
      apply K; apply HB; apply nth_In; assumption.
    + intros i j u v Eu Ev x y m rho. unfold entry.
      assert (Q := nth_of C _ (dofZ 0) _ (F i j _ _ (map_nth_error (w_var w) i us Eu) (map_nth_error (w_var w) j us Ev))).
      change (@nth double (n * i + j) C (dofZ 0) = u_corr x y) in Q. rewrite Q.
      apply K; apply HB; eapply nth_error_In; eassumption.
Qed.

Lemma C81_corr2cov_partial_proof : forall cs w, dlegal cs -> List.Forall (fun c => self_assign c = false) cs -> run w_init cs = Ret w ->
  forall us : list nat, let xs := map (w_var w) us in let n := length us in
  (forall u, In u us -> regular_dev (w_var w u)) ->
  exists C V W, corr_matrix xs = Ret C /\ cov_matrix xs = Ret V /\ corr2cov (map u_s xs) C = Ret W /\ length W = (n * n)%nat /\ List.Forall finite W /\
  forall i j u v, nth_error us i = Some u -> nth_error us j = Some v ->
    Rabs (entry n W i j - entry n V i j) <=
      3 * uround * Rabs (entry n V i j) + pow2 (-1074) * (1 + real_of (u_s (w_var w u)) * real_of (u_s (w_var w v))).
Proof.
  intros cs w L NS E us xs n HR. assert (Rw : dreachable w) by (now exists cs).
  destruct (C17_cov_matrix_layout_proof DN xs) as (V & EV & LV & FV).
  destruct (C81_corr_matrix_proof cs w L NS E us) as (C & EC & LC & _ & HC). fold xs n in EC, LC, HC. destruct (HC HR) as [FinC AccC]. clear HC.
  destruct (C17_corr_matrix_layout_proof DN xs) as (C' & EC' & _ & FC). rewrite EC in EC'. injection EC' as <-.
  assert (Ln : length xs = n) by (apply map_length). rewrite Ln in LV, FV, FC.
  destruct (C18_corr2cov_proof DN (map u_s xs) C) as [_ H]. rewrite map_length, Ln in H. destruct (H LC) as (W & EW & LW & FW). clear H.
  exists C, V, W. split; [exact EC|]. split; [exact EV|]. split; [exact EW|]. split; [exact LW|].
  assert (U := ur_small). assert (Ue : ur = / 9007199254740992) by reflexivity.
  assert (K : forall i j u v, nth_error us i = Some u -> nth_error us j = Some v ->
    let x := w_var w u in let y := w_var w v in let r := dmul (dmul (u_s x) (u_s y)) (u_corr x y) in
    finite r /\ Rabs (real_of r - real_of (u_cov x y)) <= 3 * ur * Rabs (real_of (u_cov x y)) + pow2 (-1074) * (1 + real_of (u_s x) * real_of (u_s y))).
  { intros i j u v Eu Ev x y r. assert (Ru := HR u (nth_error_In _ _ Eu)). assert (Rv := HR v (nth_error_In _ _ Ev)).
    destruct (dev_range cs w u L NS E Ru) as (Fx & Px & Bx). destruct (dev_range cs w v L NS E Rv) as (Fy & Py & By). fold x in Fx, Px, Bx. fold y in Fy, Py, By.
    assert (BP := between_squares _ _ _ _ Px Py (pow2_pos _) Bx By).
    assert (T22 : pow2 (-1022) <= pow2 (-1021)) by (apply pow2_le; lia). assert (T0 := pow2_pos (-1022)).
    destruct (dmul_round (u_s x) (u_s y) Fx Fy) as [Fp Ep].
    { apply fits. rewrite Rabs_pos_eq by lra. eapply Rle_trans; [apply BP|apply pow2_le; lia]. }
    assert (RP := rel_pos (real_of (u_s x) * real_of (u_s y)) ltac:(lra)). rewrite <- Ep in RP.
    assert (Pp : real_of (dmul (u_s x) (u_s y)) <= pow2 1021).
    { rewrite Ep. eapply Rle_trans; [apply Rle_abs|]. apply nearest_bound; [lia|]. rewrite Rabs_pos_eq by lra. apply BP. }
    change (r) with (dmul (dmul (u_s x) (u_s y)) (ddiv (u_cov x y) (dmul (u_s x) (u_s y)))).
    set (p := dmul (u_s x) (u_s y)) in *. set (q := real_of (u_s x) * real_of (u_s y)) in *.
    destruct (cov_bound w u v Rw) as (FinV & _).
    { destruct Ru as [N B]. split; [revert N; apply List.Forall_impl; intros c Hc; apply Hc|apply B]. }
    { destruct Rv as [N B]. split; [revert N; apply List.Forall_impl; intros c Hc; apply Hc|apply B]. }
    fold x y in FinV.
    assert (FinR : finite (u_corr x y) /\ Rabs (real_of (u_corr x y)) <= 2).
    { destruct (AccC i j u v Eu Ev) as [H1 H2].
      assert (Q := nth_of C _ (dofZ 0) _ (FC i j _ _ (map_nth_error (w_var w) i us Eu) (map_nth_error (w_var w) j us Ev))).
      split.
      - assert (Q' := FC i j _ _ (map_nth_error (w_var w) i us Eu) (map_nth_error (w_var w) j us Ev)). apply nth_error_In in Q'.
        rewrite List.Forall_forall in FinC. exact (FinC _ Q').
      - unfold entry in H2. change (@nth double (n * i + j) C (dofZ 0) = u_corr x y) in Q. rewrite Q in H2.
        destruct (dreach_wwf w Rw) as [[Pl W0] B0]. destruct (common_length _ _ _ (W0 u) (W0 u) (conj Pl B0)) as [_ L2]. destruct (common_length _ _ _ (W0 v) (W0 v) (conj Pl B0)) as [_ L3].
        fold x y in H1, H2, L2, L3.
        assert (Nm : INR (Nat.max (length (coefs x)) (length (coefs y))) <= 2147483648) by (rewrite INR_IZR_INZ; apply IZR_le; lia).
        assert (I0 := pos_INR (Nat.max (length (coefs x)) (length (coefs y)))). change uround with ur in H2.
        assert (H3 : 7 * (INR (Nat.max (length (coefs x)) (length (coefs y))) + 3) * ur <= / 2) by (rewrite Ue; lra).
        revert H1 H2. generalize (sum_prod (common x y) / (exact_dev x * exact_dev y)). intros rho H1 H2. apply Rabs_le_inv in H1. assert (H4 : Rabs (real_of (u_corr x y) - rho) <= / 2) by lra.
        apply Rabs_le_inv in H4. apply Rabs_le. lra. }
    destruct FinR as [FinR Rle2].
    destruct (round_trip (u_cov x y) p FinV Fp) as [Fr Br]; [split; [nra|exact Pp]|exact FinR|exact Rle2|].
    split; [exact Fr|]. eapply Rle_trans; [exact Br|]. apply Rplus_le_compat_l.
    assert (T74 : pow2 (-1074) = 2 * pow2 (-1075)) by (change (-1074)%Z with (1 + -1075)%Z; rewrite pow2_add; reflexivity).
    rewrite T74. assert (T75 := pow2_pos (-1075)). rewrite (Rmult_comm 2), Rmult_assoc. apply Rmult_le_compat_l; [lra|]. nra. }
  assert (G : forall i j u v, nth_error us i = Some u -> nth_error us j = Some v ->
    nth_error W (n * i + j) = Some (nmul (nmul (u_s (w_var w u)) (u_s (w_var w v))) (u_corr (w_var w u) (w_var w v)))).
  { intros i j u v Eu Ev. apply FW.
    - unfold xs. rewrite map_map. exact (map_nth_error (fun t => u_s (w_var w t)) i us Eu).
    - unfold xs. rewrite map_map. exact (map_nth_error (fun t => u_s (w_var w t)) j us Ev).
    - apply FC; [exact (map_nth_error (w_var w) i us Eu)|exact (map_nth_error (w_var w) j us Ev)]. }
  split.
  - apply List.Forall_forall. intros c Hc. apply In_nth_error in Hc as [k Hk].
    assert (Kn : (k < n * n)%nat) by (rewrite <- LW; apply nth_error_Some; intro Q; discriminate (eq_trans (eq_sym Q) Hk)).
    destruct (index_split n k Kn) as (Ek & Li & Lj). rewrite Ek in Hk.
    assert (Eu := nth_error_nth' us 0%nat Li). assert (Ev := nth_error_nth' us 0%nat Lj).
    assert (Q := eq_trans (eq_sym Hk) (G _ _ _ _ Eu Ev)). injection Q as ->. exact (proj1 (K _ _ _ _ Eu Ev)).
  - intros i j u v Eu Ev. unfold entry.
    assert (Q := nth_of W _ (dofZ 0) _ (G i j u v Eu Ev)). change (@nth double (n * i + j) W (dofZ 0) = dmul (dmul (u_s (w_var w u)) (u_s (w_var w v))) (u_corr (w_var w u) (w_var w v))) in Q. rewrite Q.
    assert (Q' := nth_of V _ (dofZ 0) _ (FV i j _ _ (map_nth_error (w_var w) i us Eu) (map_nth_error (w_var w) j us Ev))).
    change (@nth double (n * i + j) V (dofZ 0) = u_cov (w_var w u) (w_var w v)) in Q'. rewrite Q'. exact (proj2 (K i j u v Eu Ev)).
Qed.
