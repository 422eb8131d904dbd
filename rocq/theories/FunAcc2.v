(** * FunAcc2: rounding errors of the numerical derivatives (C70) *)

From Coq Require Import List ZArith Bool Reals Lra Lia Psatz.
From Coquelicot Require Import Coquelicot.
From Flocq Require Import Core BinarySingleNaN.
From Verif Require Import Base Num Map UReal World SpecObs Ieee IeeeFacts SpecIeee IeeeProofs IeeeProofs2 IeeeProofs3 IeeeProofs4
  IeeeCov SpecFun Derivs MathProofs FunProofs FunAcc SpecFunIeee Functions.
Import ListNotations.
Local Open Scope R_scope.

Lemma abs_bound x b : Rabs x <= b -> - b <= x <= b. Proof. apply Rabs_le_inv. Qed.
Lemma good_step_facts a (s : double) : good_step a s -> let h := real_of s in
  0 < h /\ 0 <= step_err a h <= / 4 /\ Rabs a + h <= pow2 291 /\ ur * (Rabs a + h) = step_err a h * h.
Proof.
  intros (_ & [L U] & A) h. fold h in L, U, A. assert (P := pow2_pos (-240)). assert (H : 0 < h) by lra. split; [exact H|].
  assert (U0 := pow2_pos (-53)). fold uround in U0. assert (A0 := Rabs_pos a).
  assert (E : Rabs a / h <= pow2 50) by (apply Rmult_le_reg_r with h; [exact H|]; unfold Rdiv; rewrite Rmult_assoc, Rinv_l by lra; lra).
  assert (E0 : 0 <= Rabs a / h) by (apply Rmult_le_pos; [exact A0|left; now apply Rinv_0_lt_compat]).
  assert (UP : uround * pow2 50 = / 8). { unfold uround. rewrite <- pow2_add. change (-53 + 50)%Z with (-3)%Z. unfold pow2. cbn. lra. }
  assert (US := ur_small).
  split; [unfold step_err; split; [apply Rmult_le_pos; lra|]; nra|]. split.
  - assert (P1 : pow2 291 = 2 * (pow2 50 * pow2 240)). { change 2 with (pow2 1). rewrite <- !pow2_add. reflexivity. }
    assert (P2 : 1 <= pow2 50) by (unfold pow2; cbn; lra). assert (P3 := pow2_pos 480). nra.
  - unfold step_err. field. lra.
Qed.
(** the step taken to the right *)
Lemma moved_right (mu s : double) : finite mu -> good_step (real_of mu) s -> let a := real_of mu in let h := real_of s in
  finite (dadd mu s) /\ exists h', real_of (dadd mu s) = a + 1 * h' /\ Rabs (h' - h) <= step_err a h * h.
Proof.
  intros Fm G a h. destruct (good_step_facts _ _ G) as (H & R & B & E). destruct G as (Fs & _). fold a h in H, R, B, E.
  assert (A0 := Rabs_pos a).
  destruct (dadd_round mu s Fm Fs) as [F V].
  { apply fits. fold a h. eapply Rle_trans; [apply Rabs_triang|]. rewrite (Rabs_pos_eq h) by lra. apply Rle_trans with (1 := B). apply pow2_le. lia. }
  split; [exact F|]. exists (real_of (dadd mu s) - a). split; [ring|]. rewrite V.
  destruct (nearest_sum mu s) as (e & He & Ee). rewrite Ee. fold a h.
  replace ((a + h) * (1 + e) - a - h) with ((a + h) * e) by ring. rewrite Rabs_mult, <- E, Rmult_comm.
  apply Rmult_le_compat; try apply Rabs_pos; [exact He|]. eapply Rle_trans; [apply Rabs_triang|]. rewrite (Rabs_pos_eq h); lra.
Qed.
Lemma real_of_opp (s : double) : real_of (dopp s) = - real_of s.
Proof. apply B2R_Bopp. Qed.
Lemma moved_left (mu s : double) : finite mu -> good_step (real_of mu) s -> let a := real_of mu in let h := real_of s in
  finite (dsub mu s) /\ exists h', real_of (dsub mu s) = a + -1 * h' /\ Rabs (h' - h) <= step_err a h * h.
Proof.
  intros Fm G a h. destruct (good_step_facts _ _ G) as (H & R & B & E). destruct G as (Fs & _). fold a h in H, R, B, E.
  assert (A0 := Rabs_pos a).
  assert (T : Rabs (a - h) <= Rabs a + h). { unfold Rminus. eapply Rle_trans; [apply Rabs_triang|]. rewrite Rabs_Ropp, (Rabs_pos_eq h); lra. }
  destruct (dsub_round mu s Fm Fs) as [F V].
  { apply fits. fold a h. apply Rle_trans with (1 := T), Rle_trans with (1 := B). apply pow2_le. lia. }
  split; [exact F|]. exists (a - real_of (dsub mu s)). split; [ring|]. rewrite V.
  destruct (nearest_sum mu (dopp s)) as (e & He & Ee). rewrite real_of_opp in Ee. fold a h in Ee |- *. unfold Rminus at 3. rewrite Ee.
  replace (a - (a + - h) * (1 + e) - h) with (- ((a - h) * e)) by ring. rewrite Rabs_Ropp, Rabs_mult, <- E, Rmult_comm.
  apply Rmult_le_compat; try apply Rabs_pos; [exact He|exact T].
Qed.
Lemma moved_near a h h' g : 0 < h -> g * g = 1 -> step_err a h <= / 4 -> Rabs (h' - h) <= step_err a h * h -> near a (2 * h) (a + g * h') /\ 3 / 4 * h <= h' <= 5 / 4 * h.
Proof.
  intros H Hg R D. apply abs_bound in D. assert (B : 3 / 4 * h <= h' <= 5 / 4 * h) by nra. split; [|exact B].
  apply near_g; [exact Hg|lra|lra].
Qed.

(** a difference of two values, divided *)
Lemma quotient_round (A B s : double) (Q : R) : finite A -> finite B -> 0 < real_of s <= pow2 500 ->
  Rabs ((real_of A - real_of B) / real_of s) <= Q -> Q <= pow2 500 ->
  let d := ddiv (dsub A B) s in finite d /\
  Rabs (real_of d - (real_of A - real_of B) / real_of s) <= 201 / 100 * ur * Q + pow2 (-1074) / 2.
Proof.
  intros FA FB [S0 S1] HQ LQ d. set (h := real_of s) in *. set (D := real_of A - real_of B) in *. set (q := D / h) in *.
  assert (U := ur_small). assert (Q0 := Rabs_pos q). assert (Eq : D = q * h) by (unfold q; field; lra).
  assert (P3 := pow2_pos 500). assert (P1000 : pow2 1000 = pow2 500 * pow2 500) by (rewrite <- pow2_add; reflexivity).
  destruct (dsub_round A B FA FB) as [Fd Ed].
  { apply fits. fold D. rewrite Eq, Rabs_mult, (Rabs_pos_eq h) by lra. apply Rle_trans with (pow2 1000); [|apply pow2_le; lia]. rewrite P1000. nra. }
  destruct (nearest_sum A (dopp B)) as (e & He & Ee). rewrite real_of_opp in Ee. fold (real_of A - real_of B) in Ee. fold D in Ed, Ee. rewrite Ee in Ed.
  destruct (nearest_pm (real_of (dsub A B) / h)) as (e' & t & He' & Ht & En).
  assert (Eh : real_of (dsub A B) / h = q * (1 + e)) by (rewrite Ed; unfold q; field; lra).
  rewrite Eh in *. apply abs_bound in He, He'.
  destruct (ddiv_round (dsub A B) s Fd) as [F V]; [fold h; lra|fold h; rewrite Eh; apply fits|].
  { rewrite Rabs_mult, (Rabs_pos_eq (1 + e)) by lra. apply Rle_trans with (2 * pow2 500); [nra|]. apply Rle_trans with (pow2 501); [|apply pow2_le; lia].
    right. change 2 with (pow2 1). rewrite <- pow2_add. reflexivity. }
  split; [exact F|]. unfold d. rewrite V. fold h. rewrite Eh, En.
  replace (q * (1 + e) * (1 + e') + t - q) with (q * (e + e' + e * e') + t) by ring.
  eapply Rle_trans; [apply Rabs_triang|].
  assert (P75 : pow2 (-1075) = pow2 (-1074) / 2). { unfold pow2. change (-1074)%Z with (1 + -1075)%Z. rewrite bpow_plus. change (bpow radix2 1) with 2. lra. }
  rewrite Rabs_mult. assert (Z : Rabs (e + e' + e * e') <= 201 / 100 * ur) by (apply Rabs_le; nra).
  assert (Rabs q * Rabs (e + e' + e * e') <= Q * (201 / 100 * ur)) by (apply Rmult_le_compat; try apply Rabs_pos; assumption). lra.
Qed.

(** the forward difference *)
Lemma forward_diff (g : double -> double) (F F1 F2 : R -> R) M del (mu s : double) :
  let a := real_of mu in let h := real_of s in finite mu -> good_step a s ->
  computes (near a (2 * h)) del g F -> derivs_on (near a (2 * h)) F [F1; F2] -> bounded_on (near a (2 * h)) F2 M ->
  forward_size h (F1 a) M del ->
  let d := ddiv (dsub (g (dadd mu s)) (g mu)) s in
  finite d /\ Rabs (real_of d - F1 a) <= forward_err a h (F1 a) M del.
Proof.
  intros a h Fm G C D B L d. unfold forward_size in L. destruct (good_step_facts _ _ G) as (H & R & _ & _). destruct (moved_right mu s Fm G) as (Fr & h' & Er & Hh). fold a h in H, R, Er, Hh.
  destruct (moved_near a h h' 1 H ltac:(ring) (proj2 R) Hh) as [Nr Bh].
  destruct (C _ Fr) as [FA EA]; [rewrite Er; exact Nr|]. rewrite Er in EA.
  assert (Na : near a (2 * h) a). { unfold near. rewrite Rminus_eq_0, Rabs_R0. apply Rabs_pos. }
  destruct (C mu Fm Na) as [FB EB]. fold a in EB.
  assert (T := tay2 a 1 (2 * h) ltac:(ring) ltac:(lra) F F1 F2 M (proj1 D) (proj1 (proj2 D)) B h' ltac:(lra)).
  assert (M0 : 0 <= M) by (eapply Rle_trans; [apply Rabs_pos|exact (B a Na)]).
  assert (D0 : 0 <= del) by (eapply Rle_trans; [apply Rabs_pos|exact EB]).
  set (A := real_of (g (dadd mu s))) in *. set (B0 := real_of (g mu)) in *.
  set (r := step_err a h) in *. set (f1 := F1 a) in *.
  assert (E0 : Rabs ((A - B0) / h - f1) <= r * Rabs f1 + 25 / 32 * (M * h) + 2 * del / h).
  { replace ((A - B0) / h - f1) with (((A - F (a + 1 * h')) - (B0 - F a) + (F (a + 1 * h') - F a - 1 * h' * f1) + (h' - h) * f1) / h) by (field; lra).
    unfold Rdiv at 1. rewrite Rabs_mult, (Rabs_pos_eq (/ h)) by (left; now apply Rinv_0_lt_compat).
    apply Rmult_le_reg_r with h; [exact H|]. rewrite Rmult_assoc, Rinv_l, Rmult_1_r by lra.
    replace ((r * Rabs f1 + 25 / 32 * (M * h) + 2 * del / h) * h) with (r * h * Rabs f1 + 25 / 32 * (M * (h * h)) + 2 * del) by (field; lra).
    assert (T1 := Rabs_triang (A - F (a + 1 * h') - (B0 - F a) + (F (a + 1 * h') - F a - 1 * h' * f1)) ((h' - h) * f1)).
    assert (T2 := Rabs_triang (A - F (a + 1 * h') - (B0 - F a)) (F (a + 1 * h') - F a - 1 * h' * f1)).
    assert (T3 := Rabs_triang (A - F (a + 1 * h')) (- (B0 - F a))). rewrite Rabs_Ropp in T3. fold (A - F (a + 1 * h') - (B0 - F a)) in T3.
    rewrite (Rabs_mult (h' - h)) in T1.
    assert (X : Rabs (h' - h) * Rabs f1 <= r * h * Rabs f1) by (apply Rmult_le_compat_r; [apply Rabs_pos|exact Hh]).
    assert (Y : M / 2 * h' ^ 2 <= 25 / 32 * (M * (h * h))).
    { replace (25 / 32 * (M * (h * h))) with (M / 2 * (5 / 4 * h) ^ 2) by (cbn; field). apply Rmult_le_compat_l; [lra|]. apply pow_incr. lra. }
    lra. }
  assert (U := ur_small). assert (P := pow2_pos (-1074)).
  set (p := M * h) in *. assert (P0 : 0 <= p) by (unfold p; apply Rmult_le_pos; lra).
  assert (Eq : 2 * del / h = 2 * (del / h)) by (unfold Rdiv; ring). assert (Eq3 : 3 * del / h = 3 * (del / h)) by (unfold Rdiv; ring).
  rewrite Eq in E0. rewrite Eq3 in L. set (q := del / h) in *. assert (Q0 : 0 <= q) by (unfold q; apply Rmult_le_pos; [lra|left; now apply Rinv_0_lt_compat]).
  assert (F0 := Rabs_pos f1). set (Q := 5 / 4 * Rabs f1 + 25 / 32 * p + 2 * q).
  assert (HQ : Rabs ((A - B0) / h) <= Q).
  { replace ((A - B0) / h) with (((A - B0) / h - f1) + f1) by ring. eapply Rle_trans; [apply Rabs_triang|]. unfold Q. nra. }
  destruct (quotient_round (g (dadd mu s)) (g mu) s Q FA FB) as [Fd Ed].
  { destruct G as (_ & [_ G] & _). fold h. split; [exact H|]. apply Rle_trans with (1 := G). apply pow2_le. lia. }
  { exact HQ. }
  { apply Rle_trans with (2 * pow2 490); [unfold Q; lra|]. apply Rle_trans with (pow2 491); [|apply pow2_le; lia].
    right. change 2 with (pow2 1). rewrite <- pow2_add. reflexivity. }
  split; [exact Fd|]. fold A B0 h in Ed. fold d in Ed.
  replace (real_of d - f1) with ((real_of d - (A - B0) / h) + ((A - B0) / h - f1)) by ring. eapply Rle_trans; [apply Rabs_triang|].
  unfold forward_err. fold r p. rewrite Eq3. fold q. unfold Q in *. nra.
Qed.

Lemma pow2_S e : pow2 (1 + e) = 2 * pow2 e. Proof. rewrite pow2_add. reflexivity. Qed.
Lemma two_real : real_of (dofZ 2) = 2. Proof. cbn. unfold F2R. cbn. lra. Qed.
(** twice a number is exact *)
Lemma double_exact (s : double) : finite s -> Rabs (real_of s) <= pow2 1000 -> finite (dmul (dofZ 2) s) /\ real_of (dmul (dofZ 2) s) = 2 * real_of s.
Proof.
  intros F B. assert (E : nearest (2 * real_of s) = 2 * real_of s).
  { unfold nearest. apply round_generic; [apply valid_rnd_N|]. assert (G := B2R_format s). fold (real_of s) in G.
    apply FLT_format_generic in G; [|reflexivity]. destruct G as [q Eq Hm He]. change (-1074 <= Fexp q)%Z in He. apply generic_format_FLT. exists (Float radix2 (Fnum q) (Fexp q + 1)); cbn [Fnum Fexp]; [|exact Hm|lia].
    rewrite Eq. unfold F2R. cbn [Fnum Fexp]. rewrite bpow_plus. change (bpow radix2 1) with 2. ring. }
  destruct (dmul_round (dofZ 2) s) as [F' V]; [reflexivity|exact F| |].
  - rewrite two_real. apply fits. rewrite Rabs_mult, (Rabs_pos_eq 2) by lra. apply Rle_trans with (2 * pow2 1000); [lra|].
    rewrite <- pow2_S. apply pow2_le. lia.
  - split; [exact F'|]. rewrite V, two_real. exact E.
Qed.
(** the points of a central difference *)
Lemma central_points (f : double -> double) (F : R -> R) del (mu s : double) :
  let a := real_of mu in let h := real_of s in finite mu -> good_step a s -> computes (near a (2 * h)) del f F ->
  exists hr hl, Rabs (hr - h) <= step_err a h * h /\ Rabs (hl - h) <= step_err a h * h /\
    finite (f (dadd mu s)) /\ Rabs (real_of (f (dadd mu s)) - F (a + 1 * hr)) <= del /\
    finite (f (dsub mu s)) /\ Rabs (real_of (f (dsub mu s)) - F (a + -1 * hl)) <= del /\
    finite (f mu) /\ Rabs (real_of (f mu) - F a) <= del.
Proof.
  intros a h Fm G C. destruct (good_step_facts _ _ G) as (H & R & _ & _).
  destruct (moved_right mu s Fm G) as (Fr & hr & Er & Hr). destruct (moved_left mu s Fm G) as (Fl & hl & El & Hl).
  fold a h in H, R, Er, Hr, El, Hl. exists hr, hl. split; [exact Hr|]. split; [exact Hl|].
  destruct (moved_near a h hr 1 H ltac:(ring) (proj2 R) Hr) as [Nr _]. destruct (moved_near a h hl (-1) H ltac:(ring) (proj2 R) Hl) as [Nl _].
  destruct (C _ Fr) as [F1 E1]; [rewrite Er; exact Nr|]. destruct (C _ Fl) as [F2 E2]; [rewrite El; exact Nl|]. rewrite Er in E1. rewrite El in E2.
  assert (Na : near a (2 * h) a). { unfold near. rewrite Rminus_eq_0, Rabs_R0. apply Rabs_pos. }
  destruct (C mu Fm Na) as [FB EB]. auto 10.
Qed.
Lemma cube_bound (h x : R) : 0 < h -> 0 <= x <= 5 / 4 * h -> 0 <= x ^ 3 <= 125 / 64 * (h * h * h).
Proof. intros H B. split; [apply pow_le; lra|]. replace (125 / 64 * (h * h * h)) with ((5 / 4 * h) ^ 3) by (cbn; field). apply pow_incr. lra. Qed.
Lemma fourth_bound (h x : R) : 0 < h -> 0 <= x <= 5 / 4 * h -> 0 <= x ^ 4 <= 625 / 256 * (h * h * h * h).
Proof. intros H B. split; [apply pow_le; lra|]. replace (625 / 256 * (h * h * h * h)) with ((5 / 4 * h) ^ 4) by (cbn; field). apply pow_incr. lra. Qed.

(** central difference, first derivative *)
Lemma central_diff1 (f : double -> double) (F F1 F2 F3 : R -> R) M del (mu s : double) :
  let a := real_of mu in let h := real_of s in finite mu -> good_step a s ->
  computes (near a (2 * h)) del f F -> derivs_on (near a (2 * h)) F [F1; F2; F3] -> bounded_on (near a (2 * h)) F3 M ->
  central_size1 h (F1 a) (F2 a) M del ->
  let d := ddiv (dsub (f (dadd mu s)) (f (dsub mu s))) (dmul (dofZ 2) s) in
  finite d /\ Rabs (real_of d - F1 a) <= central_err1 a h (F1 a) (F2 a) M del.
Proof.
  intros a h Fm G C D B L d. unfold central_size1 in L. destruct (good_step_facts _ _ G) as (H & R & _ & _). fold a h in H, R.
  destruct (central_points f F del mu s Fm G C) as (hr & hl & Hr & Hl & FA & EA & FL & EL & _ & EC). fold a h in Hr, Hl, EA, EL, EC.
  destruct (moved_near a h hr 1 H ltac:(ring) (proj2 R) Hr) as [_ Br]. destruct (moved_near a h hl (-1) H ltac:(ring) (proj2 R) Hl) as [_ Bl].
  assert (Na : near a (2 * h) a). { unfold near. rewrite Rminus_eq_0, Rabs_R0. apply Rabs_pos. }
  assert (Tr := tay3 a 1 (2 * h) ltac:(ring) ltac:(lra) F F1 F2 F3 M D B hr ltac:(lra)).
  assert (Tl := tay3 a (-1) (2 * h) ltac:(ring) ltac:(lra) F F1 F2 F3 M D B hl ltac:(lra)).
  assert (M0 : 0 <= M) by (eapply Rle_trans; [apply Rabs_pos|exact (B a Na)]).
  assert (D0 : 0 <= del) by (eapply Rle_trans; [apply Rabs_pos|exact EC]).
  set (A := real_of (f (dadd mu s))) in *. set (B0 := real_of (f (dsub mu s))) in *.
  set (r := step_err a h) in *. set (f1 := F1 a) in *. set (f2 := F2 a) in *.
  assert (Fs : finite s /\ Rabs h <= pow2 1000 /\ 2 * h <= pow2 500).
  { destruct G as (Fs & [_ G] & _). fold h in G. split; [exact Fs|]. rewrite Rabs_pos_eq by lra. split; [apply Rle_trans with (1 := G), pow2_le; lia|].
    apply Rle_trans with (2 * pow2 240); [lra|]. rewrite <- pow2_S. apply pow2_le. lia. }
  destruct Fs as (Fs & B1 & B2). destruct (double_exact s Fs B1) as [F2s E2s]. fold h in E2s.
  assert (E0 : Rabs ((A - B0) / (2 * h) - f1) <= r * Rabs f1 + 5 / 4 * (r * (h * Rabs f2)) + 1 / 3 * (M * (h * h)) + del / h).
  { replace ((A - B0) / (2 * h) - f1) with (((A - F (a + 1 * hr)) - (B0 - F (a + -1 * hl)) +
      (F (a + 1 * hr) - F a - 1 * hr * f1 - hr ^ 2 / 2 * f2) - (F (a + -1 * hl) - F a - -1 * hl * f1 - hl ^ 2 / 2 * f2) +
      ((hr - h) + (hl - h)) * f1 + (hr - hl) * (hr + hl) / 2 * f2) / (2 * h)) by (field; lra).
    unfold Rdiv at 1. rewrite Rabs_mult, (Rabs_pos_eq (/ (2 * h))) by (left; apply Rinv_0_lt_compat; lra).
    apply Rmult_le_reg_r with (2 * h); [lra|]. rewrite Rmult_assoc, Rinv_l, Rmult_1_r by lra.
    replace ((r * Rabs f1 + 5 / 4 * (r * (h * Rabs f2)) + 1 / 3 * (M * (h * h)) + del / h) * (2 * h))
      with (2 * (r * h) * Rabs f1 + 5 / 2 * (r * h * h) * Rabs f2 + 2 / 3 * (M * (h * h * h)) + 2 * del) by (field; lra).
    set (x1 := A - F (a + 1 * hr)) in *. set (x2 := B0 - F (a + -1 * hl)) in *.
    set (x3 := F (a + 1 * hr) - F a - 1 * hr * f1 - hr ^ 2 / 2 * f2) in *. set (x4 := F (a + -1 * hl) - F a - -1 * hl * f1 - hl ^ 2 / 2 * f2) in *.
    set (c1 := hr - h + (hl - h)). set (c2 := (hr - hl) * (hr + hl) / 2).
    assert (C1 : Rabs c1 <= 2 * (r * h)). { unfold c1. eapply Rle_trans; [apply Rabs_triang|]. lra. }
    assert (C2 : Rabs c2 <= 5 / 2 * (r * h * h)).
    { unfold c2, Rdiv. rewrite !Rabs_mult, (Rabs_pos_eq (/ 2)), (Rabs_pos_eq (hr + hl)) by lra.
      assert (Rabs (hr - hl) <= 2 * (r * h)). { replace (hr - hl) with ((hr - h) - (hl - h)) by ring. apply Rle_trans with (1 := Rabs_triang _ _). rewrite Rabs_Ropp. lra. }
      assert (Rabs (hr - hl) * (hr + hl) <= 2 * (r * h) * (5 / 2 * h)) by (apply Rmult_le_compat; [apply Rabs_pos|lra|assumption|lra]). lra. }
    assert (X1 : Rabs (c1 * f1) <= 2 * (r * h) * Rabs f1) by (rewrite Rabs_mult; apply Rmult_le_compat_r; [apply Rabs_pos|exact C1]).
    assert (X2 : Rabs (c2 * f2) <= 5 / 2 * (r * h * h) * Rabs f2) by (rewrite Rabs_mult; apply Rmult_le_compat_r; [apply Rabs_pos|exact C2]).
    assert (Y1 : M / 6 * hr ^ 3 <= M / 6 * (125 / 64 * (h * h * h))) by (apply Rmult_le_compat_l; [lra|apply cube_bound; lra]).
    assert (Y2 : M / 6 * hl ^ 3 <= M / 6 * (125 / 64 * (h * h * h))) by (apply Rmult_le_compat_l; [lra|apply cube_bound; lra]).
    assert (W : 0 <= M * (h * h * h)) by (apply Rmult_le_pos; [exact M0|]; repeat apply Rmult_le_pos; lra).
    apply abs_bound in EA, EL, Tr, Tl, X1, X2. apply Rabs_le. lra. }
  assert (U := ur_small). assert (P := pow2_pos (-1074)).
  set (p := M * (h * h)) in *. assert (P0 : 0 <= p) by (unfold p; apply Rmult_le_pos; [lra|]; apply Rmult_le_pos; lra).
  assert (Eq3 : 2 * del / h = 2 * (del / h)) by (unfold Rdiv; ring).
  rewrite Eq3 in L. set (q := del / h) in *. assert (Q0 : 0 <= q) by (unfold q; apply Rmult_le_pos; [lra|left; now apply Rinv_0_lt_compat]).
  assert (Ep : M * h * h = p) by (unfold p; ring). rewrite Ep in L. set (t2 := h * Rabs f2) in *.
  assert (T2 : 0 <= t2) by (unfold t2; apply Rmult_le_pos; [lra|apply Rabs_pos]).
  assert (F0 := Rabs_pos f1). set (Q := 5 / 4 * Rabs f1 + 5 / 16 * t2 + 1 / 3 * p + q).
  assert (HQ : Rabs ((A - B0) / (2 * h)) <= Q).
  { replace ((A - B0) / (2 * h)) with (((A - B0) / (2 * h) - f1) + f1) by ring. eapply Rle_trans; [apply Rabs_triang|]. unfold Q. nra. }
  destruct (quotient_round (f (dadd mu s)) (f (dsub mu s)) (dmul (dofZ 2) s) Q FA FL) as [Fd Ed].
  { rewrite E2s. lra. }
  { rewrite E2s. exact HQ. }
  { apply Rle_trans with (2 * pow2 490); [unfold Q; lra|]. rewrite <- pow2_S. apply pow2_le. lia. }
  split; [exact Fd|]. rewrite E2s in Ed. fold A B0 in Ed. fold d in Ed.
  replace (real_of d - f1) with ((real_of d - (A - B0) / (2 * h)) + ((A - B0) / (2 * h) - f1)) by ring. eapply Rle_trans; [apply Rabs_triang|].
  unfold central_err1. fold r. rewrite Eq3. fold q. rewrite Ep. replace (2 * r * h * Rabs f2) with (2 * (r * t2)) by (unfold t2; ring). unfold Q in *.
  set (rf := r * Rabs f1) in *. set (rt := r * t2) in *. assert (0 <= rt) by (unfold rt; apply Rmult_le_pos; lra).
  assert (Z1 : rt <= / 4 * t2) by (unfold rt; apply Rmult_le_compat_r; lra).
  assert (Z2 : 201 / 100 * ur * (5 / 4 * Rabs f1 + 5 / 16 * t2 + 1 / 3 * p + q) <= 3 * ur * Rabs f1 + 3 / 4 * (ur * t2) + ur * p + 3 * (ur * q)) by nra.
  assert (Z3 : ur * t2 <= rt). { unfold rt. apply Rmult_le_compat_r; [exact T2|]. unfold r, step_err. assert (0 <= Rabs a / h) by (apply Rmult_le_pos; [apply Rabs_pos|left; now apply Rinv_0_lt_compat]). nra. }
  assert (Z4 : ur * p <= / 1000 * p) by (apply Rmult_le_compat_r; lra). assert (Z5 : ur * q <= / 1000 * q) by (apply Rmult_le_compat_r; lra).
  rewrite Rmult_plus_distr_r. fold rf. 
  lra.
Qed.

(** central difference, second derivative *)
Lemma second_round (A B C s : double) (Q v : R) : finite A -> finite B -> finite C -> finite s -> pow2 (-240) <= real_of s <= pow2 240 ->
  let h := real_of s in Rabs ((real_of A + real_of B - 2 * real_of C) / (h * h)) <= Q -> Q <= pow2 491 ->
  Rabs (real_of C) <= v -> v <= pow2 480 ->
  let d := ddiv (dsub (dadd A B) (dmul (dofZ 2) C)) (dmul s s) in finite d /\
  Rabs (real_of d - (real_of A + real_of B - 2 * real_of C) / (h * h)) <= 41 / 10 * ur * Q + 21 / 10 * ur * v / (h * h) + pow2 (-1074) / 2.
Proof.
  intros FA FB FC Fs [S0 S1] h HQ LQ HC LC d. fold h in S0, S1. assert (P240 := pow2_pos (-240)). assert (H : 0 < h) by lra.
  set (D := real_of A + real_of B - 2 * real_of C) in *. set (q := D / (h * h)) in *. set (c := real_of C) in *.
  assert (Hh : 0 < h * h) by (apply Rmult_lt_0_compat; lra).
  assert (U := ur_small). assert (Q0 := Rabs_pos q). assert (Eq : D = q * (h * h)) by (unfold q; field; lra).
  assert (H2 : pow2 (-480) <= h * h <= pow2 480).
  { change (-480)%Z with (-240 + -240)%Z. change 480%Z with (240 + 240)%Z. rewrite !pow2_add. split; apply Rmult_le_compat; lra. }
  assert (P480 := pow2_pos 480). assert (P491 := pow2_pos 491). assert (Pm := pow2_pos (-480)).
  assert (V0 : 0 <= v) by (eapply Rle_trans; [apply Rabs_pos|exact HC]).
  assert (BD : Rabs D <= pow2 971).
  { rewrite Eq, Rabs_mult, (Rabs_pos_eq (h * h)) by lra. replace (pow2 971) with (pow2 491 * pow2 480) by (rewrite <- pow2_add; reflexivity).
    apply Rmult_le_compat; lra. }
  assert (BS : Rabs (real_of A + real_of B) <= pow2 972).
  { replace (real_of A + real_of B) with (D + 2 * c) by (unfold D; ring). eapply Rle_trans; [apply Rabs_triang|]. rewrite Rabs_mult, (Rabs_pos_eq 2) by lra.
    change 972%Z with (1 + 971)%Z. rewrite pow2_S. assert (2 * pow2 480 <= pow2 971) by (rewrite <- pow2_S; apply pow2_le; lia). lra. }
  destruct (dadd_round A B FA FB) as [FS ES]; [apply fits, Rle_trans with (1 := BS), pow2_le; lia|].
  destruct (nearest_sum A B) as (e1 & He1 & Ee1). rewrite Ee1 in ES.
  destruct (double_exact C FC) as [F2 E2]; [fold c; apply Rle_trans with (1 := HC), Rle_trans with (1 := LC), pow2_le; lia|]. fold c in E2.
  set (S := dadd A B) in *. set (T := dmul (dofZ 2) C) in *. set (w := real_of A + real_of B) in *.
  assert (Ew : w = D + 2 * c) by (unfold D; ring). apply abs_bound in He1.
  assert (EN : real_of S - real_of T = D + w * e1) by (rewrite ES, E2; unfold D; fold w c; ring).
  assert (Bw : Rabs (w * e1) <= pow2 972). { rewrite Rabs_mult. assert (Rabs e1 <= 1) by (apply Rabs_le; lra). assert (Y := Rabs_pos w). assert (Y1 := Rabs_pos e1). nra. }
  assert (L971 : pow2 971 <= pow2 972) by (apply pow2_le; lia).
  destruct (dsub_round S T FS F2) as [FN VN].
  { apply fits. rewrite EN. eapply Rle_trans; [apply Rabs_triang|]. apply Rle_trans with (2 * pow2 972); [lra|]. rewrite <- pow2_S. apply pow2_le. lia. }
  destruct (nearest_sum S (dopp T)) as (e2 & He2 & Ee2). rewrite real_of_opp in Ee2. fold (real_of S - real_of T) in Ee2. rewrite Ee2, EN in VN. apply abs_bound in He2.
  set (n := dsub S T) in *.
  destruct (dmul_round s s Fs Fs) as [Fh Vh].
  { fold h. apply fits. rewrite Rabs_pos_eq by lra. apply Rle_trans with (1 := proj2 H2), pow2_le. lia. }
  fold h in Vh. assert (Rh := rel_err (h * h)). rewrite Rabs_pos_eq in Rh by lra. fold uround in Rh.
  assert (Rh' : Rabs (nearest (h * h) - h * h) <= ur * (h * h)). { apply Rh. apply Rle_trans with (2 := proj1 H2), pow2_le. lia. } clear Rh.
  set (k := nearest (h * h)) in *. apply abs_bound in Rh'. set (e0 := k / (h * h) - 1).
  assert (Ek : k = h * h * (1 + e0)) by (unfold e0; field; lra).
  assert (He0 : - ur <= e0 <= ur). { rewrite Ek in Rh'. split; apply Rmult_le_reg_l with (h * h); lra. }
  assert (K0 : 0 < k) by (rewrite Ek; apply Rmult_lt_0_compat; lra).
  set (y := w / (h * h)). assert (Ey : w = y * (h * h)) by (unfold y; field; lra).
  assert (En : real_of n / k = (q + y * e1) * ((1 + e2) / (1 + e0))).
  { rewrite VN, Ek, Eq, Ey. field. lra. }
  set (g := (1 + e2) / (1 + e0)) in *.
  assert (Eg : g * (1 + e0) = 1 + e2) by (unfold g; field; lra).
  assert (Hg : 1 - 201 / 100 * ur <= g <= 1 + 201 / 100 * ur) by (split; nra).
  assert (By : Rabs y <= Q + 2 * v / (h * h)).
  { unfold y, Rdiv. rewrite Ew, Rmult_plus_distr_r. eapply Rle_trans; [apply Rabs_triang|]. apply Rplus_le_compat; [exact HQ|].
    rewrite !Rabs_mult, (Rabs_pos_eq 2), (Rabs_pos_eq (/ (h * h))) by first [lra|left; now apply Rinv_0_lt_compat].
    apply Rmult_le_compat_r; [left; now apply Rinv_0_lt_compat|lra]. }
  assert (E2v : 2 * v / (h * h) = 2 * (v / (h * h))) by (unfold Rdiv; ring). rewrite E2v in By.
  replace (21 / 10 * ur * v / (h * h)) with (21 / 10 * ur * (v / (h * h))) by (unfold Rdiv; ring).
  assert (BV : 0 <= v / (h * h) <= pow2 960).
  { split; [apply Rmult_le_pos; [lra|left; now apply Rinv_0_lt_compat]|]. apply Rmult_le_reg_r with (h * h); [exact Hh|]. unfold Rdiv. rewrite Rmult_assoc, Rinv_l, Rmult_1_r by lra.
    apply Rle_trans with (1 := LC). apply Rle_trans with (pow2 960 * pow2 (-480)); [right; rewrite <- pow2_add; reflexivity|]. apply Rmult_le_compat_l; [left; apply pow2_pos|lra]. }
  set (x := v / (h * h)) in *.
  assert (HQ0 : 0 <= Q) by lra.
  assert (Bye : Rabs (y * e1) <= ur * (Q + 2 * x)). { rewrite Rabs_mult, Rmult_comm. apply Rmult_le_compat; try apply Rabs_pos; [apply Rabs_le; lra|exact By]. }
  set (z := y * e1) in *. assert (Z0 := Rabs_pos z).
  assert (Bn : Rabs ((q + z) * g) <= 2 * (Q + ur * (Q + 2 * x))).
  { rewrite Rabs_mult, Rmult_comm. apply Rmult_le_compat; try apply Rabs_pos; [apply Rabs_le; lra|]. eapply Rle_trans; [apply Rabs_triang|]. lra. }
  destruct (ddiv_round n (dmul s s) FN) as [F V]; [rewrite Vh; lra|rewrite Vh, En; apply fits, Rle_trans with (1 := Bn)|].
  { assert (A1 : pow2 491 <= pow2 1019) by (apply pow2_le; lia). assert (A2 : pow2 960 <= pow2 1019) by (apply pow2_le; lia).
    assert (A3 := pow2_S 1019). assert (A4 := pow2_S 1020). assert (A5 := pow2_S 1021). assert (A6 := pow2_S 1022). 
    assert (ur * (Q + 2 * x) <= 1 * (Q + 2 * x)) by (apply Rmult_le_compat_r; lra). change (1 + 1019)%Z with 1020%Z in A3.  change (1 + 1020)%Z with 1021%Z in A4.  change (1 + 1021)%Z with 1022%Z in A5.  change (1 + 1022)%Z with 1023%Z in A6. lra. }
  split; [exact F|]. unfold d. rewrite V, Vh, En.
  destruct (nearest_pm ((q + z) * g)) as (e3 & t & He3 & Ht & Et). rewrite Et. apply abs_bound in He3.
  assert (P75 : pow2 (-1075) = pow2 (-1074) / 2). { change (-1074)%Z with (1 + -1075)%Z. rewrite pow2_S. lra. }
  assert (Hgg : Rabs (g * (1 + e3) - 1) <= 302 / 100 * ur) by (apply Rabs_le; nra).
  replace ((q + z) * g * (1 + e3) + t - q) with (q * (g * (1 + e3) - 1) + z * (1 + (g * (1 + e3) - 1)) + t) by ring.
  set (m := g * (1 + e3) - 1) in *.
  assert (W1 : Rabs (q * m) <= 302 / 100 * ur * Q). { rewrite Rabs_mult, Rmult_comm. apply Rmult_le_compat; try apply Rabs_pos; assumption. }
  assert (W2 : Rabs (z * (1 + m)) <= 101 / 100 * (ur * (Q + 2 * x))).
  { apply abs_bound in Hgg. rewrite Rabs_mult, Rmult_comm. apply Rmult_le_compat; try apply Rabs_pos; [apply Rabs_le; lra|exact Bye]. }
  eapply Rle_trans; [apply Rabs_triang|]. eapply Rle_trans; [apply Rplus_le_compat_r, Rabs_triang|]. rewrite P75 in Ht. 
  assert (0 <= ur * Q) by (apply Rmult_le_pos; lra). assert (0 <= ur * x) by (apply Rmult_le_pos; lra). lra.
Qed.
