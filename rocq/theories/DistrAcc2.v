(** * DistrAcc2: the distributions of distr.hpp are accepted on doubles (C77) *)

From Coq Require Import List ZArith Reals Bool Lra Lia Psatz.
From Flocq Require Import Core BinarySingleNaN.
From Verif Require Import Base Num Map UReal World HessGrad CheckMoments UReal2 Distr SpecObs Sums Ieee IeeeFacts SpecIeee IeeeProofs3 IeeeProofs4
  IeeeCov SpecProb SpecHankel CheckProofs SpecDistr SpecMathIeee SpecDistrIeee IeeeRel MathAcc2 IoAcc1 DistrAcc.
Import ListNotations.
Local Open Scope R_scope.

(** ** Quadratic forms bounded below *)
Definition sq (v : nat -> R) : R := v 0%nat * v 0%nat + v 1%nat * v 1%nat + v 2%nat * v 2%nat + v 3%nat * v 3%nat + v 4%nat * v 4%nat.
Definition coercive (c : R) (M : nat -> nat -> R) : Prop := forall v, c * sq v <= mform M v.
Lemma eig_unit M lam : eigenvalues M lam -> forall k, (k < 5)%nat -> exists v, sq v = 1 /\ mform M v = nth k lam 0.
Proof.
  intros (_ & Q & H1 & _ & H3) k Hk. exists (Q k). split.
  { generalize (H1 k k Hk Hk). unfold delta. rewrite Nat.eqb_refl. intros <-. unfold sq, five, rsum. cbn. ring. }
  unfold mform. transitivity (rsum five (fun i => nth k lam 0 * (Q k i * Q k i))).
  - apply rsum_ext. intros i Hi. transitivity (rsum five (fun j => Q k i * (M i j * Q k j))); [apply rsum_ext; intros; ring|].
    rewrite rsum_scal, H3; [ring|exact Hk|]. apply in_seq in Hi. lia.
  - rewrite rsum_scal, H1 by assumption. unfold delta. rewrite Nat.eqb_refl. ring.
Qed.
Lemma coercive_eig c M lam : eigenvalues M lam -> coercive c M -> forall k, (k < 5)%nat -> c <= nth k lam 0.
Proof. intros EV C k Hk. destruct (eig_unit M lam EV k Hk) as (v & S1 & <-). assert (H := C v). rewrite S1 in H. lra. Qed.
Lemma mform_lin M M' v : mform M' v = mform M v + mform (fun i j => M' i j - M i j) v.
Proof. unfold mform, five, rsum. cbn. ring. Qed.
Lemma abs_form (a b d t : R) : Rabs t <= d -> - d * ((a * a + b * b) / 2) <= a * t * b.
Proof.
  intro H. apply Rabs_le_inv in H. assert (P1 := Rle_0_sqr (a + b)). assert (P2 := Rle_0_sqr (a - b)). unfold Rsqr in P1, P2.
  assert (Q1 : 0 <= (d - t) * ((a - b) * (a - b))) by (apply Rmult_le_pos; lra).
  assert (Q2 : 0 <= (d + t) * ((a + b) * (a + b))) by (apply Rmult_le_pos; lra). lra.
Qed.
Lemma coercive_perturb c d M M' : (forall i j, (i < 5)%nat -> (j < 5)%nat -> Rabs (M' i j - M i j) <= d) ->
  coercive c M -> coercive (c - 5 * d) M'.
Proof.
  intros D C v. rewrite (mform_lin M M'). assert (H := C v).
  assert (P : - (5 * d) * sq v <= mform (fun i j => M' i j - M i j) v); [|lra].
  unfold mform, five. apply Rle_trans with (rsum (seq 0 5) (fun i => rsum (seq 0 5) (fun j => - d * ((v i * v i + v j * v j) / 2)))).
  - right. unfold sq, rsum. cbn. field.
  - apply rsum_le. intros i Hi. apply rsum_le. intros j Hj. apply in_seq in Hi, Hj. apply abs_form, D; lia.
Qed.
Lemma cauchy5 a0 a1 a2 a3 a4 w0 w1 w2 w3 w4 :
  (a0 * w0 + a1 * w1 + a2 * w2 + a3 * w3 + a4 * w4) * (a0 * w0 + a1 * w1 + a2 * w2 + a3 * w3 + a4 * w4) <=
  (a0 * a0 + a1 * a1 + a2 * a2 + a3 * a3 + a4 * a4) * (w0 * w0 + w1 * w1 + w2 * w2 + w3 * w3 + w4 * w4).
Proof.
  assert (S : forall a b x y, 0 <= (a * x - b * y) * (a * x - b * y)) by (intros; apply Rle_0_sqr).
  assert (H : 0 <= (a0 * w1 - a1 * w0) * (a0 * w1 - a1 * w0) + (a0 * w2 - a2 * w0) * (a0 * w2 - a2 * w0) + (a0 * w3 - a3 * w0) * (a0 * w3 - a3 * w0)
    + (a0 * w4 - a4 * w0) * (a0 * w4 - a4 * w0) + (a1 * w2 - a2 * w1) * (a1 * w2 - a2 * w1) + (a1 * w3 - a3 * w1) * (a1 * w3 - a3 * w1)
    + (a1 * w4 - a4 * w1) * (a1 * w4 - a4 * w1) + (a2 * w3 - a3 * w2) * (a2 * w3 - a3 * w2) + (a2 * w4 - a4 * w2) * (a2 * w4 - a4 * w2)
    + (a3 * w4 - a4 * w3) * (a3 * w4 - a4 * w3)).
  { repeat apply Rplus_le_le_0_compat; apply S. }
  lra.
Qed.

(** The chi-square distribution, with x = sqrt(2/k); x = 0 is the normal distribution *)
Definition chi_at (x : R) (k : nat) : R :=
  match k with
  | 0%nat => 1 | 1%nat => 0 | 2%nat => 1
  | 3%nat => 2 * x
  | 4%nat => 3 + 6 * (x * x)
  | 5%nat => x * (20 + 24 * (x * x))
  | 6%nat => 15 + (260 + 240 * (x * x)) * (x * x) / 2
  | 7%nat => x * ((1440 * (x * x) + 1848) * (x * x) / 2 + 210)
  | 8%nat => 105 + ((20160 * (x * x) + 29232) * (x * x) / 2 + 4760) * (x * x) / 2
  | _ => 0
  end.
Lemma chi_coercive x : 0 <= x -> x * x <= 2 -> coercive (/ 8000) (hmat (chi_at x)).
Proof.
  intros X0 X2 v. set (q := x * x) in *. assert (Q0 : 0 <= q) by (unfold q; nra).
  set (w4 := v 4%nat). set (w3 := v 3%nat + 12 * x * w4). set (w2 := v 2%nat - (36 * q - 6) * w4 + 6 * x * w3).
  set (w1 := v 1%nat - (28 * x - 24 * (x * q)) * w4 - (6 * q - 3) * w3 + 2 * x * w2).
  set (w0 := v 0%nat - (3 - 18 * q) * w4 - 4 * x * w3 + w2).
  assert (E : mform (hmat (chi_at x)) v = w0 * w0 + w1 * w1 + 2 * (1 + q) * (w2 * w2) + 6 * (1 + q) * (1 + 2 * q) * (w3 * w3)
     + 24 * (1 + q) * (1 + 2 * q) * (1 + 3 * q) * (w4 * w4)).
  { unfold mform, hmat, five, rsum. cbn. unfold w0, w1, w2, w3, w4, q. field. }
  set (W := w0 * w0 + w1 * w1 + w2 * w2 + w3 * w3 + w4 * w4).
  assert (P : forall w, 0 <= w * w) by (intro; apply Rle_0_sqr).
  assert (LW : W <= mform (hmat (chi_at x)) v).
  { rewrite E. assert (A2 : 1 <= 2 * (1 + q)) by lra. assert (A3 : 1 <= 6 * (1 + q) * (1 + 2 * q)) by nra.
    assert (A4 : 1 <= 24 * (1 + q) * (1 + 2 * q) * (1 + 3 * q)).
    { assert (1 <= (1 + q) * (1 + 2 * q)) by nra. nra. }
    assert (B2 := Rmult_le_compat_r _ _ _ (P w2) A2). assert (B3 := Rmult_le_compat_r _ _ _ (P w3) A3). assert (B4 := Rmult_le_compat_r _ _ _ (P w4) A4).
    unfold W. lra. }
  assert (V4 : v 4%nat * v 4%nat <= W) by (assert (P0 := P w0); assert (P1 := P w1); assert (P2 := P w2); assert (P3 := P w3); unfold W; fold w4; lra).
  assert (W0 : 0 <= W) by (assert (P4 := P (v 4%nat)); lra).
  assert (V3 : v 3%nat * v 3%nat <= (1 + 144 * q) * W).
  { assert (C := cauchy5 0 0 0 1 (- (12 * x)) w0 w1 w2 w3 w4).
    replace (v 3%nat) with (0 * w0 + 0 * w1 + 0 * w2 + 1 * w3 + - (12 * x) * w4) by (unfold w3; ring).
    eapply Rle_trans; [exact C|]. right. unfold W, q. ring. }
  assert (V2 : v 2%nat * v 2%nat <= (1 + 36 * q + (36 * q - 6) * (36 * q - 6)) * W).
  { assert (C := cauchy5 0 0 1 (- (6 * x)) (36 * q - 6) w0 w1 w2 w3 w4).
    replace (v 2%nat) with (0 * w0 + 0 * w1 + 1 * w2 + - (6 * x) * w3 + (36 * q - 6) * w4) by (unfold w2; ring).
    eapply Rle_trans; [exact C|]. right. unfold W, q. ring. }
  assert (V1 : v 1%nat * v 1%nat <= (1 + 4 * q + (6 * q - 3) * (6 * q - 3) + q * ((28 - 24 * q) * (28 - 24 * q))) * W).
  { assert (C := cauchy5 0 1 (- (2 * x)) (6 * q - 3) (28 * x - 24 * (x * q)) w0 w1 w2 w3 w4).
    replace (v 1%nat) with (0 * w0 + 1 * w1 + - (2 * x) * w2 + (6 * q - 3) * w3 + (28 * x - 24 * (x * q)) * w4) by (unfold w1; ring).
    eapply Rle_trans; [exact C|]. right. unfold W, q. ring. }
  assert (V0 : v 0%nat * v 0%nat <= (1 + 1 + 16 * q + (3 - 18 * q) * (3 - 18 * q)) * W).
  { assert (C := cauchy5 1 0 (-1) (4 * x) (3 - 18 * q) w0 w1 w2 w3 w4).
    replace (v 0%nat) with (1 * w0 + 0 * w1 + -1 * w2 + 4 * x * w3 + (3 - 18 * q) * w4) by (unfold w0; ring).
    eapply Rle_trans; [exact C|]. right. unfold W, q. ring. }
  assert (B : sq v <= 8000 * W).
  { assert (K2 : (36 * q - 6) * (36 * q - 6) <= 4356) by nra. assert (K1 : (6 * q - 3) * (6 * q - 3) <= 81) by nra.
    assert (K1' : q * ((28 - 24 * q) * (28 - 24 * q)) <= 1568).
    { assert (T : (28 - 24 * q) * (28 - 24 * q) <= 784) by nra. assert (T0 := P (28 - 24 * q)).
      apply Rle_trans with (2 * 784); [apply Rmult_le_compat; lra|lra]. }
    assert (K0 : (3 - 18 * q) * (3 - 18 * q) <= 1089) by nra.
    assert (T3 : (1 + 144 * q) * W <= 289 * W) by (apply Rmult_le_compat_r; lra).
    assert (T2 : (1 + 36 * q + (36 * q - 6) * (36 * q - 6)) * W <= 4429 * W) by (apply Rmult_le_compat_r; lra).
    assert (T1 : (1 + 4 * q + (6 * q - 3) * (6 * q - 3) + q * ((28 - 24 * q) * (28 - 24 * q))) * W <= 1658 * W) by (apply Rmult_le_compat_r; lra).
    assert (T0 : (1 + 1 + 16 * q + (3 - 18 * q) * (3 - 18 * q)) * W <= 1123 * W) by (apply Rmult_le_compat_r; lra).
    unfold sq. lra. }
  lra.
Qed.

Definition uni_at (k : nat) : R :=
  match k with 0%nat => 1 | 1%nat => 0 | 2%nat => 1 | 3%nat => 0 | 4%nat => 9 / 5 | 5%nat => 0 | 6%nat => 27 / 7 | 7%nat => 0 | 8%nat => 9 | _ => 0 end.
Lemma uni_coercive : coercive (/ 8000) (hmat uni_at).
Proof.
  intro v. set (w4 := v 4%nat). set (w3 := v 3%nat). set (w2 := v 2%nat + 18 / 7 * w4). set (w1 := v 1%nat + 9 / 5 * w3).
  set (w0 := v 0%nat + w2 - 27 / 35 * w4).
  assert (E : mform (hmat uni_at) v = w0 * w0 + w1 * w1 + 4 / 5 * (w2 * w2) + 108 / 175 * (w3 * w3) + 576 / 1225 * (w4 * w4)).
  { unfold mform, hmat, five, rsum. cbn. unfold w0, w1, w2, w3, w4. field. }
  set (W := w0 * w0 + w1 * w1 + w2 * w2 + w3 * w3 + w4 * w4).
  assert (P : forall w, 0 <= w * w) by (intro; apply Rle_0_sqr).
  assert (P0 := P w0). assert (P1 := P w1). assert (P2 := P w2). assert (P3 := P w3). assert (P4 := P w4).
  assert (LW : W <= 3 * mform (hmat uni_at) v) by (rewrite E; unfold W; lra).
  assert (V2 : v 2%nat * v 2%nat <= (1 + 324 / 49) * W).
  { assert (C := cauchy5 0 0 1 0 (- (18 / 7)) w0 w1 w2 w3 w4).
    replace (v 2%nat) with (0 * w0 + 0 * w1 + 1 * w2 + 0 * w3 + - (18 / 7) * w4) by (unfold w2; ring).
    eapply Rle_trans; [exact C|]. right. unfold W. field. }
  assert (V1 : v 1%nat * v 1%nat <= (1 + 81 / 25) * W).
  { assert (C := cauchy5 0 1 0 (- (9 / 5)) 0 w0 w1 w2 w3 w4).
    replace (v 1%nat) with (0 * w0 + 1 * w1 + 0 * w2 + - (9 / 5) * w3 + 0 * w4) by (unfold w1; ring).
    eapply Rle_trans; [exact C|]. right. unfold W. field. }
  assert (V0 : v 0%nat * v 0%nat <= 3 * W).
  { assert (C := cauchy5 1 0 (-1) 0 (27 / 35) w0 w1 w2 w3 w4).
    replace (v 0%nat) with (1 * w0 + 0 * w1 + -1 * w2 + 0 * w3 + 27 / 35 * w4) by (unfold w0; ring).
    eapply Rle_trans; [exact C|]. fold W. apply Rmult_le_compat_r; [unfold W; lra|lra]. }
  unfold sq. fold w3 w4. unfold W in *. lra.
Qed.

(** ** The check of the constructor *)
Lemma hankel_moment (m : moms DN) : hankel (N := DN) (moms_list m) = lower_triangle (moment m).
Proof. destruct m. reflexivity. Qed.
Lemma dlt_true (a b : double) : finite a -> finite b -> real_of a < real_of b -> nltb (n := DN) a b = true.
Proof. intros F G H. change (nltb (n := DN) a b) with (Bltb a b). rewrite (Bltb_correct 53 1024 a b F G). now apply Rlt_bool_true. Qed.
Lemma dlt_false (a b : double) : finite a -> finite b -> real_of b <= real_of a -> nltb (n := DN) a b = false.
Proof. intros F G H. change (nltb (n := DN) a b) with (Bltb a b). rewrite (Bltb_correct 53 1024 a b F G). now apply Rlt_bool_false. Qed.
Lemma dle_true (a b : double) : finite a -> finite b -> real_of a <= real_of b -> nleb (n := DN) a b = true.
Proof. intros F G H. change (nleb (n := DN) a b) with (Bleb a b). rewrite (Bleb_correct 53 1024 a b F G). now apply Rle_bool_true. Qed.
Lemma F0 : finite (dofZ 0) /\ real_of (dofZ 0) = 0. Proof. exact (dofZ_exact 0 ltac:(lia)). Qed.
Lemma F1 : finite (dofZ 1) /\ real_of (dofZ 1) = 1. Proof. exact (dofZ_exact 1 ltac:(lia)). Qed.
Lemma Fm1 : finite (dofZ (-1)) /\ real_of (dofZ (-1)) = -1. Proof. exact (dofZ_exact (-1) ltac:(lia)). Qed.
Lemma scan_pos (lam : list double) : List.Forall (fun a => finite a /\ 0 < real_of a) lam ->
  forall p, finite p -> (p = dofZ (-1) -> lam <> []) -> (p = dofZ (-1) \/ 0 < real_of p) ->
  exists p', fold_left (ham_step (N := DN)) lam (p, dofZ 1) = (p', dofZ 1) /\ finite p' /\ 0 < real_of p'.
Proof.
  destruct F0 as [G0 E0]. destruct F1 as [G1 E1]. destruct Fm1 as [Gm Em].
  induction 1 as [|a lam [Fa Pa] _ IH]; intros p Fp Np Hp.
  - destruct Hp as [->|Hp]; [now elim (Np eq_refl)|]. exists p. auto.
  - cbn [fold_left]. unfold ham_step at 2.
    assert (A1 : nltb (n := DN) a (n0 (n := DN)) = false) by (apply (dlt_false a (dofZ 0)); [exact Fa|exact G0|rewrite E0; lra]).
    assert (A2 : nleb (n := DN) (n0 (n := DN)) a = true) by (apply (dle_true (dofZ 0) a); [exact G0|exact Fa|rewrite E0; lra]).
    rewrite A1, A2. cbn [andb].
    destruct (nltb (n := DN) p a) eqn:L.
    + apply IH; [exact Fa| |right; exact Pa]. intros E _. rewrite E, Em in Pa. lra.
    + assert (Hp' : 0 < real_of p).
      { destruct Hp as [->|Hp]; [|exact Hp]. rewrite (dlt_true (dofZ (-1)) a Gm Fa) in L; [discriminate|]. rewrite Em. lra. }
      apply IH; [exact Fp| |right; exact Hp']. intros E _. rewrite E, Em in Hp'. lra.
Qed.
Lemma check_pos eig (m : moms DN) lam : eig (lower_triangle (moment m)) = Some lam -> lam <> [] ->
  List.Forall (fun a : double => finite a /\ 0 < real_of a) lam ->
  check_moments_throw (N := DN) eig (moms_list m) (dofZ 0) = Ret tt.
Proof.
  intros E Ne Pl. destruct F0 as [G0 E0]. destruct F1 as [G1 E1]. destruct Fm1 as [Gm Em].
  destruct (scan_pos lam Pl (dofZ (-1)) Gm (fun _ => Ne) (or_introl eq_refl)) as (p & Ep & Fp & Pp).
  unfold check_moments_throw, check_moments. rewrite hankel_moment. unfold hamburger. rewrite E.
  assert (Ep' : fold_left (ham_step (N := DN)) lam (nofZ (n := DN) (-1), nofZ (n := DN) 1) = (p : DN, nofZ (n := DN) 1)) by exact Ep. rewrite Ep'.
  assert (A1 : nltb (n := DN) p (n0 (n := DN)) = false) by (apply (dlt_false p (dofZ 0)); [exact Fp|exact G0|rewrite E0; lra]).
  assert (A2 : nltb (n := DN) (n0 (n := DN)) (dofZ 1) = true) by (apply (dlt_true (dofZ 0) (dofZ 1)); [exact G0|exact G1|rewrite E0, E1; lra]).
  change (dofZ 1) with (nofZ (n := DN) 1) in A2. rewrite A1, A2. reflexivity.
Qed.

Lemma accepted e eig last (n s : double) (m : moms DN) (mu : nat -> R) : e <= pow2 (-32) -> solver_close e eig -> coercive (/ 8000) (hmat mu) ->
  (forall k, (k <= 8)%nat -> Rabs (mu k) <= 75000 /\ close (9 * ur) (moment m k) (mu k)) -> nltb (n := DN) s (dofZ 0) = false ->
  exists x, u2_new_std (N := DN) eig last n s m (dofZ 0) = (wrap32 (last + 1), Ret x).
Proof.
  intros He SC C A Hs. assert (U53 : ur = / 9007199254740992) by reflexivity.
  assert (P17 : pow2 17 = 131072) by reflexivity. assert (Pe : pow2 (-32) = / 4294967296) by reflexivity.
  assert (D : forall k, (k <= 8)%nat -> Rabs (real_of (moment m k) - mu k) <= / 1000000).
  { intros k Hk. destruct (A k Hk) as [B [_ Cl]]. eapply Rle_trans; [exact Cl|]. rewrite U53. lra. }
  destruct (SC (moment m) (pow2 17) eq_refl) as (lam & ex & El & Ll & EV & Cl).
  - intros k Hk. destruct (A k Hk) as [B [F _]]. split; [exact F|]. assert (Dk := D k Hk).
    replace (real_of (moment m k)) with (mu k + (real_of (moment m k) - mu k)) by ring. eapply Rle_trans; [apply Rabs_triang|]. lra.
  - apply pow2_le. lia.
  - assert (C' : coercive (/ 8000 - 5 * / 1000000) (hmat (fun k => real_of (moment m k)))).
    { apply (coercive_perturb _ _ (hmat mu)); [|exact C]. intros i j Hi Hj. unfold hmat. apply D. lia. }
    assert (Pl : List.Forall (fun a : double => finite a /\ 0 < real_of a) lam).
    { apply List.Forall_forall. intros a Ha. apply (In_nth lam a (dofZ 0)) in Ha as (k & Hk & <-). rewrite Ll in Hk.
      destruct (Cl k Hk) as [Fk Ck]. split; [exact Fk|]. assert (L := coercive_eig _ _ _ EV C' k Hk). apply Rabs_le_inv in Ck.
      rewrite P17 in Ck. lra. }
    unfold u2_new_std. change (n0 (n := DN)) with (dofZ 0). rewrite Hs. change (nltb (n := DN) (dofZ 0) (dofZ 0)) with false. cbn [negb].
    rewrite (check_pos eig m lam El); [eauto| |exact Pl]. intros ->. discriminate Ll.
Qed.

(** ** The three distributions *)
Lemma ratio_sq (a b K : R) : a * a = 2 -> b * b = K -> 0 < b -> a / b * (a / b) = 2 / K.
Proof. intros Ea Eb Pb. rewrite <- Ea, <- Eb. field. lra. Qed.
Lemma chi_at_moments k : (0 < k)%Z -> forall j, (j <= 8)%nat ->
  stdmom (chisquare_moments (N := RN) k) j = chi_at (sqrt 2 / sqrt (IZR k)) j.
Proof.
  intros Hk j Hj. assert (HK : 0 < IZR k) by now apply (IZR_lt 0). set (K := IZR k) in *.
  assert (S2 : sqrt 2 * sqrt 2 = 2) by (apply sqrt_sqrt; lra). assert (SK : sqrt K * sqrt K = K) by (apply sqrt_sqrt; lra).
  assert (PK : 0 < sqrt K) by now apply sqrt_lt_R0.
  assert (X : sqrt 2 / sqrt K * (sqrt 2 / sqrt K) = 2 / K).
  { now apply ratio_sq. }
  do 9 (destruct j as [|j]; [unfold stdmom, chi_at, chisquare_moments; cbn [v3 v4 v5 v6 v7 v8]; cbn [nmul nadd ndiv nsqrt nofZ RN T];
    fold K; rewrite ?X; try reflexivity; field; lra|]). lia.
Qed.
Lemma chi_at_bound x : 0 <= x -> x * x <= 2 -> forall j, (j <= 8)%nat -> Rabs (chi_at x j) <= 75000.
Proof.
  intros X0 X2 j Hj. assert (X1 : x <= 3 / 2) by nra. assert (Q0 : 0 <= x * x) by nra.
  set (q := x * x) in *. assert (Q2 : 0 <= q * q <= 4) by nra. assert (Q3 : 0 <= q * (q * q) <= 8) by nra.
  do 9 (destruct j as [|j]; [cbn [chi_at]; fold q; rewrite Rabs_pos_eq; nra|]). lia.
Qed.
Lemma moment_close (m : moms DN) (mu : nat -> R) e : mu 0%nat = 1 -> mu 1%nat = 0 -> mu 2%nat = 1 -> 0 <= e ->
  (forall k, (3 <= k <= 8)%nat -> close e (given m k) (mu k)) -> forall k, (k <= 8)%nat -> close e (moment m k) (mu k).
Proof.
  intros E0 E1 E2 He C k Hk. assert (I : forall z, (Z.abs z <= 1)%Z -> close e (dofZ z) (IZR z)).
  { intros z Hz. destruct (close_int z ltac:(lia)) as [F H]. split; [exact F|]. eapply Rle_trans; [exact H|]. assert (P := Rabs_pos (IZR z)). nra. }
  destruct k as [|k]; [rewrite E0; exact (I 1%Z ltac:(lia))|]. destruct k as [|k]; [rewrite E1; exact (I 0%Z ltac:(lia))|].
  destruct k as [|k]; [rewrite E2; exact (I 1%Z ltac:(lia))|]. exact (C (S (S (S k))) ltac:(lia)).
Qed.
Lemma nonneg_ok (s : double) : finite s -> 0 <= real_of s -> nltb (n := DN) s (dofZ 0) = false.
Proof. intros F H. destruct F0 as [G0 E0]. apply dlt_false; [exact F|exact G0|rewrite E0; exact H]. Qed.
Lemma close_weaken e e' a r : e <= e' -> close e a r -> close e' a r.
Proof. intros H [F C]. split; [exact F|]. eapply Rle_trans; [exact C|]. apply Rmult_le_compat_r; [apply Rabs_pos|exact H]. Qed.

Lemma C77_accepted_proof : forall e eig last, e <= pow2 (-32) -> solver_close e eig ->
  (forall mu sigma : double, finite sigma -> 0 <= real_of sigma ->
     exists x, d_normal (N := DN) eig last mu sigma = (wrap32 (last + 1), Ret x)) /\
  (forall k, (0 < k < 2 ^ 31)%Z -> exists x, d_chisquare (N := DN) eig last k = (wrap32 (last + 1), Ret x)) /\
  (forall left right : double, finite left -> finite right -> Rabs (real_of left) <= pow2 1020 -> Rabs (real_of right) <= pow2 1020 ->
     real_of left <= real_of right -> exists x, d_uniform (N := DN) eig last left right = (wrap32 (last + 1), Ret x)).
Proof.
  intros e eig last He SC. assert (U := ur_small). split; [|split].
  - intros mu sigma F P. apply (accepted e eig last mu sigma (normal_moments (N := DN)) (chi_at 0) He SC); [apply chi_coercive; lra| |now apply nonneg_ok].
    intros k Hk. split; [apply chi_at_bound; [lra|lra|exact Hk]|].
    apply moment_close; [reflexivity|reflexivity|reflexivity|lra| |exact Hk]. intros j Hj. apply (close_weaken 0); [lra|].
    destruct j as [|[|[|[|[|[|[|[|[|j]]]]]]]]]; try lia.
    + replace (chi_at 0 3) with (IZR 0) by (cbn; ring). apply (close_int 0). lia.
    + replace (chi_at 0 4) with (IZR 3) by (cbn; ring). apply (close_int 3). lia.
    + replace (chi_at 0 5) with (IZR 0) by (cbn; ring). apply (close_int 0). lia.
    + replace (chi_at 0 6) with (IZR 15) by (cbn; field). apply (close_int 15). lia.
    + replace (chi_at 0 7) with (IZR 0) by (cbn; field). apply (close_int 0). lia.
    + replace (chi_at 0 8) with (IZR 105) by (cbn; field). apply (close_int 105). lia.
  - intros k Hk. assert (HK : 1 <= IZR k) by (apply (IZR_le 1); lia). destruct (chi_close k Hk) as [Cs Cm].
    set (x := sqrt 2 / sqrt (IZR k)).
    assert (PK : 0 < sqrt (IZR k)) by (apply sqrt_lt_R0; lra).
    assert (P2 : 0 < sqrt 2) by (apply sqrt_lt_R0; lra).
    assert (X0 : 0 <= x) by (unfold x; apply Rlt_le, Rdiv_lt_0_compat; assumption).
    assert (X2 : x * x <= 2).
    { assert (S2 : sqrt 2 * sqrt 2 = 2) by (apply sqrt_sqrt; lra). assert (SK : sqrt (IZR k) * sqrt (IZR k) = IZR k) by (apply sqrt_sqrt; lra).
      replace (x * x) with (2 / IZR k) by (symmetry; now apply ratio_sq).
      apply Rmult_le_reg_r with (IZR k); [lra|]. unfold Rdiv. rewrite Rmult_assoc, Rinv_l by lra. lra. }
    unfold d_chisquare. replace (k <? 0)%Z with false by lia. replace (k =? 0)%Z with false by lia.
    apply (accepted e eig last (dofZ k) (dmul (dsqrt (dofZ 2)) (dsqrt (dofZ k))) (chisquare_moments (N := DN) k) (chi_at x) He SC); [now apply chi_coercive| |].
    + intros j Hj. split; [now apply chi_at_bound|]. apply moment_close; [reflexivity|reflexivity|reflexivity|lra| |exact Hj].
      intros i Hi. unfold x. rewrite <- chi_at_moments by lia. now apply Cm.
    + destruct Cs as [Fs Cs]. apply nonneg_ok; [exact Fs|]. assert (P : 0 < sqrt 2 * sqrt (IZR k)) by now apply Rmult_lt_0_compat.
      rewrite (Rabs_pos_eq (sqrt 2 * _)) in Cs by lra. apply Rabs_le_inv in Cs. nra.
  - intros left right Fl Fr Bl Br Hlr.
    apply (accepted e eig last (ddiv (dadd right left) (dofZ 2)) (dmul (dsqrt (ddiv (dofZ 1) (dofZ 12))) (dsub right left)) (uniform_moments (N := DN)) uni_at He SC); [exact uni_coercive| |].
    + intros j Hj. split; [do 9 (destruct j as [|j]; [cbn [uni_at]; rewrite Rabs_pos_eq; lra|]); lia|].
      apply moment_close; [reflexivity|reflexivity|reflexivity|lra| |exact Hj]. intros i Hi.
      assert (Cd : forall y z, (1 <= y <= 1024)%Z -> (1 <= z <= 1024)%Z -> close (9 * ur) (ddiv (dofZ y) (dofZ z)) (IZR y / IZR z)).
      { intros y z Hy Hz. apply (nb_close 1 (0 - 16) (16 - 0)); [lia|cbn [INR]; lra|].
        apply (nb_div 0 0 0 16 0 16); [lia|lia|lia|apply nb_lit; lia|apply nb_lit; lia]. }
      assert (Cz : forall z, (Z.abs z <= 1024)%Z -> close (9 * ur) (dofZ z) (IZR z)) by (intros z Hz; apply (close_weaken 0); [lra|now apply close_int]).
      destruct i as [|[|[|[|[|[|[|[|[|i]]]]]]]]]; try lia.
      * apply (Cz 0%Z). lia.
      * apply (Cd 9%Z 5%Z); lia.
      * apply (Cz 0%Z). lia.
      * apply (Cd 27%Z 7%Z); lia.
      * apply (Cz 0%Z). lia.
      * apply (Cz 9%Z). lia.
    + assert (P21 : pow2 1021 = 2 * pow2 1020) by (unfold pow2; change 1021%Z with (1 + 1020)%Z; rewrite bpow_plus; reflexivity).
      assert (Bs : Rabs (real_of right - real_of left) <= pow2 1021) by (eapply Rle_trans; [apply Rabs_triang|rewrite Rabs_Ropp; lra]).
      destruct (dsub_round right left Fr Fl ltac:(apply fits; eapply Rle_trans; [exact Bs|apply pow2_le; lia])) as [Fs Es].
      assert (N0 : 0 <= real_of (dsub right left)) by (rewrite Es; apply nearest_nonneg; lra).
      assert (N1 : real_of (dsub right left) <= pow2 1021) by (rewrite Es; eapply Rle_trans; [apply Rle_abs|]; apply nearest_bound; [lia|exact Bs]).
      destruct nb_sqrt12 as [[Fq (t & Et & Wt)] [Q1 Q2]]. assert (Pt := within_2 ur ur_ok 2 t ltac:(lia) Wt).
      assert (Pq := pow2_pos (-3)). change (pow2 2) with 4 in Q2.
      assert (M : 0 <= real_of (dsqrt (ddiv (dofZ 1) (dofZ 12))) <= 2).
      { rewrite Et. assert (Q : sqrt (1 / 12) <= 1) by (apply Rle_trans with (sqrt 1); [apply sqrt_le_1_alt; lra|rewrite sqrt_1; lra]). split; nra. }
      destruct (dmul_round _ (dsub right left) Fq Fs) as [Fm Em].
      { apply fits. rewrite Rabs_pos_eq by (apply Rmult_le_pos; lra). apply Rle_trans with (2 * pow2 1021); [apply Rmult_le_compat; lra|].
        change 1023%Z with (2 + 1021)%Z. rewrite pow2_add. assert (PP := pow2_pos 1021). change (pow2 2) with 4. lra. }
      apply nonneg_ok; [exact Fm|]. rewrite Em. apply nearest_nonneg. apply Rmult_le_pos; lra.
Qed.
