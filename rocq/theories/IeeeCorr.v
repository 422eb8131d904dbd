(** * IeeeCorr: accuracy of correlations on doubles (C63) *)

From Coq Require Import List ZArith Reals Bool Lra Lia Psatz.
From Flocq Require Import Core BinarySingleNaN.
From Verif Require Import Base Num Map UReal World URealFacts SpecLin SpecObs URealProofs URealProofs2 Ieee IeeeFacts SpecIeee
  SpecIeee2 IeeeProofs IeeeProofs2 IeeeProofs3 IeeeProofs4 IeeeCov.
Import ListNotations.
Local Open Scope R_scope.

(** ** Cauchy-Schwarz *)
Definition sq1 (l : list (double * double)) : R := sum_sq (map fst l).
Definition sq2 (l : list (double * double)) : R := sum_sq (map snd l).

Lemma cauchy l : sum_abs l * sum_abs l <= sq1 l * sq2 l.
Proof.
  induction l as [|[c d] l IH]; [cbn; lra|].
  change (sum_abs ((c, d) :: l)) with (Rabs (real_of c * real_of d) + sum_abs l).
  change (sq1 ((c, d) :: l)) with (real_of c * real_of c + sq1 l). change (sq2 ((c, d) :: l)) with (real_of d * real_of d + sq2 l).
  assert (N := sum_abs_nonneg l). assert (N1 := sum_sq_nonneg (map fst l)). assert (N2 := sum_sq_nonneg (map snd l)).
  fold (sq1 l) in N1. fold (sq2 l) in N2. rewrite Rabs_mult. set (a := Rabs (real_of c)). set (b := Rabs (real_of d)).
  assert (Ea : real_of c * real_of c = a * a) by (unfold a; rewrite <- Rabs_mult, Rabs_pos_eq; nra).
  assert (Eb : real_of d * real_of d = b * b) by (unfold b; rewrite <- Rabs_mult, Rabs_pos_eq; nra).
  rewrite Ea, Eb. assert (A0 : 0 <= a) by apply Rabs_pos. assert (B0 : 0 <= b) by apply Rabs_pos.
  set (S := sum_abs l) in *. set (X := sq1 l) in *. set (Y := sq2 l) in *.
  enough (2 * (a * b) * S <= a * a * Y + b * b * X) by nra.
  assert (K : S <= sqrt X * sqrt Y).
  { rewrite <- sqrt_mult by lra. rewrite <- (sqrt_square S) by exact N. apply sqrt_le_1_alt. exact IH. }
  assert (PX := sqrt_sqrt X N1). assert (PY := sqrt_sqrt Y N2). assert (QX := sqrt_pos X). assert (QY := sqrt_pos Y).
  assert (AB : 0 <= a * b) by nra.
  apply Rle_trans with (2 * (a * b) * (sqrt X * sqrt Y)); [nra|].
  rewrite <- PX at 2. rewrite <- PY at 2. assert (0 <= (a * sqrt Y - b * sqrt X) * (a * sqrt Y - b * sqrt X)) by apply Rle_0_sqr. nra.
Qed.

Lemma pairs_eq i (v w : double) xs ys : msorted ((i, v) :: xs) -> msorted ((i, w) :: ys) ->
  pairs ((i, v) :: xs) ((i, w) :: ys) = (v, w) :: pairs xs ys.
Proof.
  intros Sx Sy. destruct (msorted_inv _ _ _ Sx) as [_ Hx]. destruct (msorted_inv _ _ _ Sy) as [_ Hy].
  rewrite pairs_cons. cbn [filter fst]. rewrite Z.eqb_refl, filter_above by (intros k Hk; now apply klt_lt, Hy).
  rewrite pairs_skip_r by (intros k Hk; now apply klt_lt, Hx). reflexivity.
Qed.
Lemma pairs_lt i j (v w : double) xs ys : (i < j)%Z -> msorted ((j, w) :: ys) ->
  pairs ((i, v) :: xs) ((j, w) :: ys) = pairs xs ((j, w) :: ys).
Proof.
  intros L Sy. destruct (msorted_inv _ _ _ Sy) as [_ Hy]. rewrite pairs_cons, filter_above; [reflexivity|].
  intros k [<-|Hk]; [exact L|]. apply Hy, klt_lt in Hk. cbn in *. lia.
Qed.
Lemma pairs_gt i j (v w : double) xs ys : (j < i)%Z -> msorted ((i, v) :: xs) ->
  pairs ((i, v) :: xs) ((j, w) :: ys) = pairs ((i, v) :: xs) ys.
Proof.
  intros L Sx. destruct (msorted_inv _ _ _ Sx) as [_ Hx]. apply pairs_skip_r.
  intros k [<-|Hk]; [exact L|]. apply Hx, klt_lt in Hk. cbn in *. lia.
Qed.

Lemma pairs_sq xs : forall ys, msorted xs -> msorted ys ->
  sq1 (pairs xs ys) <= sum_sq (map snd xs) /\ sq2 (pairs xs ys) <= sum_sq (map snd ys).
Proof.
  induction xs as [|[i v] xs IHx]; intros ys Sx Sy.
  - cbn. split; [lra|apply sum_sq_nonneg].
  - induction ys as [|[j w] ys IHy].
    + rewrite pairs_nil_r. split; [apply sum_sq_nonneg|apply Rle_refl].
    + destruct (msorted_inv _ _ _ Sx) as [Sx' _]. destruct (msorted_inv _ _ _ Sy) as [Sy' _].
      change (sum_sq (map snd ((i, v) :: xs))) with (real_of v * real_of v + sum_sq (map snd xs)) in *.
      change (sum_sq (map snd ((j, w) :: ys))) with (real_of w * real_of w + sum_sq (map snd ys)).
      destruct (Z.lt_total i j) as [L|[->|L]].
      * rewrite pairs_lt by assumption. destruct (IHx ((j, w) :: ys) Sx' Sy) as [H1 H2].
        change (sum_sq (map snd ((j, w) :: ys))) with (real_of w * real_of w + sum_sq (map snd ys)) in H2. split; [nra|exact H2].
      * rewrite pairs_eq by assumption. destruct (IHx ys Sx' Sy') as [H1 H2].
        change (sq1 ((v, w) :: pairs xs ys)) with (real_of v * real_of v + sq1 (pairs xs ys)).
        change (sq2 ((v, w) :: pairs xs ys)) with (real_of w * real_of w + sq2 (pairs xs ys)). lra.
      * rewrite pairs_gt by assumption. destruct (IHy Sy') as [H1 H2]. split; [exact H1|nra].
Qed.

Lemma common_cauchy last x y : wf last x -> wf last y ->
  sum_abs (common x y) <= sqrt (sum_sq (coefs x)) * sqrt (sum_sq (coefs y)).
Proof.
  intros Wx Wy. destruct (pairs_sq (cells x) (cells y) (cells_sorted _ _ Wx) (cells_sorted _ _ Wy)) as [H1 H2].
  rewrite <- !coefs_cells in H1, H2. fold (common x y) in H1, H2. change (pairs (cells x) (cells y)) with (common x y) in *.
  assert (C := cauchy (common x y)). assert (N := sum_abs_nonneg (common x y)).
  assert (N1 := sum_sq_nonneg (map fst (common x y))). assert (N2 := sum_sq_nonneg (map snd (common x y))).
  fold (sq1 (common x y)) in N1. fold (sq2 (common x y)) in N2.
  assert (Nx := sum_sq_nonneg (coefs x)). assert (Ny := sum_sq_nonneg (coefs y)).
  rewrite <- sqrt_mult by assumption. rewrite <- (sqrt_square (sum_abs (common x y))) by exact N. apply sqrt_le_1_alt. nra.
Qed.

(** ** Rounding *)
Lemma pow_lin m : 2 * (INR m * ur) <= 1 -> (1 + ur) ^ m <= 1 + 2 * INR m * ur /\ 1 - INR m * ur <= (1 - ur) ^ m.
Proof.
  assert (U := ur_small). induction m as [|m IH]; intro H; [cbn; lra|]. rewrite S_INR in *.
  assert (I0 := pos_INR m). destruct IH as [H1 H2]; [nra|]. cbn [pow]. assert (D := pow_dn m). assert (Up := pow_up m). split; nra.
Qed.
(** a computed deviation, relative to the exact one *)
Lemma dev_ratio (s S : R) m : 0 <= s -> 0 < S -> 2 * (INR m * ur) <= 1 ->
  (1 - ur) ^ m * S <= s * s <= (1 + ur) ^ m * S -> Rabs (s / sqrt S - 1) <= INR m * ur.
Proof.
  intros Hs HS Hm HB. destruct (pow_lin m Hm) as [P1 P2]. assert (U := ur_small). assert (I0 := pos_INR m).
  assert (R0 : 0 < sqrt S) by (now apply sqrt_lt_R0). assert (RR := sqrt_sqrt S (Rlt_le _ _ HS)).
  set (a := s / sqrt S). set (z := INR m * ur) in *. assert (Z0 : 0 <= z) by (unfold z; nra).
  assert (A0 : 0 <= a) by (apply Rmult_le_pos; [exact Hs|left; now apply Rinv_0_lt_compat]).
  assert (Ea : s = a * sqrt S) by (unfold a; field; lra).
  assert (Eaa : s * s = a * a * S) by (rewrite Ea; transitivity (a * a * (sqrt S * sqrt S)); [ring|now rewrite RR]). rewrite Eaa in HB.
  assert (B1 : (1 - ur) ^ m <= a * a) by (apply Rmult_le_reg_r with S; [exact HS|lra]).
  assert (B2 : a * a <= (1 + ur) ^ m) by (apply Rmult_le_reg_r with S; [exact HS|lra]).
  replace (2 * INR m * ur) with (2 * z) in P1 by (unfold z; ring).
  apply Rabs_le. split; nra.
Qed.

(** the final quotient *)
Lemma quotient_err (rho c a b dl e t z : R) : 0 <= z <= / 1000 -> Rabs rho <= 1 -> Rabs (c - rho) <= 3 * z ->
  Rabs (a - 1) <= z -> Rabs (b - 1) <= z -> Rabs dl <= z / 3 -> Rabs e <= z / 3 -> Rabs t <= z / 1000 ->
  Rabs (c / (a * b * (1 + dl)) * (1 + e) + t - rho) <= 7 * z.
Proof.
  intros Hz Hr Hc Ha Hb Hd He Ht. apply Rabs_le_inv in Ha, Hb, Hd, He.
  assert (AB : Rabs (a * b - 1) <= 2.001 * z). { apply Rabs_le. split; nra. }
  apply Rabs_le_inv in AB. assert (A1 : Rabs (a * b * (1 + dl) - 1) <= 2.5 * z). { set (q := a * b) in *. apply Rabs_le. split; nra. }
  set (A := a * b * (1 + dl)) in *. apply Rabs_le_inv in A1.
  assert (P : 0.99 <= A) by lra.
  set (G := (1 + e) / A).
  assert (EG : G * A = 1 + e) by (unfold G; field; lra).
  assert (HG : Rabs (G - 1) <= 3 * z). { apply Rabs_le. split; nra. }
  replace (c / A * (1 + e) + t - rho) with ((c - rho) * G + rho * (G - 1) + t) by (unfold G; field; lra).
  eapply Rle_trans; [apply Rabs_triang|]. assert (X := Rabs_triang ((c - rho) * G) (rho * (G - 1))). rewrite !Rabs_mult in X.
  assert (G2 : Rabs G <= 1 + 3 * z). { replace G with (1 + (G - 1)) by ring. eapply Rle_trans; [apply Rabs_triang|]. rewrite Rabs_R1. lra. }
  assert (Y1 : Rabs (c - rho) * Rabs G <= 3 * z * (1 + 3 * z)) by (apply Rmult_le_compat; [apply Rabs_pos|apply Rabs_pos|exact Hc|exact G2]).
  assert (Y2 : Rabs rho * Rabs (G - 1) <= 1 * (3 * z)) by (apply Rmult_le_compat; [apply Rabs_pos|apply Rabs_pos|exact Hr|exact HG]).
  nra.
Qed.

Lemma s_nonneg (q : ureal DN) : finite (u_s q) -> 0 <= real_of (u_s q).
Proof.
  intro F. destruct (C54_never_negative_proof q) as [H _]. unfold not_negative in H.
  rewrite Bltb_correct in H by (exact F || reflexivity). destruct (Rlt_bool_spec (B2R (u_s q)) (B2R (B754_zero false : double))) as [_|G]; [discriminate|exact G].
Qed.

Lemma near1 a b z : 0 <= z <= / 1000000 -> Rabs (a - 1) <= z -> Rabs (b - 1) <= z -> 0.9 <= a * b <= 1.1.
Proof. intros Z A B. apply Rabs_le_inv in A, B. assert (0.99 <= a <= 1.01) by lra. assert (0.99 <= b <= 1.01) by lra. nra. Qed.
Lemma scaled D t lo hi : 0 < D -> lo <= t <= hi -> lo * D <= D * t <= hi * D.
Proof. intros. nra. Qed.
Lemma ratio_dev P q e : 0 < P -> (1 - e) * P <= q <= (1 + e) * P -> Rabs (q / P - 1) <= e /\ q = P * (1 + (q / P - 1)).
Proof.
  intros H0 HQ. assert (E : q = P * (1 + (q / P - 1))) by (field; lra). split; [|exact E]. apply Rabs_le.
  split; apply Rmult_le_reg_l with P; lra.
Qed.
Lemma cov_size D C S z : 0 < D -> 0 <= z <= / 1000000 -> Rabs (C / D - S / D) <= 3 * z -> Rabs (S / D) <= 1 -> Rabs C <= 1.01 * D.
Proof.
  intros D0 Z H R. replace C with (D * (S / D + (C / D - S / D))) by (field; lra). rewrite Rabs_mult, (Rabs_pos_eq D) by lra.
  assert (T := Rabs_triang (S / D) (C / D - S / D)). rewrite (Rmult_comm _ D). apply Rmult_le_compat_l; lra.
Qed.
Lemma quotient_size D C t p : 0 < D -> Rabs C <= 1.01 * D -> 0.8 <= t -> p = D * t -> p <> 0 /\ Rabs (C / p) <= 4.
Proof.
  intros D0 H T ->. assert (P : 0.8 * D <= D * t) by nra. assert (P' : 0 < D * t) by lra. split; [lra|].
  unfold Rdiv. rewrite Rabs_mult, Rabs_inv, (Rabs_pos_eq (D * t)) by lra. apply Rmult_le_reg_r with (D * t); [exact P'|].
  rewrite Rmult_assoc, Rinv_l, Rmult_1_r by lra. lra.
Qed.

Lemma finite_common last x y : wf last x -> wf last y -> List.Forall finite (coefs x) -> List.Forall finite (coefs y) ->
  finite_pairs (common x y).
Proof.
  intros _ _ Fx Fy. rewrite coefs_cells in Fx, Fy. unfold finite_pairs. apply Forall_forall. intros [c d] H.
  unfold common in H. apply in_flat_map in H as (a & Ha & H). apply in_map_iff in H as (b & E & H). apply filter_In in H as [Hb _].
  injection E as <- <-. rewrite Forall_forall in Fx, Fy. split; [exact (Fx _ (in_map snd _ _ Ha))|exact (Fy _ (in_map snd _ _ Hb))].
Qed.

Lemma C63_correlation_accuracy_partial_proof : forall cs w, dlegal cs -> List.Forall (fun c => self_assign c = false) cs ->
  run w_init cs = Ret w -> forall u v, let x := w_var w u in let y := w_var w v in
  let Sx := sum_sq (coefs x) in let Sy := sum_sq (coefs y) in
  let n := Nat.max (List.length (coefs x)) (List.length (coefs y)) in
  let rho := sum_prod (common x y) / sqrt (Sx * Sy) in
  no_underflow (coefs x) -> no_underflow (coefs y) -> 0 < Sx <= pow2 1020 -> 0 < Sy <= pow2 1020 ->
  finite (u_corr x y) /\ Rabs rho <= 1 /\ Rabs (real_of (u_corr x y) - rho) <= 7 * (INR n + 3) * uround.
Proof.
  intros cs w L NS E u v x y Sx Sy n rho Ux Uy HSx HSy.
  assert (Rw : dreachable w) by (now exists cs).
  destruct (dreach_wwf w Rw) as [[Pl W] B]. assert (Wx := W u). assert (Wy := W v). fold x in Wx. fold y in Wy.
  destruct (common_length _ x y Wx Wy (conj Pl B)) as [L1 L2]. destruct (common_length _ y x Wy Wx (conj Pl B)) as [_ L3].
  assert (U := ur_small). assert (Ue : ur = / 9007199254740992) by reflexivity.
  destruct (C57_accuracy_proof cs w L NS E u Ux (proj2 HSx)) as (Fsx & _ & Bx & _).
  destruct (C57_accuracy_proof cs w L NS E v Uy (proj2 HSy)) as (Fsy & _ & By & _).
  fold x Sx in Fsx, Bx. fold y Sy in Fsy, By. cbv zeta in Bx, By.
  set (D := sqrt Sx * sqrt Sy).
  assert (ED : sqrt (Sx * Sy) = D) by (unfold D; now rewrite sqrt_mult by lra). unfold rho in *. rewrite ED in *. clear rho.
  assert (Cx := sum_sq_cases _ Ux). assert (Cy := sum_sq_cases _ Uy). fold Sx in Cx. fold Sy in Cy.
  assert (Tx : pow2 (-1020) <= Sx) by (destruct Cx; lra). assert (Ty : pow2 (-1020) <= Sy) by (destruct Cy; lra).
  assert (Lo : forall S, pow2 (-1020) <= S -> pow2 (-510) <= sqrt S).
  { intros S H. rewrite <- (sqrt_square (pow2 (-510))) by (left; apply pow2_pos). apply sqrt_le_1_alt. rewrite <- pow2_add. exact H. }
  assert (Hi : forall S, 0 <= S <= pow2 1020 -> sqrt S <= pow2 510).
  { intros S H. rewrite <- (sqrt_square (pow2 510)) by (left; apply pow2_pos). apply sqrt_le_1_alt. rewrite <- pow2_add. apply H. }
  assert (Lx := Lo _ Tx). assert (Ly := Lo _ Ty). assert (Hx := Hi Sx ltac:(lra)). assert (Hy := Hi Sy ltac:(lra)). clear Lo Hi.
  assert (P5 := pow2_pos (-510)).
  assert (DL : pow2 (-1020) <= D). { unfold D. change (-1020)%Z with (-510 + -510)%Z. rewrite pow2_add. nra. }
  assert (DH : D <= pow2 1020). { unfold D. change 1020%Z with (510 + 510)%Z. rewrite pow2_add. nra. }
  assert (D0 : 0 < D) by (assert (Q := pow2_pos (-1020)); lra).
  assert (CS := common_cauchy _ x y Wx Wy). fold Sx Sy D in CS.
  assert (FF : finite_pairs (common x y)).
  { apply (finite_common _ x y Wx Wy); [revert Ux|revert Uy]; apply List.Forall_impl; intros c [Fc _]; exact Fc. }
  destruct (C61_covariance_accuracy_proof w Rw u v) as [Fc Bc]; [exact FF|fold x y; lra|]. fold x y in Fc, Bc.
  set (l := common x y) in *. set (m := List.length l) in *.
  assert (SA := sum_prod_abs l). assert (S0 := sum_abs_nonneg l).
  set (z := (INR n + 3) * ur).
  assert (Nn : INR n <= 2147483648).
  { rewrite INR_IZR_INZ. apply IZR_le. unfold n. lia. }
  assert (In0 := pos_INR n).
  assert (Hz : 0 <= z <= / 1000000) by (unfold z; rewrite Ue; lra).
  assert (Zu : 3 * ur <= z) by (unfold z; nra).
  assert (Mn : INR m <= INR n) by (apply le_INR; unfold n; lia). assert (Im0 := pos_INR m).
  assert (RHO : Rabs (sum_prod l / D) <= 1).
  { unfold Rdiv. rewrite Rabs_mult, (Rabs_pos_eq (/ D)) by (left; now apply Rinv_0_lt_compat).
    apply Rmult_le_reg_r with D; [exact D0|]. rewrite Rmult_assoc, Rinv_l by lra. lra. }
  assert (T54 : pow2 (-1074) <= ur / 2 * D).
  { replace (pow2 (-1074)) with (ur / 2 * pow2 (-1020)); [apply Rmult_le_compat_l; lra|]. replace (ur / 2) with (pow2 (-54)).
    - unfold pow2. rewrite <- bpow_plus. reflexivity.
    - rewrite Ue. unfold pow2. cbn. lra. }
  assert (HC : Rabs (real_of (u_cov x y) / D - sum_prod l / D) <= 3 * z).
  { replace (real_of (u_cov x y) / D - sum_prod l / D) with ((real_of (u_cov x y) - sum_prod l) / D) by (field; lra).
    unfold Rdiv. rewrite Rabs_mult, (Rabs_pos_eq (/ D)) by (left; now apply Rinv_0_lt_compat).
    apply Rmult_le_reg_r with D; [exact D0|]. rewrite Rmult_assoc, Rinv_l, Rmult_1_r by lra. eapply Rle_trans; [exact Bc|].
    destruct (pow_lin (m + 1)) as [Q1 _]; [rewrite plus_INR; change (INR 1) with 1; rewrite Ue; lra|].
    rewrite plus_INR in Q1. change (INR 1) with 1 in Q1.
    apply Rle_trans with (2 * (INR m + 1) * ur * D + INR m * (ur / 2 * D)).
    - apply Rplus_le_compat; [|apply Rmult_le_compat_l; lra].
      apply Rmult_le_compat; [assert (Q := pow_up (m + 1)); lra|exact S0|lra|exact CS].
    - replace (2 * (INR m + 1) * ur * D + INR m * (ur / 2 * D)) with ((5 / 2 * INR m + 2) * ur * D) by field.
      apply Rmult_le_compat_r; [lra|]. unfold z. rewrite <- Rmult_assoc. apply Rmult_le_compat_r; lra. }
  assert (Dev : forall (q : ureal DN) Sq nq, finite (u_s q) -> 0 < Sq -> (nq <= n)%nat ->
    (1 - ur) ^ (nq + 3) * Sq <= real_of (u_s q) * real_of (u_s q) <= (1 + ur) ^ (nq + 3) * Sq -> Rabs (real_of (u_s q) / sqrt Sq - 1) <= z).
  { intros q Sq nq Fq Pq Hn HB. assert (Iq : INR nq <= INR n) by (now apply le_INR).
    apply Rle_trans with (INR (nq + 3) * ur).
    - apply dev_ratio; [apply s_nonneg; exact Fq|exact Pq| |exact HB]. rewrite plus_INR. cbn [INR]. rewrite Ue. lra.
    - unfold z. apply Rmult_le_compat_r; [lra|]. rewrite plus_INR. cbn [INR]. lra. }
  assert (Ax := Dev x Sx _ Fsx (proj1 HSx) (Nat.le_max_l _ _) Bx). assert (Ay := Dev y Sy _ Fsy (proj1 HSy) (Nat.le_max_r _ _) By).
  set (a := real_of (u_s x) / sqrt Sx) in *. set (b := real_of (u_s y) / sqrt Sy) in *.
  assert (Rx0 : 0 < sqrt Sx) by lra. assert (Ry0 : 0 < sqrt Sy) by lra.
  assert (Ex : real_of (u_s x) * real_of (u_s y) = D * (a * b)) by (unfold a, b, D; field; lra).
  assert (AB := near1 a b z Hz Ax Ay). assert (PD := scaled D (a * b) _ _ D0 AB).
  assert (Te : pow2 (-1020) = 4 * pow2 (-1022)) by (replace 4 with (pow2 2) by (unfold pow2; cbn; lra); unfold pow2; rewrite <- bpow_plus; reflexivity).
  assert (Tb : pow2 1023 = 8 * pow2 1020) by (replace 8 with (pow2 3) by (unfold pow2; cbn; lra); unfold pow2; rewrite <- bpow_plus; reflexivity).
  assert (Q22 : 0 < pow2 (-1022)) by (apply bpow_gt_0).
  assert (PD0 : 0 < D * (a * b)) by lra.
  destruct (dmul_round (u_s x) (u_s y) Fsx Fsy) as [Fp Ep].
  { apply fits. rewrite Ex, Rabs_pos_eq; lra. }
  rewrite Ex in Ep. assert (Rp : (1 - ur) * (D * (a * b)) <= nearest (D * (a * b)) <= (1 + ur) * (D * (a * b))) by (apply rel_pos; lra).
  rewrite <- Ep in Rp. set (p := dmul (u_s x) (u_s y)) in *.
  destruct (ratio_dev _ _ _ PD0 Rp) as [Hdl Ep']. set (dl := real_of p / (D * (a * b)) - 1) in *. clearbody dl.
  rewrite Rmult_assoc in Ep'.
  assert (A1 : 0.8 <= a * b * (1 + dl)).
  { apply Rabs_le_inv in Hdl. assert (0.99 <= 1 + dl) by lra. clear - AB H. nra. }
  assert (CV := cov_size D _ _ z D0 Hz HC RHO).
  destruct (quotient_size D _ _ _ D0 CV A1 Ep') as [P0 QS].
  destruct (ddiv_round (u_cov x y) p Fc P0) as [Fq Eq].
  { apply fits. eapply Rle_trans; [exact QS|]. apply Rle_trans with (pow2 2); [unfold pow2; cbn; lra|apply bpow_le; lia]. }
  change (u_corr x y) with (ddiv (u_cov x y) p). split; [exact Fq|]. split; [exact RHO|].
  rewrite Eq. destruct (nearest_pm (real_of (u_cov x y) / real_of p)) as (e & t & He & Ht & En). rewrite En.
  replace (real_of (u_cov x y) / real_of p) with ((real_of (u_cov x y) / D) / (a * b * (1 + dl))) by (rewrite Ep'; generalize dependent (a * b * (1 + dl)); intros; field; lra).
  replace (7 * (INR n + 3) * ur) with (7 * z) by (unfold z; ring). apply quotient_err; auto; try lra.
  eapply Rle_trans; [exact Ht|]. apply Rle_trans with (pow2 (-100)); [apply bpow_le; lia|]. apply Rle_trans with (ur / 1000); [|lra].
  rewrite Ue. unfold pow2. cbn. lra.
Qed.
