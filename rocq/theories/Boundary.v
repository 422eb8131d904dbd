(** * Boundary: accepted moments that no probability distribution has (C50) *)

From Coq Require Import List ZArith Bool Reals Lra Lia.
From Verif Require Import Base Num Map UReal World HessGrad Moments CheckMoments UReal2 World2 Sums URealR SpecProb SpecMom SpecHankel SpecDaniell
  MomSpec CheckProofs Demo3.
Import ListNotations.
Local Open Scope R_scope.

Lemma INR_archimed r : exists n : nat, r < INR n.
Proof.
  exists (Z.to_nat (up (Rmax r 0))). rewrite INR_IZR_INZ, Z2Nat.id.
  - destruct (archimed (Rmax r 0)) as [H _]. assert (L := Rmax_l r 0). lra.
  - apply le_IZR. destruct (archimed (Rmax r 0)) as [H _]. assert (L := Rmax_r r 0). lra.
Qed.
Section Prob.
  Variable P : prob.
  Lemma Ex_le f g : int P f -> int P g -> (forall o, f o <= g o) -> Ex P f <= Ex P g.
  Proof.
    intros If Ig H. destruct (Ex_scal P (-1) f If) as [I1 E1]. destruct (Ex_plus P g (fun o => -1 * f o) Ig I1) as [I2 E2].
    assert (0 <= Ex P (fun o => g o + -1 * f o)) by (apply (Ex_pos P); [exact I2|intro o; specialize (H o); lra]). lra.
  Qed.
  Hypothesis D : daniell P.
  (** A variable that vanishes where another one of expectation 0 does has expectation 0. *)
  Lemma null_part g h : int P g -> int P h -> (forall o, 0 <= g o) -> (forall o, 0 <= h o) -> Ex P g = 0 -> (forall o, g o = 0 -> h o = 0) -> Ex P h = 0.
  Proof.
    intros Ig Ih Pg Ph Eg Z. destruct D as [D1 D2]. set (f := fun n o => Rmin (INR n * g o) (h o)).
    assert (In : forall n, int P (fun o => INR n * g o) /\ Ex P (fun o => INR n * g o) = INR n * Ex P g) by (intro n; now apply Ex_scal).
    assert (If : forall n, int P (f n)) by (intro n; apply D1; [apply In|exact Ih]).
    assert (Ef : forall n, Ex P (f n) = 0).
    { intro n. apply Rle_antisym.
      - rewrite <- (Rmult_0_r (INR n)), <- Eg, <- (proj2 (In n)). apply Ex_le; [apply If|apply In|]. intro o. apply Rmin_l.
      - apply (Ex_pos P); [apply If|]. intro o. unfold f. apply Rmin_glb; [|apply Ph]. apply Rmult_le_pos; [apply pos_INR|apply Pg]. }
    assert (C : Un_cv (fun n => Ex P (f n)) (Ex P h)).
    { apply D2; [exact If|exact Ih| |].
      - intros n o. unfold f. apply Rle_min_compat_r. rewrite S_INR. specialize (Pg o). nra.
      - intros o eps He. destruct (Req_dec (g o) 0) as [E|E].
        + exists 0%nat. intros n _. unfold f. rewrite E, (Z o E), Rmult_0_r, Rmin_left by lra. unfold R_dist. rewrite Rminus_0_r, Rabs_R0. exact He.
        + assert (G : 0 < g o) by (specialize (Pg o); lra). destruct (INR_archimed (h o / g o)) as [N HN]. exists N. intros n Hn.
          assert (L : INR N <= INR n) by (apply le_INR; lia).
          assert (Hh : h o <= INR n * g o).
          { replace (h o) with (h o / g o * g o) by (field; lra). apply Rmult_le_compat_r; lra. }
          unfold f. rewrite Rmin_right by exact Hh. unfold R_dist. rewrite Rminus_diag_eq by reflexivity. rewrite Rabs_R0. exact He. }
    destruct (Req_dec (Ex P h) 0) as [E|E]; [exact E|exfalso].
    destruct (C (Rabs (Ex P h))) as [N HN]; [now apply Rabs_pos_lt|]. specialize (HN N (le_n N)). unfold R_dist in HN.
    rewrite Ef, Rminus_0_l, Rabs_Ropp in HN. lra.
  Qed.
End Prob.

Lemma C50_boundary_no_distribution_refuted_proof : exists m : moms RN,
  (forall eig (w : world2 RN) v (n s : R) lam, 0 <= s ->
     eig (lower (stdmom m)) = Some lam -> eigenvalues (hmat (stdmom m)) lam ->
     snd (exec2 eig w (ENewStd v (n : RN) (s : RN) m (0 : RN))) = Ret tt) /\
  ~ exists (P : prob) (Z : Om P -> R), daniell P /\ moments_of (stdmom m) P Z.
Proof.
  exists odd8. split.
  - intros eig w v n s lam Hs EE EV.
    destruct (C31_threshold_zero_proof eig w v n s odd8 (mkCM RN (1 : RN) odd8) lam Hs) as [T _].
    apply (T EE EV). exact odd8_psd.
  - intros (P & Z & D & M).
    assert (Q : forall a b c i j k, (i <= 8)%nat -> (j <= 8)%nat -> (k <= 8)%nat ->
      int P (fun o => a * Z o ^ i + (b * Z o ^ j + c * Z o ^ k)) /\
      Ex P (fun o => a * Z o ^ i + (b * Z o ^ j + c * Z o ^ k)) = a * stdmom odd8 i + (b * stdmom odd8 j + c * stdmom odd8 k)).
    { intros a b c i j k Hi Hj Hk. destruct (M i Hi) as [Ii Ei], (M j Hj) as [Ij Ej], (M k Hk) as [Ik Ek].
      destruct (Ex_scal P a _ Ii) as [Ia Ea], (Ex_scal P b _ Ij) as [Ib Eb], (Ex_scal P c _ Ik) as [Ic Ec].
      destruct (Ex_plus P _ _ Ib Ic) as [I1 E1]. destruct (Ex_plus P _ _ Ia I1) as [I2 E2]. split; [exact I2|].
      rewrite E2, E1, Ea, Eb, Ec, Ei, Ej, Ek. reflexivity. }
    destruct (Q 1 (-2) 1 4%nat 2%nat 0%nat ltac:(lia) ltac:(lia) ltac:(lia)) as [Ig Eg].
    destruct (Q 1 (-2) 1 8%nat 6%nat 4%nat ltac:(lia) ltac:(lia) ltac:(lia)) as [Ih Eh].
    assert (F : Ex P (fun o => 1 * Z o ^ 8 + (-2 * Z o ^ 6 + 1 * Z o ^ 4)) = 0).
    { apply (null_part P D (fun o => 1 * Z o ^ 4 + (-2 * Z o ^ 2 + 1 * Z o ^ 0))); [exact Ig|exact Ih| | | |].
      - intro o. replace (1 * Z o ^ 4 + (-2 * Z o ^ 2 + 1 * Z o ^ 0)) with ((Z o ^ 2 - 1) ^ 2) by ring. apply pow2_ge_0.
      - intro o. replace (1 * Z o ^ 8 + (-2 * Z o ^ 6 + 1 * Z o ^ 4)) with ((Z o ^ 2 * (Z o ^ 2 - 1)) ^ 2) by ring. apply pow2_ge_0.
      - rewrite Eg. cbn. lra.
      - intros o H. replace (1 * Z o ^ 8 + (-2 * Z o ^ 6 + 1 * Z o ^ 4)) with (Z o ^ 4 * (1 * Z o ^ 4 + (-2 * Z o ^ 2 + 1 * Z o ^ 0))) by ring.
        rewrite H. ring. }
    rewrite F in Eh. cbn in Eh. lra.
Qed.

(** The coin of Demo3.v comes from a measure. *)
Lemma coin_daniell : daniell coin.
Proof.
  split; [intros; exact I|]. intros f g _ _ _ H. cbn. unfold Rdiv. apply (CV_mult _ (fun _ => / 2)).
  - apply CV_plus; apply H.
  - intros eps He. exists 0%nat. intros. unfold R_dist. rewrite Rminus_diag_eq, Rabs_R0 by reflexivity. exact He.
Qed.
