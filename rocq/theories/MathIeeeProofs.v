(** * MathIeeeProofs: isfinite and isnormal of UReal<double> (C64) *)

From Coq Require Import List ZArith Reals Bool Lra Lia.
From Flocq Require Import Core BinarySingleNaN.
From Verif Require Import Base Num Map UReal World URealFacts SpecObs URealProofs URealProofs2 Ieee IeeeFacts SpecIeee SpecIeee2
  MathIeee IeeeProofs IeeeProofs2 IeeeProofs3 IeeeProofs4 IeeeProofs5 IeeeCov IeeeCov2 IeeeCorr.
Import ListNotations.
Local Open Scope R_scope.

Lemma isfinite_iff (a : double) : d_isfinite a = true <-> finite a.
Proof. unfold finite. destruct a as [s|s| |s m e H]; cbn; split; auto. Qed.
Lemma F2R_bpow_52 e : F2R (Float radix2 (Zpower radix2 52) e) = bpow radix2 (52 + e).
Proof. unfold F2R. cbn [Fnum Fexp]. rewrite bpow_plus. f_equal. Qed.
Lemma isnormal_iff (a : double) : d_isnormal a = true <-> finite a /\ pow2 (-1022) <= Rabs (real_of a).
Proof.
  unfold finite, real_of. destruct a as [s|s| |s m e H]; cbn [d_isnormal is_finite B2R].
  - split; [discriminate|]. intros [_ Q]. rewrite Rabs_R0 in Q. assert (P := bpow_gt_0 radix2 (-1022)). unfold pow2 in Q. lra.
  - split; [discriminate|]. intros [Q _]. discriminate Q.
  - split; [discriminate|]. intros [Q _]. discriminate Q.
  - rewrite <- F2R_Zabs, abs_cond_Zopp. cbn [Z.abs].
    assert (B := H). apply andb_prop in B as [B _]. unfold SpecFloat.canonical_mantissa in B. apply Zeq_bool_eq in B.
    rewrite Digits.Zpos_digits2_pos in B. unfold SpecFloat.fexp, SpecFloat.emin in B. set (dg := Digits.Zdigits radix2 (Zpos m)) in *.
    split.
    + intro Q. apply Z.leb_le in Q. split; [reflexivity|].
      apply Rle_trans with (F2R (Float radix2 (Zpower radix2 52) e)); [|apply F2R_le; exact Q].
      rewrite F2R_bpow_52. apply bpow_le. lia.
    + intros [_ Q]. apply Z.leb_le. destruct (Z_lt_le_dec (Zpos m) (2 ^ 52)) as [L|L]; [exfalso|exact L].
      assert (Dg : (dg <= 52)%Z) by (apply Digits.Zdigits_le_Zpower; exact L).
      assert (e = (-1074)%Z) as -> by lia. apply (Rlt_not_le _ _ (F2R_lt radix2 (-1074) (Zpos m) (Zpower radix2 52) L)). rewrite F2R_bpow_52. exact Q.
Qed.

Lemma sqrt_finite_nonneg (a : double) : nonneg a -> finite a -> finite (dsqrt a).
Proof.
  intros H F. unfold finite, dsqrt. destruct (Bsqrt_correct 53 1024 prec53 emax1024 mode_NE a) as (_ & E & _). rewrite E.
  destruct a as [s|s| |[|] m e Hm]; try reflexivity; try discriminate F. discriminate H.
Qed.

Lemma C64_isfinite_sound_proof : forall cs w, dlegal cs -> List.Forall (fun c => self_assign c = false) cs -> run w_init cs = Ret w ->
  forall v, let x := w_var w v in u_isfinite x = true -> finite (u_n x) /\ finite (u_s x) /\ List.Forall finite (coefs x).
Proof.
  intros cs w L NS E v x H. assert (Fr := wfresh_init cs w L NS E v). fold x in Fr.
  unfold u_isfinite in H. apply andb_prop in H as [Hn Hs]. apply isfinite_iff in Hn, Hs. split; [exact Hn|]. split; [exact Hs|].
  rewrite (fresh_s x Fr) in Hs. unfold coefs. destruct (Z.leb_spec 0 (uid x)), (Z.ltb_spec 0 (uid x)), (Z.ltb_spec (uid x) 0); try lia.
  - constructor; [|constructor]. now apply abs_finite.
  - constructor.
  - apply sqrt_finite in Hs. destruct (s2_finite (usigma x) dzero eq_refl Hs) as [_ F].
    apply List.Forall_forall. intros c Hc. apply in_map_iff in Hc as [[k c'] [<- I]]. exact (F k c' I).
Qed.

Lemma C64_isfinite_complete_partial_proof : forall cs w, dlegal cs -> List.Forall (fun c => self_assign c = false) cs -> run w_init cs = Ret w ->
  forall v, let x := w_var w v in finite (u_n x) -> List.Forall finite (coefs x) -> sum_sq (coefs x) <= pow2 1020 -> u_isfinite x = true.
Proof.
  intros cs w L NS E v x Fn Fc S. assert (Fr := wfresh_init cs w L NS E v). fold x in Fr.
  assert (Rw : dreachable w) by (now exists cs). destruct (dreach_wwf w Rw) as [[Pl W] B]. assert (Wx := W v). fold x in Wx.
  unfold u_isfinite. apply andb_true_intro. split; [now apply isfinite_iff|]. apply isfinite_iff. rewrite (fresh_s x Fr).
  destruct (Z.leb_spec 0 (uid x)) as [U|U].
  - unfold finite. change (is_finite (dabs (usdev x)) = true). unfold dabs. rewrite is_finite_Babs. unfold coefs in Fc.
    destruct (Z.ltb_spec 0 (uid x)); [inversion Fc; assumption|]. assert (E0 : uid x = 0%Z) by lia. rewrite (wf_zero _ _ Wx E0). reflexivity.
  - apply sqrt_finite_nonneg; [apply u_s2_nonneg|].
    assert (CV := cov_self_value _ x Wx). destruct (Z.leb_spec 0 (uid x)) as [Q|_]; [lia|]. rewrite <- CV.
    apply (C61_covariance_accuracy_proof w Rw v v).
    + apply (finite_common _ x x Wx Wx); exact Fc.
    + fold x. assert (C := common_cauchy _ x x Wx Wx). rewrite sqrt_sqrt in C by (apply sum_sq_nonneg). lra.
Qed.

Lemma C64_isnormal_proof : forall x : ureal DN,
  (u_isnormal x = true <-> (finite (u_n x) /\ pow2 (-1022) <= Rabs (real_of (u_n x))) /\ (finite (u_s x) /\ pow2 (-1022) <= Rabs (real_of (u_s x)))) /\
  (u_isnormal x = true -> u_isfinite x = true).
Proof.
  intro x. assert (A : u_isnormal x = true <-> (finite (u_n x) /\ pow2 (-1022) <= Rabs (real_of (u_n x))) /\ (finite (u_s x) /\ pow2 (-1022) <= Rabs (real_of (u_s x)))).
  { unfold u_isnormal. rewrite andb_true_iff, !isnormal_iff. reflexivity. }
  split; [exact A|]. intro H. apply A in H as [[H1 _] [H2 _]]. unfold u_isfinite. apply andb_true_intro. split; now apply isfinite_iff.
Qed.

(** x = UReal(1, 2^600) is finite, x + 0 is not, although its coefficient is. *)
Lemma C64_isfinite_refuted_proof : exists w, dreachable w /\ exists u v,
  u_isfinite (w_var w u) = true /\ finite (u_n (w_var w v)) /\ List.Forall finite (coefs (w_var w v)) /\
  map real_of (coefs (w_var w u)) = map real_of (coefs (w_var w v)) /\ u_isfinite (w_var w v) = false.
Proof.
  set (cs := [CNew 0%nat (d 1) (d (2 ^ 600)); CConst 1%nat (d 0); CAdd 2%nat 0%nat 1%nat]). exists (after cs). split.
  { exists cs. split; [apply dlegal_small; [repeat constructor|cbn; lia]|ran]. }
  exists 0%nat, 2%nat. split; [vm_compute; reflexivity|]. split; [vm_compute; reflexivity|]. split.
  { assert (E : forallb (fun a : double => is_finite a) (coefs (w_var (after cs) 2%nat)) = true) by (vm_compute; reflexivity).
    rewrite forallb_forall in E. apply List.Forall_forall. exact E. }
  split; [|vm_compute; reflexivity].
  rewrite !(map_ext _ _ real_SF). rewrite <- !(map_map (fun a : double => B2SF a) (SF2R radix2)). f_equal.
Qed.
