(** * TrueProofs2: distance between the moments of UReal2 and the true ones (C90) *)

From Coq Require Import List ZArith Bool Reals Lra Lia FunctionalExtensionality.
From Coquelicot Require Import Coquelicot.
From Verif Require Import Base Num Map UReal World HessGrad Moments CheckMoments UReal2 World2 Sums SpecLin SpecObs SpecAD SpecU2 SpecU2Run SpecProb SpecMom
  SpecMath2 SpecOrder SpecAD2 ADProofs2 MomStats SpecTrue TrueProb.
From Verif Require Import MomProofs MomCov MomEst MomGiven .
Import ListNotations.
Local Open Scope R_scope.

Lemma line_derivatives (F : env -> R) last m sd X D1 D2 : has_derivatives2 last F m D1 D2 ->
  let g := fun t => F (part_way m sd X t) in let d := fun i => sd i * X i in
  Derive_n g 1 0 = along1 last D1 d /\ Derive_n g 2 0 = along2 last D2 d d.
Proof.
  intros [_ H] g d. destruct (H d d) as (fx & fy & [eps L] & X1 & _ & X2 & _).
  assert (EG : forall t, g t = F (moved m d d t 0)).
  { intro t. unfold g. f_equal. apply functional_extensionality. intro i. unfold part_way, moved, d. ring. }
  assert (K : forall t, Rabs t < eps -> Derive g t = fx t 0).
  { intros t Ht. rewrite (Derive_ext g (fun t => F (moved m d d t 0))) by exact EG.
    refine (proj1 (differentiable_pt_lim_unique _ _ _ _ _ (L t 0 _ _))); [now rewrite Rminus_0_r|]. rewrite Rminus_0_r, Rabs_R0. apply cond_pos. }
  split.
  - cbn [Derive_n]. change (Derive g 0 = along1 last D1 d). rewrite K, X1; [reflexivity|]. rewrite Rabs_R0. apply cond_pos.
  - change (Derive (Derive g) 0 = along2 last D2 d d). rewrite (Derive_ext_loc _ (fun t => fx t 0)).
    + exact (proj1 (differentiable_pt_lim_unique _ _ _ _ _ X2)).
    + exists eps. intros t Ht. apply K. change (Rabs (t - 0) < eps) in Ht. now rewrite Rminus_0_r in Ht.
Qed.

Lemma fv_of_center (P : prob) f c : int P f -> int P (fun o => (f o - c) ^ 2) -> finite_variance P f.
Proof.
  intros A B. split; [exact A|]. destruct (Ex_scal P (2 * c) f A) as [I1 _]. destruct (Ex_plus P _ _ B I1) as [I2 _].
  destruct (Ex_const P (- (c * c))) as [I3 _]. destruct (Ex_plus P _ _ I2 I3) as [I4 _].
  eapply (I_eq P); [|exact I4]. intro o. cbv beta. cbn [pow]. ring.
Qed.

Lemma C90_second_order_partial_proof : forall eig (cs : list (call2 RN)), legal2 cs -> accepted eig w2_init cs ->
  covered_run eig w2_init cs -> derivs2_ok ad_init cs ->
  let p := ad2_run ad_init cs in
  exists w, run2 eig w2_init cs = Ret w /\
    forall v (P : prob) (l : list Z) (X : Z -> Om P -> R) (M : Z -> moms RN) (B : Om P -> R), let x := w2_var w v in NoDup l ->
      independent P l X (fun i => stdmom (M i)) ->
      (forall i, In i l -> exists s, s <> 0 /\ given eig w2_init cs i = Some (s, M i)) ->
      involves_only (jet_of x) l ->
      let path := fun o t => ad_fun p v (part_way (ad_mean p) (ad_sd p) (fun i => X i o) t) in
      let Y := fun o => path o 1 in
      (forall o, bends 3 (path o) (B o)) -> int P Y -> int P B ->
      exists n s, u2_n PropMean x = Ret n /\ u2_s x = Ret s /\
        Rabs (n - Ex P Y) <= Ex P B / 6 /\
        (with_products P -> finite_variance P Y -> finite_variance P B -> Rabs (s - true_sd P Y) <= rms P B / 6).
Proof.
  intros eig cs HL A CR HD p. destruct (taylor_run eig cs HL A CR HD) as (w & E & HLast & HR).
  exists w. split; [exact E|]. intros v P l X M B x ND IND GV HI path Y HB IY IB.
  destruct (HR v) as (D1 & D2 & G). assert (HD2 := good_derivs _ _ _ _ _ _ _ G).
  destruct (C32_mean_and_estimate_proof eig cs w HL E P l X M ND IND GV v HI) as (m1 & _ & _ & N1 & _).
  destruct (C28_moments_of_the_polynomial_proof eig cs w HL E P l X M ND IND GV v HI) as (I0 & _ & N2).
  destruct (N2 2%nat) as [I1 E1]; [lia|]. fold x in N1, I0, I1, E1. set (T := value (jet_of x) l X) in *.
  assert (FT : finite_variance P T) by exact (fv_of_center P T (Ex P T) I0 I1).
  exists (Ex P T), (sqrt (Ex P (fun o => (T o - Ex P T) ^ 2))). split; [exact N1|]. change (Z.of_nat 2) with 2%Z in E1.
  split; [unfold u2_s; rewrite E1; reflexivity|].
  assert (CL : forall o, Rabs (Y o - T o) <= 1 / 6 * B o).
  { intro o. unfold T, x. rewrite (value_taylor _ _ _ _ _ _ _ P l X G ND HI o). unfold taylor2.
    destruct (line_derivatives _ _ _ (ad_sd p) (fun i => X i o) _ _ HD2) as [K1 K2].
    fold p. replace (ad_fun p v (ad_mean p)) with (path o 0).
    - exact (bends_taylor2 (path o) (B o) _ _ (HB o) K1 K2).
    - unfold path. f_equal. apply functional_extensionality. intro i. unfold part_way. ring. }
  split.
  - rewrite Rabs_minus_sym. replace (Ex P B / 6) with (1 / 6 * Ex P B) by field. apply (mean_close P Y T B (1 / 6)); auto. lra.
  - intros WP FY FB. rewrite Rabs_minus_sym. replace (rms P B / 6) with (1 / 6 * rms P B) by field.
    replace (sqrt (Ex P (fun o => (T o - Ex P T) ^ 2))) with (true_sd P T); [apply (sd_close P WP Y T B (1 / 6)); auto; lra|].
    unfold true_sd, true_cov. f_equal. symmetry. apply E_eq; [intro o; cbn [pow]; ring|exact I1].
Qed.

Lemma C90_second_order_covariance_partial_proof : forall eig (cs : list (call2 RN)), legal2 cs -> accepted eig w2_init cs ->
  covered_run eig w2_init cs -> derivs2_ok ad_init cs ->
  let p := ad2_run ad_init cs in
  exists w, run2 eig w2_init cs = Ret w /\
    forall u v (P : prob) (l : list Z) (X : Z -> Om P -> R) (M : Z -> moms RN) (B B' : Om P -> R),
      let x := w2_var w u in let y := w2_var w v in NoDup l ->
      independent P l X (fun i => stdmom (M i)) ->
      (forall i, In i l -> exists s, s <> 0 /\ given eig w2_init cs i = Some (s, M i)) ->
      involves_only (jet_of x) l -> involves_only (jet_of y) l -> with_products P ->
      let path := fun z o t => ad_fun p z (part_way (ad_mean p) (ad_sd p) (fun i => X i o) t) in
      let Y := fun z o => path z o 1 in
      (forall o, bends 3 (path u o) (B o)) -> (forall o, bends 3 (path v o) (B' o)) ->
      finite_variance P (Y u) -> finite_variance P B -> finite_variance P (Y v) -> finite_variance P B' ->
      exists c sx sy, u2_cov x y = Ret c /\ u2_s x = Ret sx /\ u2_s y = Ret sy /\
        Rabs (c - true_cov P (Y u) (Y v)) <= sx * (rms P B' / 6) + rms P B / 6 * sy + rms P B / 6 * (rms P B' / 6).
Proof.
  intros eig cs HL A CR HD p. destruct (taylor_run eig cs HL A CR HD) as (w & E & HLast & HR).
  exists w. split; [exact E|]. intros u v P l X M B B' x y ND IND GV HI HI' WP path Y HB HB' FY FB FY' FB'.
  destruct (HR u) as (D1 & D2 & G), (HR v) as (D1' & D2' & G').
  assert (HD2 := good_derivs _ _ _ _ _ _ _ G). assert (HD2' := good_derivs _ _ _ _ _ _ _ G').
  destruct (C28_moments_of_the_polynomial_proof eig cs w HL E P l X M ND IND GV u HI) as (I0 & _ & N2).
  destruct (C28_moments_of_the_polynomial_proof eig cs w HL E P l X M ND IND GV v HI') as (I0' & _ & N2').
  destruct (N2 2%nat) as [I1 E1]; [lia|]. destruct (N2' 2%nat) as [I1' E1']; [lia|].
  destruct (C29_covariance_of_the_polynomials_proof eig cs w HL E P l X M ND IND GV u v HI HI') as (_ & CV).
  fold x in I0, I1, E1, CV. fold y in I0', I1', E1', CV. set (T := value (jet_of x) l X) in *. set (T' := value (jet_of y) l X) in *.
  assert (FT : finite_variance P T) by exact (fv_of_center P T (Ex P T) I0 I1).
  assert (FT' : finite_variance P T') by exact (fv_of_center P T' (Ex P T') I0' I1').
  exists (true_cov P T T'), (sqrt (Ex P (fun o => (T o - Ex P T) ^ 2))), (sqrt (Ex P (fun o => (T' o - Ex P T') ^ 2))).
  change (Z.of_nat 2) with 2%Z in E1, E1'. split; [exact CV|]. split; [unfold u2_s; rewrite E1; reflexivity|]. split; [unfold u2_s; rewrite E1'; reflexivity|].
  assert (P0 : forall z o, path z o 0 = ad_fun p z (ad_mean p)).
  { intros z o. unfold path. f_equal. apply functional_extensionality. intro i. unfold part_way. ring. }
  assert (CL : forall o, Rabs (Y u o - T o) <= / 6 * B o).
  { intro o. unfold T, x. rewrite (value_taylor _ _ _ _ _ _ _ P l X G ND HI o). unfold taylor2.
    destruct (line_derivatives _ _ _ (ad_sd p) (fun i => X i o) _ _ HD2) as [K1 K2]. fold p. rewrite <- (P0 u o).
    replace (/ 6) with (1 / 6) by field. exact (bends_taylor2 (path u o) (B o) _ _ (HB o) K1 K2). }
  assert (CL' : forall o, Rabs (Y v o - T' o) <= / 6 * B' o).
  { intro o. unfold T', y. rewrite (value_taylor _ _ _ _ _ _ _ P l X G' ND HI' o). unfold taylor2.
    destruct (line_derivatives _ _ _ (ad_sd p) (fun i => X i o) _ _ HD2') as [K1 K2]. fold p. rewrite <- (P0 v o).
    replace (/ 6) with (1 / 6) by field. exact (bends_taylor2 (path v o) (B' o) _ _ (HB' o) K1 K2). }
  assert (SD : forall f, int P (fun o => (f o - Ex P f) ^ 2) -> sqrt (Ex P (fun o => (f o - Ex P f) ^ 2)) = true_sd P f).
  { intros f If. unfold true_sd, true_cov. f_equal. apply E_eq; [intro o; cbn [pow]; ring|exact If]. }
  rewrite (SD T I1), (SD T' I1'), Rabs_minus_sym. unfold Rdiv. rewrite (Rmult_comm (rms P B) (/ 6)), (Rmult_comm (rms P B') (/ 6)).
  apply (cov_close P WP (Y u) T B (/ 6) (Y v) T' B' (/ 6)); auto; lra.
Qed.
