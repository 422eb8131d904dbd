(** * MomBilin: the covariance of UReal2 is bilinear under the linear operations *)

From Coq Require Import List ZArith Bool Reals Lra Lia.
From Verif Require Import Base Num Map UReal World HessGrad Moments CheckMoments UReal2 HessProofs U2Facts World2 U2World SpecObs SpecU2Run U2Proofs U2Proofs2.
From Verif Require Import URealFacts URealProofs Sums URealR SpecU2 U2Values U2Ret SpecProb SpecMom MomSums MomSpec MomPoly MomCode MomProofs MomCov MomGiven MomDeg MomProd MomStats.
Import ListNotations.
Local Open Scope R_scope.

Section Lin.
  Variables (last : Z) (env : Z -> moms RN) (x y z t : ureal2 RN) (a b : R).
  Hypothesis (Wx : wf2 last env x) (Wy : wf2 last env y) (Wz : wf2 last env z) (Wt : wf2 last env t).
  Hypothesis JG : forall i, j_g (jet_of z) i = a * j_g (jet_of x) i + b * j_g (jet_of y) i.
  Hypothesis JH : forall i j, j_h (jet_of z) i j = a * j_h (jet_of x) i j + b * j_h (jet_of y) i j.

  Lemma cov_linear : exists c d, u2_cov x t = Ret c /\ u2_cov y t = Ret d /\ u2_cov z t = Ret (a * c + b * d).
  Proof.
    destruct (world_model last env) as (P & X & IND).
    destruct (w_m1 last env P X IND x Wx) as [Ix _]. destruct (w_m1 last env P X IND y Wy) as [Iy _].
    destruct (w_m1 last env P X IND z Wz) as [Iz _].
    destruct (w_cov last env P X IND x t Wx Wt) as [Ix' Ex']. destruct (w_cov last env P X IND y t Wy Wt) as [Iy' Ey'].
    destruct (w_cov last env P X IND z t Wz Wt) as [Iz' Ez'].
    set (k := j_mean (jet_of z) - a * j_mean (jet_of x) - b * j_mean (jet_of y)).
    assert (YE : forall o, (a * Yw last P X x o + b * Yw last P X y o) + k = Yw last P X z o).
    { intro o. unfold k, Yw, Yv, quad.
      assert (E1 : forall l, rsum l (fun i => j_g (jet_of z) i * X i o) = a * rsum l (fun i => j_g (jet_of x) i * X i o) + b * rsum l (fun i => j_g (jet_of y) i * X i o)).
      { intro l. rewrite <- !rsum_scal, <- rsum_plus. apply rsum_ext. intros i _. rewrite JG. ring. }
      assert (E2 : forall l l', rsum l (fun i => rsum l' (fun j => j_h (jet_of z) i j * X i o * X j o)) =
        a * rsum l (fun i => rsum l' (fun j => j_h (jet_of x) i j * X i o * X j o)) + b * rsum l (fun i => rsum l' (fun j => j_h (jet_of y) i j * X i o * X j o))).
      { intros l l'. rewrite <- !rsum_scal, <- rsum_plus. apply rsum_ext. intros i _. rewrite <- !rsum_scal, <- rsum_plus. apply rsum_ext. intros j _. rewrite JH. ring. }
      rewrite E1, E2. ring. }
    destruct (Ex_scal P a _ Ix) as [I1 E1]. destruct (Ex_scal P b _ Iy) as [I2 E2]. destruct (Ex_plus P _ _ I1 I2) as [I3 E3].
    destruct (Ex_const P k) as [I4 E4]. destruct (Ex_plus P _ _ I3 I4) as [I5 E5]. destruct (Ex_ext P _ _ YE I5) as [_ E6].
    assert (EZ : Ex P (Yw last P X z) = a * Ex P (Yw last P X x) + b * Ex P (Yw last P X y) + k) by (rewrite <- E6, E5, E3, E1, E2, E4; reflexivity).
    assert (ZE : forall o, a * (Zw last P X x o * Zw last P X t o) + b * (Zw last P X y o * Zw last P X t o) = Zw last P X z o * Zw last P X t o).
    { intro o. unfold Zw. rewrite EZ, <- YE. ring. }
    destruct (Ex_scal P a _ Ix') as [J1 F1]. destruct (Ex_scal P b _ Iy') as [J2 F2]. destruct (Ex_plus P _ _ J1 J2) as [J3 F3].
    destruct (Ex_ext P _ _ ZE J3) as [_ F4].
    eexists _, _. split; [exact Ex'|]. split; [exact Ey'|]. rewrite Ez', <- F4, F3, F1, F2. reflexivity.
  Qed.
End Lin.

Lemma C29_bilinear_proof : forall eig (w : world2 RN), reachable2 eig w -> forall u v t,
  let x := w2_var w u in let y := w2_var w v in let q := w2_var w t in
  exists s d m c1 c2, u2_add x y = Ret s /\ u2_sub x y = Ret d /\ u2_neg x = Ret m /\
    u2_cov x q = Ret c1 /\ u2_cov y q = Ret c2 /\
    u2_cov s q = Ret (c1 + c2) /\ u2_cov q s = Ret (c1 + c2) /\
    u2_cov d q = Ret (c1 - c2) /\ u2_cov q d = Ret (c1 - c2) /\
    u2_cov m q = Ret (- c1) /\ u2_cov q m = Ret (- c1) /\
    ((forall i, ~ j_dep (jet_of y) i) ->
     exists p, u2_mul x y = Ret p /\ u2_cov p q = Ret (u2_first_order_n y * c1) /\ u2_cov q p = Ret (u2_first_order_n y * c1)).
Proof.
  intros eig w Hr u v t x y q. destruct (reachable2_wf Rltb_00 eig w Hr) as (env & [_ W] & B).
  destruct (C26_neg_add_sub_mul_proof eig w Hr u v) as ((m & Em & Jm) & (s & Es & Js) & (d & Ed & Jd) & (p & Ep & Jp)).
  fold x y in Em, Jm, Es, Js, Ed, Jd, Ep, Jp.
  assert (Wbin : forall f fx fy fxx fyy fxy z, u2_binary x y f fx fy fxx fyy fxy = Ret z -> wf2 (w2_last w) env z).
  { intros f fx fy fxx fyy fxy z E. destruct (binary_wf2 (w2_last w) env x y f fx fy fxx fyy fxy (W u) (W v) ltac:(lia)) as (z' & E' & W').
    rewrite E' in E. injection E as <-. exact W'. }
  assert (Wm : wf2 (w2_last w) env m).
  { edestruct (unary_wf2 (w2_last w) env x) as (z' & E' & W'); [exact (W u)|].
    unfold u2_neg in Em. rewrite E' in Em. injection Em as <-. exact W'. }
  assert (Ws := Wbin _ _ _ _ _ _ _ Es). assert (Wd := Wbin _ _ _ _ _ _ _ Ed). assert (Wp := Wbin _ _ _ _ _ _ _ Ep).
  assert (SY : forall z c, wf2 (w2_last w) env z -> u2_cov z q = Ret c -> u2_cov z q = Ret c /\ u2_cov q z = Ret c).
  { intros z c Wz Ec. destruct (cov_sym (w2_last w) env z q Wz (W t)) as (c' & A & A'). split; congruence. }
  destruct (cov_linear (w2_last w) env x y s q 1 1 (W u) (W v) Ws (W t)) as (c1 & c2 & E1 & E2 & E3).
  { intro i. destruct Js as (_ & _ & G & _). rewrite G. cbn. ring. }
  { intros i j. destruct Js as (_ & _ & _ & H). rewrite H. cbn. ring. }
  destruct (cov_linear (w2_last w) env x y d q 1 (-1) (W u) (W v) Wd (W t)) as (c1' & c2' & E1' & E2' & E4).
  { intro i. destruct Jd as (_ & _ & G & _). rewrite G. cbn. ring. }
  { intros i j. destruct Jd as (_ & _ & _ & H). rewrite H. cbn. ring. }
  assert (c1' = c1) by congruence. assert (c2' = c2) by congruence. subst c1' c2'. clear E1' E2'.
  destruct (cov_linear (w2_last w) env x y m q (-1) 0 (W u) (W v) Wm (W t)) as (c1' & c2' & E1' & E2' & E5).
  { intro i. destruct Jm as (_ & _ & G & _). rewrite G. cbn. ring. }
  { intros i j. destruct Jm as (_ & _ & _ & H). rewrite H. cbn. ring. }
  assert (c1' = c1) by congruence. assert (c2' = c2) by congruence. subst c1' c2'. clear E1' E2'.
  replace (1 * c1 + 1 * c2) with (c1 + c2) in E3 by ring. replace (1 * c1 + -1 * c2) with (c1 - c2) in E4 by ring.
  replace (-1 * c1 + 0 * c2) with (- c1) in E5 by ring.
  exists s, d, m, c1, c2. repeat (split; [assumption|]).
  split; [now apply (SY s)|]. split; [exact E4|]. split; [now apply (SY d)|]. split; [exact E5|]. split; [now apply (SY m)|].
  intro HC.
  assert (G0 : forall i, j_g (jet_of y) i = 0) by (intro i; apply (proj1 (st_sup y (proj1 (W v)))), HC).
  assert (H0 : forall i j, j_h (jet_of y) i j = 0) by (intros i j; apply (proj2 (st_sup y (proj1 (W v)))); left; apply HC).
  destruct (cov_linear (w2_last w) env x y p q (u2_first_order_n y) 0 (W u) (W v) Wp (W t)) as (c1' & c2' & E1' & E2' & E6).
  { intro i. destruct Jp as (_ & _ & G & _). rewrite G. cbn [jet_mul j_g j_h j_mean]. rewrite G0. change (j_mean (jet_of y)) with (u2_first_order_n y). ring. }
  { intros i j. destruct Jp as (_ & _ & _ & H). rewrite H. cbn [jet_mul j_g j_h j_mean]. rewrite !G0, !H0. change (j_mean (jet_of y)) with (u2_first_order_n y). field. }
  assert (c1' = c1) by congruence. subst c1'.
  replace (u2_first_order_n y * c1 + 0 * c2') with (u2_first_order_n y * c1) in E6 by ring.
  exists p. split; [exact Ep|]. now apply SY.
Qed.
