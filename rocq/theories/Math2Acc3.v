(** * Math2Acc3: the functions with cancellation or amplified errors on UReal2<double> (C78) *)

From Coq Require Import List ZArith Reals Bool Lra Lia Psatz.
From Coquelicot Require Import Coquelicot.
From Flocq Require Import Core BinarySingleNaN.
From Verif Require Import Base Num Map UReal World SpecObs HessGrad UReal2 World2 SpecU2Run.
From Verif Require Import Ieee IeeeFacts SpecIeee IeeeProofs3 IeeeProofs4 IeeeCov Nan Math SpecMathIeee IeeeRel MathAcc MathAcc2 MathAcc3 MathAcc4.
From Verif Require Import Derivs Math2 SpecMath2 SpecAcc3 SpecMath2Ieee Math2Acc Math2Acc2.
Import ListNotations.
Local Open Scope R_scope.

Lemma regular_opp r : regular r -> regular (- r).
Proof. intros [H|H]; [left; lra|right]. now rewrite Rabs_Ropp. Qed.

(** as [fin2], with the error [h * e] of the cancelling subtraction instead of [e] *)
Ltac fin3 e' k1 k2 dv :=
  split; [|do 2 eexists; split; [exact dv|]; exists e', k1, k2;
    split; [lra|split; [lia|split; [lia|split; [right; rewrite INR_IZR_INZ; simpl|split; [right; rewrite INR_IZR_INZ; simpl|split; [intro R1|intros R1 R2]]]]]]].

Lemma small_quot c q e : ur <= e <= pow2 (-20) -> 1 <= c -> 0 < q <= 1 -> c * e <= pow2 (-20) * q -> e <= c / q * e <= pow2 (-20).
Proof.
  intros He Hc Q H. assert (S := e_small e He). split; [|apply quot_le; lra].
  assert (X := quot_ge1 c q ltac:(lra) Q). rewrite <- (Rmult_1_l e) at 1. apply Rmult_le_compat_r; lra.
Qed.
Lemma hundred e q : ur <= e <= pow2 (-20) -> 8 * e <= pow2 (-20) * q -> 100 * e <= q.
Proof. intros He H. assert (S := e_small e He). assert (E : pow2 (-20) = / 1048576) by reflexivity. rewrite E in H. lra. Qed.
Lemma q_sr e q : ur <= e <= pow2 (-20) -> 8 * e <= pow2 (-20) * q -> q <= 1 -> sr (-106) 0 q.
Proof. intros He H Q. apply sr_rng. exact (q_rng e q He (conj (hundred e q He H) Q)). Qed.

(** 1 - x^2, its reciprocal and the square root of that *)
Section OneMinus.
  Variables (e : R) (a : double).
  Hypotheses (He : ur <= e <= pow2 (-20)) (Fa : finite a).
  Let r := real_of a.
  Let q := 1 - r * r.
  Hypotheses (Hq : 8 * e <= pow2 (-20) * q).
  Let e' := 8 / q * e.
  Lemma om_q : 0 < q <= 1.
  Proof. assert (R2 := Rle_0_sqr r). unfold Rsqr in R2. assert (X := hundred e q He Hq). assert (S := e_small e He). unfold q in *. lra. Qed.
  Lemma om_e : e <= e' <= pow2 (-20). Proof. apply small_quot; [exact He|lra|exact om_q|exact Hq]. Qed.
  Lemma om_dom : -1 < r < 1. Proof. assert (X := om_q). unfold q in X. split; nra. Qed.
  Lemma om_He : ur <= e' <= pow2 (-20). Proof. assert (X := om_e). lra. Qed.
  Lemma om_near : near e' 1 (dsub (dofZ 1) (dmul a a)) q.
  Proof. apply near_close; [exact om_He|]. apply (one_minus e 0 a r He); [lia|now apply near_exact|exact (hundred e q He Hq)]. Qed.
  Lemma om_inv : near e' 2 (ddiv (dofZ 1) (dsub (dofZ 1) (dmul a a))) (/ q).
  Proof.
    assert (Q := om_q). apply (near_eq _ _ _ (1 / q)); [field; lra|]. assert (Sq := q_sr e q He Hq (proj2 Q)).
    apply (near_div e' om_He 0 1); [lia|apply near_lit_small; [exact om_He|lia]|exact om_near|lra|]. unfold Rdiv. rewrite Rmult_1_l. reg.
  Qed.
  Lemma om_sqrt_sr : sr (-53) 0 (sqrt q).
  Proof. apply sr_rng, rng_sqrt. exact (q_rng e q He (conj (hundred e q He Hq) (proj2 om_q))). Qed.
  Lemma om_isqrt : near e' 3 (dsqrt (ddiv (dofZ 1) (dsub (dofZ 1) (dmul a a)))) (/ sqrt q).
  Proof.
    assert (Q := om_q). assert (Sq := om_sqrt_sr). assert (Ps := sqrt_lt_R0 q (proj1 Q)).
    apply (near_eq _ _ _ (sqrt (/ q))); [now apply sqrt_inv_eq|]. apply (near_sqrt e' om_He 2); [lia|left; now apply Rinv_0_lt_compat|exact om_inv|].
    rewrite sqrt_inv_eq by apply Q. reg.
  Qed.
  Hypothesis (Pa : plain r).
  Lemma om_second : near e' 7 (dmul (dmul a (dsqrt (ddiv (dofZ 1) (dsub (dofZ 1) (dmul a a))))) (ddiv (dofZ 1) (dsub (dofZ 1) (dmul a a)))) (r / (q * sqrt q)).
  Proof.
    assert (Q := om_q). assert (Sq := om_sqrt_sr). assert (Sq' := q_sr e q He Hq (proj2 Q)). assert (Ps := sqrt_lt_R0 q (proj1 Q)). assert (Sa := plain_sr _ Pa).
    assert (N1 : q <> 0) by lra. assert (N2 : sqrt q <> 0) by lra.
    apply (near_eq _ _ _ (r * / sqrt q * / q)); [field; split; assumption|].
    apply (near_mul e' om_He 4 2); [lia| |exact om_inv|reg]. apply (near_mul e' om_He 0 3); [lia|now apply near_exact|exact om_isqrt|reg].
  Qed.
End OneMinus.

Lemma quot_eq k c q e : 0 < q -> k * (c / q * e) = k * c / q * e. Proof. intro. field. lra. Qed.
Definition om_ok (e q : R) : Prop := 8 * e <= pow2 (-20) * q.

Lemma B_asin : accurate1_2nd g2_asin (fun e a => plain a /\ om_ok e (1 - a * a)) asin (fun a => 40 / (1 - a * a)) (fun a => 104 / (1 - a * a)).
Proof.
  start2 (fun (M : cmath DN) (a : double) => c_asin M a) (fun (M : cmath DN) (a : double) => dsqrt (ddiv (dofZ 1) (dsub (dofZ 1) (dmul a a))))
    (fun (M : cmath DN) (a : double) => dmul (dmul a (dsqrt (ddiv (dofZ 1) (dsub (dofZ 1) (dmul a a))))) (ddiv (dofZ 1) (dsub (dofZ 1) (dmul a a)))).
  destruct Da as [Pa Da]. assert (Dm := om_dom e a He Da). assert (Q := om_q e a He Da). assert (E := om_e e a He Da). fold r in Dm, Q, E.
  fin3 (8 / (1 - r * r) * e) 3%nat 7%nat (derivs2_twice _ _ _ _ r D_asin Dm).
  - apply A; auto. fold r. lra.
  - field. lra.
  - field. lra.
  - exact (om_isqrt e a He Fa Da).
  - exact (om_second e a He Fa Da Pa).
Qed.
Lemma B_acos : accurate1_2nd g2_acos (fun e a => plain a /\ om_ok e (1 - a * a)) acos (fun a => 40 / (1 - a * a)) (fun a => 104 / (1 - a * a)).
Proof.
  start2 (fun (M : cmath DN) (a : double) => c_acos M a) (fun (M : cmath DN) (a : double) => dopp (dsqrt (ddiv (dofZ 1) (dsub (dofZ 1) (dmul a a)))))
    (fun (M : cmath DN) (a : double) => dmul (dmul (dopp a) (dsqrt (ddiv (dofZ 1) (dsub (dofZ 1) (dmul a a))))) (ddiv (dofZ 1) (dsub (dofZ 1) (dmul a a)))).
  destruct Da as [Pa Da]. assert (Dm := om_dom e a He Da). assert (Q := om_q e a He Da). assert (E := om_e e a He Da). fold r in Dm, Q, E.
  fin3 (8 / (1 - r * r) * e) 3%nat 7%nat (derivs2_twice _ _ _ _ r D_acos Dm).
  - apply A; auto. fold r. lra.
  - field. lra.
  - field. lra.
  - apply near_opp. exact (om_isqrt e a He Fa Da).
  - assert (Sq := om_sqrt_sr e a He Da). assert (Sq' := q_sr e _ He Da (proj2 Q)). assert (Ps := sqrt_lt_R0 _ (proj1 Q)). assert (Sa := plain_sr _ Pa).
    assert (He' := om_He e a He Da). fold r in Sq, He', Sq'. set (q := 1 - r * r) in *. assert (N1 : q <> 0) by lra. assert (N2 : sqrt q <> 0) by lra.
    apply (near_eq _ _ _ (- r * / sqrt q * / q)); [field; split; assumption|].
    apply (near_mul _ He' 4 2); [lia| |exact (om_inv e a He Fa Da)|reg]. apply (near_mul _ He' 0 3); [lia|apply near_opp; now apply near_exact|exact (om_isqrt e a He Fa Da)|reg].
Qed.
Lemma B_atanh : accurate1_2nd g2_atanh (fun e a => plain a /\ om_ok e (1 - a * a)) R_atanh (fun a => 32 / (1 - a * a)) (fun a => 104 / (1 - a * a)).
Proof.
  start2 (fun (M : cmath DN) (a : double) => c_atanh M a) (fun (M : cmath DN) (a : double) => ddiv (dofZ 1) (dsub (dofZ 1) (dmul a a)))
    (fun (M : cmath DN) (a : double) => dmul (dmul (dmul (dofZ 2) a) (ddiv (dofZ 1) (dsub (dofZ 1) (dmul a a)))) (ddiv (dofZ 1) (dsub (dofZ 1) (dmul a a)))).
  destruct Da as [Pa Da]. assert (Dm := om_dom e a He Da). assert (Q := om_q e a He Da). assert (E := om_e e a He Da). fold r in Dm, Q, E.
  fin3 (8 / (1 - r * r) * e) 2%nat 7%nat (derivs2_twice _ _ _ _ r D_atanh Dm).
  - apply A; auto.
  - field. lra.
  - field. lra.
  - exact (om_inv e a He Fa Da).
  - assert (Sq' := q_sr e _ He Da (proj2 Q)). assert (Sa := plain_sr _ Pa).
    assert (He' := om_He e a He Da). fold r in He', Sq'. set (q := 1 - r * r) in *. assert (N1 : q <> 0) by lra. assert (Ni := om_inv e a He Fa Da).
    apply (near_eq _ _ _ (2 * r * / q * / q)); [field; assumption|].
    apply (near_mul _ He' 4 2); [lia| |exact Ni|reg]. apply (near_mul _ He' 1 2); [lia| |exact Ni|reg].
    apply (near_mul _ He' 0 0); [lia|lits|now apply near_exact|reg].
Qed.
Lemma B_tanh : accurate1_2nd g2_tanh (fun e a => om_ok e (1 - tanh a * tanh a)) tanh (fun a => 24 / (1 - tanh a * tanh a)) (fun a => 80 / (1 - tanh a * tanh a)).
Proof.
  start2 (fun (M : cmath DN) (a : double) => c_tanh M a) (fun (M : cmath DN) (a : double) => dsub (dofZ 1) (dmul (c_tanh M a) (c_tanh M a)))
    (fun (M : cmath DN) (a : double) => dmul (dmul (dopp (dofZ 2)) (c_tanh M a)) (dsub (dofZ 1) (dmul (c_tanh M a) (c_tanh M a)))).
  assert (C : close e (c_tanh M a) (tanh r)) by (apply A; auto). assert (D := derivs2_twice _ _ _ _ r D_tanh I). set (t := tanh r) in *.
  assert (T2 := Rle_0_sqr t). unfold Rsqr in T2. assert (X := hundred e _ He Da). assert (S := e_small e He).
  set (q := 1 - t * t) in *. assert (Q : 0 < q <= 1) by (unfold q in *; lra). assert (E := small_quot 8 q e He ltac:(lra) Q Da).
  assert (He' : ur <= 8 / q * e <= pow2 (-20)) by lra.
  assert (N1 : near (8 / q * e) 1 (dsub (dofZ 1) (dmul (c_tanh M a) (c_tanh M a))) q).
  { apply near_close; [exact He'|]. apply (one_minus e 1 _ t He); [lia|now apply near_close|exact X]. }
  fin3 (8 / q * e) 1%nat 4%nat D.
  - exact C.
  - field. lra.
  - field. lra.
  - exact N1.
  - apply (near_mul _ He' 2 1); [lia| |exact N1|exact R2]. apply (near_mul _ He' 0 1); [lia|now apply near_m2| |].
    + apply near_close; [exact He'|]. apply (close_weaken e); [lra|exact C].
    + assert (T1 : Rabs t <= pow2 0) by (change (pow2 0) with 1; apply Rabs_le; unfold q in *; split; nra).
      fold t. replace (-2 * t) with (- (2 * t)) by ring. apply regular_opp, (regular_double _ 0); [exact T1|lia|exact Rg].
Qed.
(** x^2 - 1 *)
Definition mo_ok (e a : R) : Prop := 4 * (a * a) * e <= pow2 (-20) * (a * a - 1).
Lemma B_acosh : accurate1_2nd g2_acosh (fun e a => 1 < a <= pow2 250 /\ mo_ok e a) R_acosh (fun a => 20 * (a * a) / (a * a - 1)) (fun a => 52 * (a * a) / (a * a - 1)).
Proof.
  start2 (fun (M : cmath DN) (a : double) => c_acosh M a) (fun (M : cmath DN) (a : double) => dsqrt (ddiv (dofZ 1) (dsub (dmul a a) (dofZ 1))))
    (fun (M : cmath DN) (a : double) => dmul (dmul (dopp a) (ddiv (dofZ 1) (dsub (dmul a a) (dofZ 1)))) (dsqrt (ddiv (dofZ 1) (dsub (dmul a a) (dofZ 1))))).
  destruct Da as [Dm Da]. unfold mo_ok in Da. assert (S := e_small e He). assert (P20 : pow2 (-20) = / 1048576) by reflexivity.
  assert (T2 : 1 < r * r) by nra. set (q := r * r - 1) in *. assert (q0 : 0 < q) by (unfold q; lra).
  assert (Dm' : 1 < r <= pow2 500) by (split; [lra|]; eapply Rle_trans; [apply Dm|apply pow2_le; lia]).
  assert (H100 : 100 * e * (r * r) <= q) by (rewrite P20 in Da; nra).
  assert (C := minus_one e a He Fa Dm' H100). fold r q in C.
  assert (X : 1 <= r * r / q). { apply Rmult_le_reg_r with q; [exact q0|]. unfold Rdiv. rewrite Rmult_assoc, Rinv_l by lra. unfold q. lra. }
  set (e' := 4 * (r * r) / q * e) in *.
  assert (E : e <= e' <= pow2 (-20)).
  { unfold e'. split.
    - replace (4 * (r * r) / q * e) with (4 * (r * r / q) * e) by (field; lra). rewrite <- (Rmult_1_l e) at 1. apply Rmult_le_compat_r; lra.
    - apply Rmult_le_reg_r with q; [exact q0|]. replace (4 * (r * r) / q * e * q) with (4 * (r * r) * e) by (field; lra). exact Da. }
  assert (He' : ur <= e' <= pow2 (-20)) by lra.
  assert (Ub : r * r <= pow2 500). { change 500%Z with (250 + 250)%Z. rewrite pow2_add. apply Rmult_le_compat; lra. }
  assert (Qr : rng (-250 + -250) (250 + 250) q).
  { split; [|change (250 + 250)%Z with 500%Z; unfold q; lra]. apply Rle_trans with ur; [apply pow2_le; lia|]. nra. }
  assert (Sq := sr_rng _ _ _ Qr). assert (Ss := sr_rng _ _ _ (rng_sqrt _ _ _ Qr)). assert (Ps := sqrt_lt_R0 q q0).
  assert (Sa : sr 0 250 r) by (apply sr_rng; split; [change (pow2 0) with 1; lra|apply Dm]).
  assert (N1 : q <> 0) by lra. assert (N2 : sqrt q <> 0) by lra.
  assert (Ni : near e' 2 (ddiv (dofZ 1) (dsub (dmul a a) (dofZ 1))) (/ q)).
  { apply (near_eq _ _ _ (1 / q)); [field; lra|]. apply (near_div e' He' 0 1); [lia|lits|now apply near_close|exact N1|]. unfold Rdiv. rewrite Rmult_1_l. reg. }
  assert (Ns : near e' 3 (dsqrt (ddiv (dofZ 1) (dsub (dmul a a) (dofZ 1)))) (/ sqrt q)).
  { apply (near_eq _ _ _ (sqrt (/ q))); [now apply sqrt_inv_eq|]. apply (near_sqrt e' He' 2); [lia|left; now apply Rinv_0_lt_compat|exact Ni|].
    rewrite sqrt_inv_eq by exact q0. reg. }
  fin3 e' 3%nat 7%nat (derivs2_twice _ _ _ _ r D_acosh (proj1 Dm)).
  - apply A; auto. fold r. lra.
  - unfold e', q. field. unfold q in *. lra.
  - unfold e', q. field. unfold q in *. lra.
  - exact Ns.
  - fold q. apply (near_eq _ _ _ (- r * / q * / sqrt q)); [field; split; assumption|].
    apply (near_mul e' He' 3 3); [lia| |exact Ns|reg]. apply (near_mul e' He' 0 2); [lia|apply near_opp; now apply near_exact|exact Ni|reg].
Qed.

(** ** erf and erfc *)
Definition erf_ok (e a : R) : Prop := Rabs a <= 22 /\ (11 + 3 * (a * a)) * e <= pow2 (-20).
Lemma erf_e e r : ur <= e <= pow2 (-20) -> erf_ok e r -> e <= (11 + 3 * (r * r)) * e <= pow2 (-20).
Proof.
  intros He [_ H]. split; [|exact H]. assert (S := e_small e He). assert (R2 := Rle_0_sqr r). unfold Rsqr in R2. rewrite <- (Rmult_1_l e) at 1.
  apply Rmult_le_compat_r; lra.
Qed.
Lemma B_erf : accurate1_2nd g2_erf (fun e a => plain a /\ erf_ok e a) R_erf (fun a => 33 + 9 * (a * a)) (fun a => 99 + 27 * (a * a)).
Proof.
  start2 (fun (M : cmath DN) (a : double) => c_erf M a) (fun (M : cmath DN) (a : double) => dmul (g_erf_coeff M) (c_exp M (dmul (dopp a) a)))
    (fun (M : cmath DN) (a : double) => dmul (dmul (dopp (dofZ 2)) a) (dmul (g_erf_coeff M) (c_exp M (dmul (dopp a) a)))).
  destruct Da as [Pa Da]. assert (E := erf_e e r He Da). assert (Sa := plain_sr _ Pa).
  assert (C := erf_deriv M e a He A Fa (proj1 Da)). fold r in C. set (e' := (11 + 3 * (r * r)) * e) in *. assert (He' : ur <= e' <= pow2 (-20)) by lra.
  assert (N := near_close e' He' _ _ C).
  fin3 e' 1%nat 3%nat (derivs2_twice _ _ _ _ r D_erf I).
  - apply A; auto.
  - unfold e'. ring.
  - unfold e'. ring.
  - exact N.
  - apply (near_mul e' He' 1 1); [lia| |exact N|exact R2]. apply (near_mul e' He' 0 0); [lia|now apply near_m2|now apply near_exact|reg].
Qed.
Lemma B_erfc : accurate1_2nd g2_erfc (fun e a => plain a /\ erf_ok e a) (fun x => 1 - R_erf x) (fun a => 33 + 9 * (a * a)) (fun a => 99 + 27 * (a * a)).
Proof.
  start2 (fun (M : cmath DN) (a : double) => c_erfc M a) (fun (M : cmath DN) (a : double) => dopp (dmul (g_erf_coeff M) (c_exp M (dmul (dopp a) a))))
    (fun (M : cmath DN) (a : double) => dmul (dmul (dofZ 2) a) (dmul (g_erf_coeff M) (c_exp M (dmul (dopp a) a)))).
  destruct Da as [Pa Da]. assert (E := erf_e e r He Da). assert (Sa := plain_sr _ Pa).
  assert (C := erf_deriv M e a He A Fa (proj1 Da)). fold r in C. set (e' := (11 + 3 * (r * r)) * e) in *. assert (He' : ur <= e' <= pow2 (-20)) by lra.
  assert (N := near_close e' He' _ _ C).
  fin3 e' 1%nat 3%nat (derivs2_twice _ _ _ _ r D_erfc I).
  - apply A; auto.
  - unfold e'. ring.
  - unfold e'. ring.
  - apply near_opp. exact N.
  - apply (near_mul e' He' 1 1); [lia| |exact N|exact R2]. apply (near_mul e' He' 0 0); [lia|lits|now apply near_exact|reg].
Qed.
