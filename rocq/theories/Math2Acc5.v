(** * Math2Acc5: the operators and functions of two arguments on UReal2<double> (C78) *)

From Coq Require Import List ZArith Reals Bool Lra Lia Psatz.
From Coquelicot Require Import Coquelicot.
From Flocq Require Import Core BinarySingleNaN.
From Verif Require Import Base Num Map UReal World SpecObs HessGrad UReal2 World2 SpecU2Run.
From Verif Require Import Ieee IeeeFacts SpecIeee IeeeProofs3 IeeeProofs4 IeeeCov Nan Math ADProofs ADProofs2 SpecMathIeee SpecMathIeee2 IeeeRel MathAcc MathAcc2 MathAcc3 MathAcc4.
From Verif Require Import Derivs Derivs2d Math2 SpecMath2 SpecAcc3 SpecMath2Ieee MathAcc7 Math2Acc Math2Acc2 Math2Acc4.
Import ListNotations.
Local Open Scope R_scope.

Ltac startB k0 K1 K fm fx fy fxx fyy fxy :=
  match goal with |- accurate2_2nd ?m ?dom ?F ?sx ?sy ?sm ?c0 ?c1 ?c2 => replace c1 with (K1 + 6) by lra; replace c2 with (K + 19) by lra end;
  apply (accurate2_2nd_intro _ _ _ _ _ _ k0 K1 K fm fx fy fxx fyy fxy); [lra|lra|intros; reflexivity|];
  intros M e He A X Y FX FY a b Da Rg; cbn beta in *.

Section Help.
  Variable e : R.
  Hypothesis He : ur <= e <= pow2 (-20).
  Lemma apxn k K d r s : (k <= 200)%nat -> INR k + 1 <= K -> near e k d r -> Rabs r <= s -> apx e K d r s.
  Proof. intros Hk HK N Hs. apply (apx_weaken e He (INR k + 1) _ _ _ (Rabs r)); [apply apx_near; [exact He|lia|exact N]|split; [assert (P := pos_INR k); lra|exact HK]|exact Hs]. Qed.
  Lemma apxz K s : 0 <= K -> 0 <= s -> apx e K (dofZ 0) 0 s.
  Proof. intros HK Hs. apply (apx_weaken e He 0 _ _ _ s); [now apply apx_0|lra|lra]. Qed.
  Lemma apx1 K : 0 <= K -> apx e K (dofZ 1) 1 1.
  Proof. intro HK. assert (Q := apx_exact e (dofZ 1) eq_refl). rewrite (real_lit 1 eq_refl), Rabs_R1 in Q. now apply (apx_weaken e He 0 _ _ _ 1); [|lra|lra]. Qed.
  Lemma apx_lit1 K : 0 <= K -> apx e K (dofZ 1) 1 (Rabs 1).
  Proof. intro. rewrite Rabs_R1. now apply apx1. Qed.
  Lemma apx_sub K d d' r r' s s' : 0 <= K <= 400 -> apx e K d r s -> apx e K d' r' s' -> s + s' <= pow2 1000 -> apx e (K + 2) (dsub d d') (r - r') (s + s').
  Proof.
    intros HK A A' Hs. assert (Q := apx_add e He K _ _ _ _ _ _ HK A (apx_opp e K _ _ _ A') Hs).
    assert (E : real_of (dopp d') = - real_of d') by (unfold real_of, dopp; apply B2R_Bopp).
    assert (Fo : finite (dopp d')) by (unfold finite, dopp; rewrite is_finite_Bopp; exact (proj1 A')).
    assert (NO : no_overflow (real_of d + real_of (dopp d'))).
    { apply fits. eapply Rle_trans; [apply Rabs_triang|]. assert (B1 := apx_bound e He _ _ _ _ HK A). assert (B2 := apx_bound e He _ _ _ _ HK A').
      rewrite E, Rabs_Ropp. assert (P := pow2_pos 1000). apply Rle_trans with (pow2 1001); [|apply pow2_le; lia]. change 1001%Z with (1 + 1000)%Z. rewrite pow2_add. change (pow2 1) with 2. lra. }
    destruct (dadd_round d (dopp d') (proj1 A) Fo NO) as [F1 E1]. destruct (dsub_round d d' (proj1 A) (proj1 A')) as [F2 E2].
    { rewrite E in NO. exact NO. }
    destruct Q as (_ & Q1 & Q2). split; [exact F2|]. split; [exact Q1|]. rewrite E2. rewrite E1, E in Q2. exact Q2.
  Qed.
  Lemma apx_scale K c d r s : 0 <= K -> 0 < c -> Rabs r <= s -> apx e K d r (c * s) -> apx e (c * K) d r s.
  Proof. intros HK Hc B (F & _ & C). split; [exact F|]. split; [exact B|]. eapply Rle_trans; [exact C|]. right. ring. Qed.
  Lemma near_inv1 k d r : (k <= 400)%nat -> near e k d r -> r <> 0 -> regular (/ r) -> near e (S k) (ddiv (dofZ 1) d) (/ r).
  Proof.
    intros Hk N Nr Rg. apply (near_eq e _ _ (1 / r)); [unfold Rdiv; ring|]. apply (near_div e He 0 k); [lia|now apply near_lit_small|exact N|exact Nr|].
    unfold Rdiv. now rewrite Rmult_1_l.
  Qed.
  Lemma near_minus1 (d : double) : finite d -> plain (real_of d) -> near e 1 (dsub d (dofZ 1)) (real_of d - 1).
  Proof.
    intros F P. assert (V : real_of (dofZ 1) = 1) by exact (real_lit 1 eq_refl).
    destruct (dsub_round d (dofZ 1) F eq_refl) as [F2 E2].
    { rewrite V. apply fits. assert (T := Rabs_triang (real_of d) (- (1))). rewrite Rabs_Ropp, Rabs_R1 in T. fold (real_of d - 1) in T.
      assert (Q : Rabs (real_of d) <= pow2 250) by (destruct P as [->|P]; [rewrite Rabs_R0; left; apply pow2_pos|apply P]).
      assert (Q1 : 1 <= pow2 250) by (change 1 with (pow2 0); apply pow2_le; lia).
      apply Rle_trans with (pow2 251); [|apply pow2_le; lia]. change 251%Z with (1 + 250)%Z. rewrite pow2_add. change (pow2 1) with 2. lra. }
    apply near_close; [exact He|]. split; [exact F2|]. rewrite E2, V. destruct (nearest_sum d (dopp (dofZ 1))) as (dl & D & N).
    replace (real_of (dopp (dofZ 1))) with (-1) in N by (unfold real_of, dopp; rewrite B2R_Bopp; change (-1 = - real_of (dofZ 1)); rewrite V; lra).
    change (real_of d + -1) with (real_of d - 1) in N. rewrite N. replace ((real_of d - 1) * (1 + dl) - (real_of d - 1)) with (dl * (real_of d - 1)) by ring.
    rewrite Rabs_mult. apply Rmult_le_compat_r; [apply Rabs_pos|]. lra.
  Qed.
  Lemma close_k0 d r : close e d r -> close (1 * e) d r. Proof. now rewrite Rmult_1_l. Qed.
End Help.
Lemma d2_twice dom f fx fy fxx fyy fxy a b : derivs2d dom f fx fy fxx fyy fxy -> dom a b ->
  twice_differentiable f a b (fx a b) (fy a b) (fxx a b) (fyy a b) (fxy a b).
Proof.
  intros (L & D1 & D2 & D3) H. exists fx, fy. split; [|split; [reflexivity|split; [reflexivity|split; [now apply D2|now apply D3]]]].
  destruct (L a b H) as [dl Hl]. exists dl. intros u v Hu Hv. apply D1. now apply Hl.
Qed.
Ltac exd T := do 5 eexists; split; [exact T|]; cbn beta; intros Pdx Pdy Psx Psy Pxy.
Ltac five := split; [|split; [|split; [|split]]].
Ltac inr := simpl; lra.
Lemma plain_reg r : plain r -> regular r. Proof. intro P. apply (sr_regular (-250) 250); [lia|lia|now apply plain_sr]. Qed.
Lemma plain_opp r : plain (- r) -> plain r. Proof. intros [H|H]; [left; lra|right; now rewrite Rabs_Ropp in H]. Qed.
Lemma plain_abs r : plain (Rabs r) -> plain r.
Proof. intros [H|H]; [left; now apply Rabs_eq_0|right; now rewrite Rabs_Rabsolu in H]. Qed.

Lemma E_add : accurate2_2nd (fun _ => u2_add) (fun _ _ _ => True) Rplus (fun _ _ => 0) (fun _ _ => 0) (fun _ _ => 0) 1 6 19.
Proof.
  startB 1 0 0 (fun (_ : cmath DN) x y => dadd x y) (fun (_ : cmath DN) (_ _ : double) => dofZ 1) (fun (_ : cmath DN) (_ _ : double) => dofZ 1)
    (fun (_ : cmath DN) (_ _ : double) => dofZ 0) (fun (_ : cmath DN) (_ _ : double) => dofZ 0) (fun (_ : cmath DN) (_ _ : double) => dofZ 0). split.
  - destruct (dadd_round X Y FX FY (fits _ (regular_1023 _ Rg))) as [F E]. apply close_sum; try assumption. rewrite E. destruct (nearest_sum X Y) as (dl & D & N). now exists dl.
  - exd (td_add a b). five; first [apply apx_lit1; [exact He|lra]|apply apxz; [exact He|lra|lra]].
Qed.
Lemma E_sub : accurate2_2nd (fun _ => u2_sub) (fun _ _ _ => True) Rminus (fun _ _ => 0) (fun _ _ => 0) (fun _ _ => 0) 1 7 20.
Proof.
  startB 1 1 1 (fun (_ : cmath DN) x y => dsub x y) (fun (_ : cmath DN) (_ _ : double) => dofZ 1) (fun (_ : cmath DN) (_ _ : double) => dofZ (-1))
    (fun (_ : cmath DN) (_ _ : double) => dofZ 0) (fun (_ : cmath DN) (_ _ : double) => dofZ 0) (fun (_ : cmath DN) (_ _ : double) => dofZ 0). split.
  - destruct (dsub_round X Y FX FY (fits _ (regular_1023 _ Rg))) as [F E]. apply close_sum; try assumption. rewrite E.
    destruct (nearest_sum X (dopp Y)) as (dl & D & N). exists dl. split; [exact D|].
    replace (real_of (dopp Y)) with (- real_of Y) in N by (unfold real_of, dopp; now rewrite B2R_Bopp). exact N.
  - exd (td_sub a b). five; first [apply apx_lit1; [exact He|lra]|apply apxz; [exact He|lra|lra]|idtac].
    apply (apxn e He 0); [lia|inr|now apply near_lit_small|lra].
Qed.
Lemma E_mul : accurate2_2nd (fun _ => u2_mul) (fun _ _ _ => True) Rmult (fun _ _ => 0) (fun _ _ => 0) (fun _ _ => 1) 2 6 19.
Proof.
  startB 2 0 0 (fun (_ : cmath DN) x y => dmul x y) (fun (_ : cmath DN) (x y : double) => y) (fun (_ : cmath DN) (x y : double) => x)
    (fun (_ : cmath DN) (_ _ : double) => dofZ 0) (fun (_ : cmath DN) (_ _ : double) => dofZ 0) (fun (_ : cmath DN) (_ _ : double) => dofZ 1). split.
  - nearK 1%nat. apply (near_mul e He 0 0); try apply near_exact; try assumption; lia.
  - exd (td_mul a b). five; first [apply apx1; [exact He|lra]|apply apxz; [exact He|lra|lra]|now apply apx_exact].
Qed.
Lemma E_div : accurate2_2nd (fun _ => u2_div) (fun _ a b => b <> 0 /\ plain a /\ plain b) Rdiv
  (fun _ _ => 0) (fun a b => Rabs (2 * a / b ^ 3)) (fun a b => / b ^ 2) 2 11 27.
Proof.
  startB 2 5 8 (fun (_ : cmath DN) x y => ddiv x y) (fun (_ : cmath DN) (x y : double) => ddiv (dofZ 1) y)
    (fun (_ : cmath DN) (x y : double) => dmul (dopp x) (dmul (ddiv (dofZ 1) y) (ddiv (dofZ 1) y)))
    (fun (_ : cmath DN) (_ _ : double) => dofZ 0)
    (fun (_ : cmath DN) (x y : double) => dmul (dmul (dmul (dofZ 2) x) (dmul (ddiv (dofZ 1) y) (ddiv (dofZ 1) y))) (ddiv (dofZ 1) y))
    (fun (_ : cmath DN) (x y : double) => dopp (dmul (ddiv (dofZ 1) y) (ddiv (dofZ 1) y))).
  destruct Da as (Nb & Pa & Pb). assert (Sa := plain_sr _ Pa). assert (Sb := plain_sr _ Pb). split.
  - nearK 1%nat. apply (near_div e He 0 0); [lia|now apply near_exact..|exact Nb|exact Rg].
  - assert (I1 : near e 1 (ddiv (dofZ 1) Y) (/ b)) by (apply (near_inv1 e He 0); [lia|now apply near_exact|exact Nb|reg]).
    assert (I2 : near e 3 (dmul (ddiv (dofZ 1) Y) (ddiv (dofZ 1) Y)) (/ b * / b)) by (apply (near_mul e He 1 1); [lia|exact I1|exact I1|reg]).
    assert (Eq2 : / b * / b = / b ^ 2) by (field; exact Nb). assert (P2 : 0 < / b ^ 2) by (apply Rinv_0_lt_compat; assert (0 < b * b) by nra; simpl; lra).
    exd (td_div a b Nb). five.
    + apply (apxn e He 1); [lia|inr|exact I1|lra].
    + replace (- a / b ^ 2) with (- a * (/ b * / b)) by (field; exact Nb). apply (apxn e He 4); [lia|inr| |lra].
      apply (near_mul e He 0 3); [lia|apply near_opp; now apply near_exact|exact I2|reg].
    + apply apxz; [exact He|lra|lra].
    + apply plain_abs in Psy. assert (Eq3 : 2 * a / b ^ 3 = 2 * a * (/ b * / b) * / b) by (field; exact Nb). rewrite Eq3 in *.
      apply (apxn e He 7); [lia|inr| |lra].
      apply (near_mul e He 5 1); [lia| |exact I1|now apply plain_reg]. apply (near_mul e He 1 3); [lia| |exact I2|reg].
      apply (near_mul e He 0 0); [lia|now apply near_lit_small|now apply near_exact|reg].
    + rewrite <- Eq2 in P2 |- *. apply (apx_eq e _ _ (- (/ b * / b)) (/ b * / b)); [reflexivity|reflexivity|].
      apply (apxn e He 3); [lia|inr|now apply near_opp|]. rewrite Rabs_Ropp, Rabs_pos_eq by lra. lra.
Qed.
Lemma E_pow : accurate2_2nd g2_pow (fun _ a b => 0 < a /\ plain a /\ plain b /\ plain (ln a) /\ plain (Rpower a b)) Rpower
  (fun a b => Rabs (Rpower a b * / a * b * / a * (b - 1))) (fun a b => Rabs (Rpower a b * ln a * ln a)) (fun a b => Rabs (Rpower a b * / a) + Rabs (Rpower a b * / a * b * ln a)) 1 11 28.
Proof.
  startB 1 5 9 (fun (M : cmath DN) x y => c_pow M x y) (fun (M : cmath DN) (x y : double) => dmul (dmul (c_pow M x y) (ddiv (dofZ 1) x)) y)
    (fun (M : cmath DN) (x y : double) => dmul (c_pow M x y) (c_log M x))
    (fun (M : cmath DN) (x y : double) => dmul (dmul (dmul (dmul (c_pow M x y) (ddiv (dofZ 1) x)) y) (ddiv (dofZ 1) x)) (dsub y (dofZ 1)))
    (fun (M : cmath DN) (x y : double) => dmul (dmul (c_pow M x y) (c_log M x)) (c_log M x))
    (fun (M : cmath DN) (x y : double) => dadd (dmul (c_pow M x y) (ddiv (dofZ 1) x)) (dmul (dmul (dmul (c_pow M x y) (ddiv (dofZ 1) x)) y) (c_log M x))).
  destruct Da as (Ha & Pa & Pb & Pl & Pp). assert (Sa := plain_sr _ Pa). assert (Sb := plain_sr _ Pb). assert (Sl := plain_sr _ Pl). assert (Sp := plain_sr _ Pp).
  assert (Na : a <> 0) by lra. assert (C : close e (c_pow M X Y) (Rpower a b)) by (apply (acc_pow M e A); assumption).
  split; [now apply close_k0|]. exd (d2_twice _ _ _ _ _ _ _ a b D2_pow Ha).
  assert (N1 := near_close e He _ _ C). assert (NL : near e 1 (c_log M X) (ln a)) by (apply near_close; [exact He|]; apply (acc_log M e A); [exact FX|exact Ha|now apply plain_reg]).
  assert (I1 : near e 1 (ddiv (dofZ 1) X) (/ a)) by (apply (near_inv1 e He 0); [lia|now apply near_exact|exact Na|reg]).
  assert (N3 : near e 3 (dmul (c_pow M X Y) (ddiv (dofZ 1) X)) (Rpower a b * / a)) by (apply (near_mul e He 1 1); [lia|exact N1|exact I1|reg]).
  assert (N4 : near e 4 (dmul (dmul (c_pow M X Y) (ddiv (dofZ 1) X)) Y) (Rpower a b * / a * b)) by (apply (near_mul e He 3 0); [lia|exact N3|now apply near_exact|now apply plain_reg]).
  assert (N5 : near e 3 (dmul (c_pow M X Y) (c_log M X)) (Rpower a b * ln a)) by (apply (near_mul e He 1 1); [lia|exact N1|exact NL|now apply plain_reg]).
  assert (Sdx := plain_sr _ Pdx). apply plain_abs in Psx, Psy. five.
  - apply (apxn e He 4); [lia|inr|exact N4|lra].
  - apply (apxn e He 3); [lia|inr|exact N5|lra].
  - apply (apxn e He 8); [lia|inr| |lra]. apply (near_mul e He 6 1); [lia| |now apply near_minus1|now apply plain_reg].
    apply (near_mul e He 4 1); [lia|exact N4|exact I1|]. eapply sr_regular; cycle 2; [apply sr_mul; [exact Sdx|apply sr_inv; [exact Na|exact Sa]]|lia|lia].
  - apply (apxn e He 5); [lia|inr| |lra]. apply (near_mul e He 3 1); [lia|exact N5|exact NL|now apply plain_reg].
  - apply (apx_weaken e He (7 + 2) _ _ _ (Rabs (Rpower a b * / a) + Rabs (Rpower a b * / a * b * ln a))); [|lra|lra].
    apply (apx_add e He); [lra|apply (apxn e He 3); [lia|inr|exact N3|lra]| |].
    + apply (apxn e He 6); [lia|inr| |lra]. apply (near_mul e He 4 1); [lia|exact N4|exact NL|].
      eapply sr_regular; cycle 2; [apply sr_mul; [exact Sdx|exact Sl]|lia|lia].
    + assert (T : forall t, plain t -> t <= pow2 1000).
      { intros t [->|[_ H]]; [left; apply pow2_pos|]. eapply Rle_trans; [apply Rle_abs|]. eapply Rle_trans; [exact H|apply pow2_le; lia]. }
      now apply T.
Qed.
Lemma sr_max lo hi t u : sr lo hi t -> sr lo hi u -> sr lo hi (Rmax (Rabs t) (Rabs u)).
Proof. intros A B. apply Rmax_case; now apply sr_abs. Qed.
Lemma hypot_range a b : a <> 0 \/ b <> 0 -> plain a -> plain b -> 0 < sqrt (a * a + b * b) /\ sr (-250) 251 (sqrt (a * a + b * b)) /\
  Rabs a <= sqrt (a * a + b * b) /\ Rabs b <= sqrt (a * a + b * b).
Proof.
  intros N Pa Pb. set (h := sqrt (a * a + b * b)). assert (S0 : 0 < a * a + b * b) by (destruct N; nra). assert (Hp : 0 < h) by now apply sqrt_lt_R0.
  assert (Ha : Rabs a <= h) by (rewrite <- sqrt_Rsqr_abs; apply sqrt_le_1_alt; unfold Rsqr; nra).
  assert (Hb : Rabs b <= h) by (rewrite <- sqrt_Rsqr_abs; apply sqrt_le_1_alt; unfold Rsqr; nra).
  split; [exact Hp|]. split; [|split; [exact Ha|exact Hb]]. right. rewrite (Rabs_pos_eq h) by lra. split.
  - destruct N as [N|N]; [destruct Pa as [?|P]; [contradiction|]|destruct Pb as [?|P]; [contradiction|]]; lra.
  - assert (T : h <= Rabs a + Rabs b).
    { unfold h. assert (P1 := Rabs_pos a). assert (P2 := Rabs_pos b). rewrite <- (sqrt_Rsqr (Rabs a + Rabs b)) by lra. apply sqrt_le_1_alt. unfold Rsqr.
      assert (Q1 : Rabs a * Rabs a = a * a) by (rewrite <- Rabs_mult; apply Rabs_pos_eq; nra). assert (Q2 : Rabs b * Rabs b = b * b) by (rewrite <- Rabs_mult; apply Rabs_pos_eq; nra). nra. }
    assert (U : forall t, plain t -> Rabs t <= pow2 250) by (intros t [->|P]; [rewrite Rabs_R0; left; apply pow2_pos|apply P]).
    assert (U1 := U a Pa). assert (U2 := U b Pb). change 251%Z with (1 + 250)%Z. rewrite pow2_add. change (pow2 1) with 2. lra.
Qed.
Lemma unit_quot t h : 0 < h -> Rabs t <= h -> 0 <= t * / h * (t * / h) <= 1.
Proof.
  intros Hh Ht. split; [nra|]. assert (Q : Rabs (t * / h) <= 1).
  { rewrite Rabs_mult, (Rabs_pos_eq (/ h)) by (left; now apply Rinv_0_lt_compat). apply (Rmult_le_reg_r h); [exact Hh|]. rewrite Rmult_assoc, Rinv_l by lra. lra. }
  assert (P := Rabs_pos (t * / h)). replace (t * / h * (t * / h)) with (Rabs (t * / h) * Rabs (t * / h)) by (rewrite <- Rabs_mult; apply Rabs_pos_eq; nra). nra.
Qed.
Lemma E_hypot : accurate2_2nd g2_hypot (fun _ a b => (a <> 0 \/ b <> 0) /\ plain a /\ plain b) (fun a b => sqrt (a * a + b * b))
  (fun a b => / sqrt (a * a + b * b)) (fun a b => / sqrt (a * a + b * b)) (fun a b => / sqrt (a * a + b * b)) 1 10 53.
Proof.
  startB 1 4 34 (fun (M : cmath DN) x y => c_hypot M x y) (fun (M : cmath DN) (x y : double) => dmul x (ddiv (dofZ 1) (c_hypot M x y)))
    (fun (M : cmath DN) (x y : double) => dmul y (ddiv (dofZ 1) (c_hypot M x y)))
    (fun (M : cmath DN) (x y : double) => let ih := ddiv (dofZ 1) (c_hypot M x y) in dmul ih (dsub (dofZ 1) (dmul (dmul x ih) (dmul x ih))))
    (fun (M : cmath DN) (x y : double) => let ih := ddiv (dofZ 1) (c_hypot M x y) in dmul ih (dsub (dofZ 1) (dmul (dmul y ih) (dmul y ih))))
    (fun (M : cmath DN) (x y : double) => let ih := ddiv (dofZ 1) (c_hypot M x y) in dmul (dmul (dopp (dmul x ih)) (dmul y ih)) ih).
  destruct Da as (N0 & Pa & Pb). assert (Sa := plain_sr _ Pa). assert (Sb := plain_sr _ Pb).
  assert (C := acc_hypot M e A X Y FX FY I Rg). cbv beta in C. split; [now apply close_k0|]. exd (d2_twice _ _ _ _ _ _ _ a b D2_hypot N0). cbv zeta.
  unfold R_hypot in *. fold a b in C. destruct (hypot_range a b N0 Pa Pb) as (Hp & Sh & La & Lb). set (h := sqrt (a * a + b * b)) in *.
  assert (Nh : h <> 0) by lra. assert (Ip := Rinv_0_lt_compat h Hp). assert (N1 := near_close e He _ _ C). set (dh := c_hypot M X Y) in *.
  assert (I2 : near e 2 (ddiv (dofZ 1) dh) (/ h)) by (apply (near_inv1 e He 1); [lia|exact N1|exact Nh|reg]). set (ih := ddiv (dofZ 1) dh) in *.
  assert (Nx : near e 3 (dmul X ih) (a * / h)) by (apply (near_mul e He 0 2); [lia|now apply near_exact|exact I2|reg]).
  assert (Ny : near e 3 (dmul Y ih) (b * / h)) by (apply (near_mul e He 0 2); [lia|now apply near_exact|exact I2|reg]).
  assert (Hs : szr (/ h * (1 + 1))).
  { apply (szr_sr (-251 + 0) (250 + 4)); [apply Rmult_le_pos; lra|lia|lia|]. apply sr_mul; [exact (sr_inv _ _ _ Nh Sh)|]. replace (1 + 1) with 2 by ring. apply sr_lit. lia. }
  assert (SQ : forall (d : double) t, near e 3 d (t * / h) -> sr (-250) 250 t -> Rabs t <= h ->
    apx e 34 (dmul ih (dsub (dofZ 1) (dmul d d))) (/ h * (1 - t * / h * (t * / h))) (/ h)).
  { intros d t Nd St Lt. assert (Q := unit_quot t h Hp Lt).
    replace 34 with (2 * 17) by lra. apply apx_scale; [lra|lra| |].
    { rewrite Rabs_mult, Rabs_pos_eq, Rabs_pos_eq by lra. apply Rle_trans with (/ h * 1); [apply Rmult_le_compat_l; lra|lra]. }
    apply (apx_eq e _ _ (/ h * (1 - t * / h * (t * / h))) (/ h * (1 + 1))); [reflexivity|ring|].
    apply (apx_weaken e He (3 + 10 + 4) _ _ _ (/ h * (1 + 1))); [|lra|lra].
    apply (apx_mul e He); [lra|lra| | |exact Hs].
    - apply (apxn e He 2); [lia|inr|exact I2|rewrite Rabs_pos_eq; lra].
    - replace 10 with (8 + 2) by lra. apply (apx_sub e He); [lra|apply apx1; [exact He|lra]| |].
      + apply (apxn e He 7); [lia|inr| |rewrite Rabs_pos_eq; lra]. apply (near_mul e He 3 3); [lia|exact Nd|exact Nd|reg].
      + replace (1 + 1) with (pow2 1) by (simpl; lra). apply pow2_le. lia. }
  five.
  - apply (apxn e He 3); [lia|inr|exact Nx|lra].
  - apply (apxn e He 3); [lia|inr|exact Ny|lra].
  - now apply SQ.
  - now apply SQ.
  - assert (Qa := unit_quot a h Hp La). assert (Qb := unit_quot b h Hp Lb).
    assert (B1 : Rabs (- (a * / h) * (b * / h)) <= 1) by (apply Rabs_le; split; nra).
    assert (NXY : near e 7 (dmul (dopp (dmul X ih)) (dmul Y ih)) (- (a * / h) * (b * / h))) by (apply (near_mul e He 3 3); [lia|now apply near_opp|exact Ny|reg]).
    apply (apx_weaken e He (8 + 3 + 4) _ _ _ (1 * / h)); [|lra|lra]. apply (apx_mul e He); [lra|lra| | |].
    + apply (apxn e He 7); [lia|inr|exact NXY|exact B1].
    + apply (apxn e He 2); [lia|inr|exact I2|rewrite Rabs_pos_eq; lra].
    + rewrite Rmult_1_l. apply (szr_sr (-251) 250); [lra|lia|lia|exact (sr_inv _ _ _ Nh Sh)].
Qed.
Lemma E_atan2 : accurate2_2nd g2_atan2 (fun _ a b => (a <> 0 \/ 0 < b) /\ plain a /\ plain b) R_atan2
  (fun a b => Rabs (2 * (a * / (a * a + b * b)) * (b * / (a * a + b * b)))) (fun a b => Rabs (2 * (a * / (a * a + b * b)) * (b * / (a * a + b * b)))) (fun a b => / (a * a + b * b)) 1 11 39.
Proof.
  startB 1 5 20 (fun (M : cmath DN) x y => c_atan2 M x y)
    (fun (M : cmath DN) (x y : double) => let i := ddiv (dofZ 1) (dadd (dmul x x) (dmul y y)) in dmul y i)
    (fun (M : cmath DN) (x y : double) => let i := ddiv (dofZ 1) (dadd (dmul x x) (dmul y y)) in dopp (dmul x i))
    (fun (M : cmath DN) (x y : double) => let i := ddiv (dofZ 1) (dadd (dmul x x) (dmul y y)) in dopp (dmul (dmul (dofZ 2) (dmul x i)) (dmul y i)))
    (fun (M : cmath DN) (x y : double) => let i := ddiv (dofZ 1) (dadd (dmul x x) (dmul y y)) in dmul (dmul (dofZ 2) (dmul x i)) (dmul y i))
    (fun (M : cmath DN) (x y : double) => let i := ddiv (dofZ 1) (dadd (dmul x x) (dmul y y)) in dmul (dmul (dsub (dmul x x) (dmul y y)) i) i).
  destruct Da as (N0 & Pa & Pb). assert (Sa := plain_sr _ Pa). assert (Sb := plain_sr _ Pb).
  assert (C := acc_atan2 M e A X Y FX FY N0 Rg). split; [now apply close_k0|]. exd (d2_twice _ _ _ _ _ _ _ a b D2_atan2 N0). cbv zeta.
  assert (N0' : a <> 0 \/ b <> 0) by (destruct N0; [now left|right; lra]). destruct (hypot_range a b N0' Pa Pb) as (Hp & Sh & _ & _).
  assert (S0 : 0 < a * a + b * b) by (destruct N0'; nra). assert (E2 : sqrt (a * a + b * b) * sqrt (a * a + b * b) = a * a + b * b) by (apply sqrt_sqrt; lra).
  assert (Sq : sr (-250 + -250) (251 + 251) (a * a + b * b)) by (rewrite <- E2; now apply sr_mul). clear E2 Hp Sh. set (q := a * a + b * b) in *.
  assert (Nq : q <> 0) by lra. assert (Ip := Rinv_0_lt_compat q S0).
  assert (Nx2 : near e 1 (dmul X X) (a * a)) by (apply near_sq; [exact He|exact FX|fold a; reg]). assert (Ny2 : near e 1 (dmul Y Y) (b * b)) by (apply near_sq; [exact He|exact FY|fold b; reg]).
  assert (Tq : q <= pow2 502).
  { destruct Sq as [->|[_ Sq]]; [left; apply pow2_pos|]. rewrite Rabs_pos_eq in Sq by lra. exact Sq. }
  assert (Nq2 : near e 2 (dadd (dmul X X) (dmul Y Y)) q).
  { apply (near_add e He 1); [lia|exact Nx2|exact Ny2|nra|nra|]. fold q. eapply Rle_trans; [exact Tq|apply pow2_le; lia]. }
  assert (Ni : near e 3 (ddiv (dofZ 1) (dadd (dmul X X) (dmul Y Y))) (/ q)) by (apply (near_inv1 e He 2); [lia|exact Nq2|exact Nq|reg]).
  set (i := ddiv (dofZ 1) (dadd (dmul X X) (dmul Y Y))) in *.
  assert (Nx : near e 4 (dmul X i) (a * / q)) by (apply (near_mul e He 0 3); [lia|now apply near_exact|exact Ni|reg]).
  assert (Ny : near e 4 (dmul Y i) (b * / q)) by (apply (near_mul e He 0 3); [lia|now apply near_exact|exact Ni|reg]).
  assert (Pqx := plain_opp _ Pdy). assert (Sqx := plain_sr _ Pqx). apply plain_abs in Psx.
  assert (N2x : near e 5 (dmul (dofZ 2) (dmul X i)) (2 * (a * / q))) by (apply (near_mul e He 0 4); [lia|now apply near_lit_small|exact Nx|]; eapply sr_regular; cycle 2; [apply sr_mul; [apply sr_lit|exact Sqx]|..]; lia).
  assert (Nxy : near e 10 (dmul (dmul (dofZ 2) (dmul X i)) (dmul Y i)) (2 * (a * / q) * (b * / q))) by (apply (near_mul e He 5 4); [lia|exact N2x|exact Ny|now apply plain_reg]).
  five.
  - apply (apxn e He 4); [lia|inr|exact Ny|lra].
  - apply (apxn e He 4); [lia|inr|now apply near_opp|lra].
  - apply (apxn e He 10); [lia|inr|now apply near_opp|rewrite Rabs_Ropp; lra].
  - apply (apxn e He 10); [lia|inr|exact Nxy|lra].
  - assert (Ai : apx e 4 i (/ q) (/ q)) by (apply (apxn e He 3); [lia|inr|exact Ni|rewrite Rabs_pos_eq; lra]).
    apply (apx_eq e _ _ ((a * a - b * b) * / q * / q) (q * / q * / q)); [reflexivity|field; exact Nq|].
    apply (apx_weaken e He (4 + 4 + 4 + 4 + 4) _ _ _ (q * / q * / q)); [|lra|lra].
    apply (apx_mul e He); [lra|lra| |exact Ai|].
    + apply (apx_mul e He); [lra|lra| |exact Ai|].
      * replace 4 with (2 + 2) by lra. unfold q at 1. apply (apx_sub e He); [lra|apply (apxn e He 1); [lia|inr|exact Nx2|rewrite Rabs_pos_eq; nra]|apply (apxn e He 1); [lia|inr|exact Ny2|rewrite Rabs_pos_eq; nra]|].
        fold q. eapply Rle_trans; [exact Tq|apply pow2_le; lia].
      * rewrite Rinv_r by exact Nq. right. split; [|]; change 1 with (pow2 0); apply pow2_le; lia.
    + rewrite Rinv_r, Rmult_1_l by exact Nq. refine (szr_sr _ _ _ _ _ _ (sr_inv _ _ _ Nq Sq)); [lra|lia|lia].
Qed.
Lemma E_fmax : accurate2_2nd g2_fmax (fun _ a b => a <> b) Rmax (fun _ _ => 0) (fun _ _ => 0) (fun _ _ => 0) 0 6 19.
Proof.
  startB 0 0 0 (fun (M : cmath DN) x y => c_fmax M x y) (fun (M : cmath DN) (x y : double) => if Beqb (c_fmax M x y) x then dofZ 1 else dofZ 0)
    (fun (M : cmath DN) (x y : double) => if Beqb (c_fmax M x y) x then dofZ 0 else dofZ 1)
    (fun (_ : cmath DN) (_ _ : double) => dofZ 0) (fun (_ : cmath DN) (_ _ : double) => dofZ 0) (fun (_ : cmath DN) (_ _ : double) => dofZ 0).
  destruct (acc_fmax M e A X Y FX FY) as [F E]. split; [apply exact_close; [lra|exact F|exact E]|].
  exd (d2_twice _ _ _ _ _ _ _ a b D2_fmax Da).
  assert (Q := Beqb_real _ _ F FX). rewrite E in Q. fold a b in Q. destruct (Beqb (c_fmax M X Y) X) eqn:B.
  - assert (T := proj1 Q eq_refl). assert (T1 := Rmax_r a b). destruct (Rltb_spec a b) as [L|L]; [lra|].
    five; first [apply apx_lit1; [exact He|lra]|apply apxz; [exact He|lra|rewrite ?Rabs_R0; lra]].
  - destruct (Rltb_spec a b) as [L|L]; [five; first [apply apx_lit1; [exact He|lra]|apply apxz; [exact He|lra|rewrite ?Rabs_R0; lra]]|]. exfalso.
    assert (T : Rmax a b = a) by (apply Rmax_left; lra). apply Q in T. discriminate T.
Qed.
Lemma E_fmin : accurate2_2nd g2_fmin (fun _ a b => a <> b) Rmin (fun _ _ => 0) (fun _ _ => 0) (fun _ _ => 0) 0 6 19.
Proof.
  startB 0 0 0 (fun (M : cmath DN) x y => c_fmin M x y) (fun (M : cmath DN) (x y : double) => if Beqb (c_fmin M x y) x then dofZ 1 else dofZ 0)
    (fun (M : cmath DN) (x y : double) => if Beqb (c_fmin M x y) x then dofZ 0 else dofZ 1)
    (fun (_ : cmath DN) (_ _ : double) => dofZ 0) (fun (_ : cmath DN) (_ _ : double) => dofZ 0) (fun (_ : cmath DN) (_ _ : double) => dofZ 0).
  destruct (acc_fmin M e A X Y FX FY) as [F E]. split; [apply exact_close; [lra|exact F|exact E]|].
  exd (d2_twice _ _ _ _ _ _ _ a b D2_fmin Da).
  assert (Q := Beqb_real _ _ F FX). rewrite E in Q. fold a b in Q. destruct (Beqb (c_fmin M X Y) X) eqn:B.
  - assert (T := proj1 Q eq_refl). assert (T1 := Rmin_r a b). destruct (Rltb_spec a b) as [L|L]; [|exfalso; lra].
    five; first [apply apx_lit1; [exact He|lra]|apply apxz; [exact He|lra|rewrite ?Rabs_R0; lra]].
  - destruct (Rltb_spec a b) as [L|L]; [|five; first [apply apx_lit1; [exact He|lra]|apply apxz; [exact He|lra|rewrite ?Rabs_R0; lra]]]. exfalso.
    assert (T : Rmin a b = a) by (apply Rmin_left; lra). apply Q in T. discriminate T.
Qed.
Lemma E_fmod : accurate2_2nd g2_fmod (fun _ a b => b <> 0 /\ (forall n, n <> 0%Z -> a / b <> IZR n) /\ regular (a / b) /\ Ztrunc (nearest (a / b)) = Ztrunc (a / b)) R_fmod
  (fun _ _ => 0) (fun _ _ => 0) (fun _ _ => 0) 1 8 21.
Proof.
  startB 1 2 2 (fun (M : cmath DN) x y => c_fmod M x y) (fun (M : cmath DN) (x y : double) => dofZ 1) (fun (M : cmath DN) (x y : double) => dopp (c_trunc M (ddiv x y)))
    (fun (_ : cmath DN) (_ _ : double) => dofZ 0) (fun (_ : cmath DN) (_ _ : double) => dofZ 0) (fun (_ : cmath DN) (_ _ : double) => dofZ 0).
  destruct Da as (Nb & NJ & R1 & T). split; [apply close_k0; now apply A|]. exd (d2_twice _ _ _ _ _ _ _ a b D2_fmod (conj Nb NJ)).
  five; try (apply apxz; [exact He|lra|lra]); [apply apx_lit1; [exact He|lra]|].
  apply (apxn e He 1); [lia|inr| |lra]. apply near_opp. apply near_close; [exact He|].
  destruct (ddiv_round X Y FX Nb (fits _ (regular_1023 _ R1))) as [F E].
  assert (C := acc_trunc M e A (ddiv X Y) F I). rewrite E in C. fold a b in C. rewrite T in C. apply C. apply integer_regular. eapply Rle_trans; [apply trunc_abs|]. now apply regular_1022.
Qed.
Lemma E_remainder : accurate2_2nd g2_remainder (fun _ a b => b <> 0 /\ (forall n, a / b <> IZR n + / 2) /\ regular (a / b) /\ ZnearestA (nearest (a / b)) = ZnearestA (a / b)) R_remainder
  (fun _ _ => 0) (fun _ _ => 0) (fun _ _ => 0) 1 8 21.
Proof.
  startB 1 2 2 (fun (M : cmath DN) x y => c_remainder M x y) (fun (M : cmath DN) (x y : double) => dofZ 1) (fun (M : cmath DN) (x y : double) => dopp (c_round M (ddiv x y)))
    (fun (_ : cmath DN) (_ _ : double) => dofZ 0) (fun (_ : cmath DN) (_ _ : double) => dofZ 0) (fun (_ : cmath DN) (_ _ : double) => dofZ 0).
  destruct Da as (Nb & NJ & R1 & T). split; [apply close_k0; now apply A|]. exd (d2_twice _ _ _ _ _ _ _ a b D2_remainder (conj Nb NJ)).
  five; try (apply apxz; [exact He|lra|lra]); [apply apx_lit1; [exact He|lra]|].
  apply (apxn e He 1); [lia|inr| |lra]. apply near_opp. apply near_close; [exact He|].
  destruct (ddiv_round X Y FX Nb (fits _ (regular_1023 _ R1))) as [F E].
  assert (C := acc_round M e A (ddiv X Y) F I). rewrite E in C. fold a b in C. rewrite T, (nearestA_E _ NJ) in C. apply C. apply integer_regular. now apply round_abs.
Qed.
