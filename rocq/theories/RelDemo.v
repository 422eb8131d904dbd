(** * RelDemo: a program with a division, a square root and compound assignments (C87) *)

From Coq Require Import List ZArith Bool Reals Lra Lia.
From Flocq Require Import Core BinarySingleNaN.
From Verif Require Import Base Num Map UReal World Sums SpecLin Ieee IeeeFacts SpecIeee IeeeProofs5 SpecMathIeee SpecAcc3 SpecAcc4 SpecRel RelProg RelProg2 IeeeProofs3 IeeeProofs4 IoAcc1 Demo URealProofs2 URealProofs SpecObs.
Import ListNotations.
Local Open Scope R_scope.

(** x = UReal(4, 1); y = UReal(2, 1); z = x / y; t = UReal(2, 1); z *= t; u = sqrt(z); t = -x; u.s(); u -= t; z = u + z *)
Definition rel_demo : list step :=
  [Plain (CNew (N := DN) 0%nat (dofZ 4) (dofZ 1)); Plain (CNew (N := DN) 1%nat (dofZ 2) (dofZ 1)); Plain (CDiv 2%nat 0%nat 1%nat); Plain (CNew (N := DN) 3%nat (dofZ 2) (dofZ 1));
   Plain (CMulA 2%nat 3%nat); Sqrt 4%nat 2%nat; Plain (CNeg 3%nat 0%nat); Plain (CS 4%nat); Plain (CSubA 4%nat 3%nat); Plain (CAdd 2%nat 4%nat 2%nat)].
Lemma small_regular r : r = 0 \/ / 1024 <= r <= 1024 \/ -1024 <= r <= - / 1024 -> regular r.
Proof.
  intro H. destruct H as [-> | H]; [now left|right].
  assert (A : pow2 (-1021) <= / 1024) by (change (/ 1024) with (pow2 (-10)); apply pow2_le; lia).
  assert (B : 1024 <= pow2 1022) by (change 1024 with (pow2 10); apply pow2_le; lia).
  assert (C : / 1024 <= Rabs r <= 1024) by (destruct H; [rewrite Rabs_pos_eq by lra|rewrite Rabs_left by lra]; lra). lra.
Qed.
Lemma small_add a b : 0 <= a * b -> -1024 <= a + b <= 1024 -> add_ok a b.
Proof.
  intros H K. split; [exact H|]. assert (B : 1024 <= pow2 1022) by (change 1024 with (pow2 10); apply pow2_le; lia). apply Rabs_le in K. lra.
Qed.
Lemma lit z : (Z.abs z <= 1024)%Z -> real_of (dofZ z) = IZR z. Proof. intro H. apply (dofZ_exact z). lia. Qed.

(** the exact values, by the coefficients on the three independent variables *)
Definition tri (a b c : R) (i : Z) : R := match i with 1%Z => a | 2%Z => b | 3%Z => c | _ => 0 end.
Definition fit (x : lin) (m a b c : R) : Prop := l_mean x = m /\ forall i, l_coef x i = tri a b c i.
Lemma tri_all (Q : R -> Prop) a b c : Q a -> Q b -> Q c -> Q 0 -> forall i, Q (tri a b c i).
Proof. intros A B C D i. unfold tri. destruct i as [|p|p]; try exact D. destruct p as [p|p|]; try exact A; destruct p; assumption. Qed.
Lemma tri_all2 (Q : R -> R -> Prop) a b c a' b' c' : Q a a' -> Q b b' -> Q c c' -> Q 0 0 -> forall i, Q (tri a b c i) (tri a' b' c' i).
Proof. intros A B C D i. unfold tri. destruct i as [|p|p]; try exact D. destruct p as [p|p|]; try exact A; destruct p; assumption. Qed.
Lemma fit_binary x y m a b c m' a' b' c' M dx dy : fit x m a b c -> fit y m' a' b' c' ->
  fit (lin_binary x y M dx dy) M (dx * a + dy * a') (dx * b + dy * b') (dx * c + dy * c').
Proof.
  intros [_ X] [_ Y]. split; [reflexivity|]. intro i. cbn [lin_binary l_coef]. rewrite X, Y. unfold tri. destruct i as [|p|p]; try ring. destruct p as [p|p|]; try ring; destruct p; ring.
Qed.
Lemma fit_unary x m a b c M d : fit x m a b c -> fit (lin_unary x M d) M (d * a) (d * b) (d * c).
Proof. intros [_ X]. split; [reflexivity|]. intro i. cbn [lin_unary l_coef]. rewrite X. unfold tri. destruct i as [|p|p]; try ring. destruct p as [p|p|]; try ring; destruct p; ring. Qed.
Lemma fit_fresh1 n s : fit (lin_fresh 1 n s) n s 0 0.
Proof. split; [reflexivity|]. intro i. cbn [lin_fresh l_coef]. unfold tri. destruct (Z.eq_dec i 1) as [->|N]; [reflexivity|]. destruct i as [|p|p]; try reflexivity. destruct p as [p|p|]; try contradiction; destruct p; reflexivity. Qed.
Lemma fit_fresh2 n s : fit (lin_fresh 2 n s) n 0 s 0.
Proof. split; [reflexivity|]. intro i. cbn [lin_fresh l_coef]. unfold tri. destruct (Z.eq_dec i 2) as [->|N]; [reflexivity|]. destruct i as [|p|p]; try reflexivity. destruct p as [p|p|]; try reflexivity; destruct p; try contradiction; reflexivity. Qed.
Lemma fit_fresh3 n s : fit (lin_fresh 3 n s) n 0 0 s.
Proof. split; [reflexivity|]. intro i. cbn [lin_fresh l_coef]. unfold tri. destruct (Z.eq_dec i 3) as [->|N]; [reflexivity|]. destruct i as [|p|p]; try reflexivity. destruct p as [p|p|]; try reflexivity; destruct p; try contradiction; reflexivity. Qed.
Lemma fit_eq x m a b c m' a' b' c' : fit x m a b c -> m = m' -> a = a' -> b = b' -> c = c' -> fit x m' a' b' c'.
Proof. intros; subst; assumption. Qed.
Definition L0 := lin_fresh 1 4 1.
Definition L1 := lin_fresh 2 2 1.
Definition L2 := lin_binary L0 L1 (l_mean L0 / l_mean L1) (/ l_mean L1) (- l_mean L0 / (l_mean L1 * l_mean L1)).
Definition L3 := lin_fresh 3 2 1.
Definition L4 := lin_binary L2 L3 (l_mean L2 * l_mean L3) (l_mean L3) (l_mean L2).
Definition L5 := lin_unary L4 (sqrt (l_mean L4)) (/ (2 * sqrt (l_mean L4))).
Definition L6 := lin_unary L0 (- l_mean L0) (-1).
Definition L7 := lin_binary L5 L6 (l_mean L5 - l_mean L6) 1 (-1).
Definition L8 := lin_binary L7 L4 (l_mean L7 + l_mean L4) 1 1.
Lemma F0 : fit L0 4 1 0 0. Proof. apply fit_fresh1. Qed.
Lemma F1 : fit L1 2 0 1 0. Proof. apply fit_fresh2. Qed.
Lemma F2 : fit L2 2 (/ 2) (-1) 0.
Proof. unfold L2. rewrite (proj1 F0), (proj1 F1). eapply fit_eq; [eapply fit_binary; [exact F0|exact F1]|..]; lra. Qed.
Lemma F3 : fit L3 2 0 0 1. Proof. apply fit_fresh3. Qed.
Lemma F4 : fit L4 4 1 (-2) 2.
Proof. unfold L4. rewrite (proj1 F2), (proj1 F3). eapply fit_eq; [eapply fit_binary; [exact F2|exact F3]|..]; lra. Qed.
Lemma sqrt4 : sqrt 4 = 2. Proof. replace 4 with (2 * 2) by ring. apply sqrt_square. lra. Qed.
Lemma F5 : fit L5 2 (/ 4) (- / 2) (/ 2).
Proof. unfold L5. rewrite (proj1 F4), sqrt4. eapply fit_eq; [eapply fit_unary; exact F4|..]; lra. Qed.
Lemma F6 : fit L6 (-4) (-1) 0 0.
Proof. unfold L6. rewrite (proj1 F0). eapply fit_eq; [eapply fit_unary; exact F0|..]; lra. Qed.
Lemma F7 : fit L7 6 (5 / 4) (- / 2) (/ 2).
Proof. unfold L7. rewrite (proj1 F5), (proj1 F6). eapply fit_eq; [eapply fit_binary; [exact F5|exact F6]|..]; lra. Qed.
Lemma F8 : fit L8 10 (9 / 4) (- (5 / 2)) (5 / 2).
Proof. unfold L8. rewrite (proj1 F7), (proj1 F4). eapply fit_eq; [eapply fit_binary; [exact F7|exact F4]|..]; lra. Qed.
Ltac num := first [apply small_regular; lra | apply small_add; lra].
Lemma sum_fit x y g m a b c m' a' b' c' : fit x m a b c -> fit y m' a' b' c' ->
  add_ok m (g * m') -> add_ok a (g * a') -> add_ok b (g * b') -> add_ok c (g * c') -> sum_ok x y g.
Proof.
  intros [Mx X] [My Y] M A B C. split; [now rewrite Mx, My|]. intro i. rewrite X, Y. apply (tri_all2 (fun p q => add_ok p (g * q))); try assumption. num.
Qed.
Lemma terms_fit x y dx dy m a b c m' a' b' c' : fit x m a b c -> fit y m' a' b' c' ->
  (forall p q, In (p, q) [(a, a'); (b, b'); (c, c'); (0, 0)] -> regular (dx * p) /\ regular (dy * q) /\ add_ok (dx * p) (dy * q)) -> terms_ok x y dx dy.
Proof.
  intros [_ X] [_ Y] H i. rewrite X, Y. apply (tri_all2 (fun p q => regular (dx * p) /\ regular (dy * q) /\ add_ok (dx * p) (dy * q))); apply H; cbn; tauto.
Qed.
Lemma new_exact w v z s : (Z.abs z <= 1024)%Z -> (0 <= s <= 1024)%Z ->
  spec_exec w (exact_step (Plain (CNew (N := DN) v (dofZ z) (dofZ s)))) = s_set (mkS (s_last w + 1) (s_var w)) v (lin_fresh (s_last w + 1) (IZR z) (IZR s)).
Proof.
  intros Hz Hs. cbn [exact_step exact_ucall ucall_on spec_exec]. rewrite !lit by lia. destruct (Rlt_dec (IZR s) 0) as [C|]; [|reflexivity]. apply (lt_IZR s 0) in C. lia.
Qed.
Ltac terms := intros p q Hpq; cbn [In] in Hpq; repeat (destruct Hpq as [Hpq|Hpq]; [injection Hpq as <- <-|]); [..|contradiction]; (split; [num|split; num]).
Lemma rel_demo_tame : tame_program rel_demo.
Proof.
  unfold tame_program, rel_demo. cbn [tame_from]. rewrite !new_exact by lia.
  repeat match goal with |- _ /\ _ => split end; try exact I.
  all: try (intro v; do 5 (destruct v as [|v]; [cbn; lia|]); cbn; lia).
  all: try (cbn -[dofZ real_of]; rewrite ?lit by (cbn; lia); repeat split; try reflexivity; lra).
  - change (div_ok L0 L1). unfold div_ok. rewrite (proj1 F0), (proj1 F1). split; [lra|]. repeat (split; [num|]). apply (terms_fit _ _ _ _ _ _ _ _ _ _ _ _ F0 F1). terms.
  - change (2%nat <> 3%nat /\ mul_ok L2 L3). split; [discriminate|]. unfold mul_ok. rewrite (proj1 F2), (proj1 F3). split; [num|]. apply (terms_fit _ _ _ _ _ _ _ _ _ _ _ _ F2 F3). terms.
  - change (sqrt_ok L4). unfold sqrt_ok. rewrite (proj1 F4), sqrt4. split; [lra|]. repeat (split; [num|]). intro i. rewrite (proj2 F4). apply (tri_all (fun p => regular (/ (2 * 2) * p))); num.
  - change (4%nat <> 3%nat /\ sum_ok L5 L6 (-1)). split; [discriminate|]. apply (sum_fit _ _ _ _ _ _ _ _ _ _ _ F5 F6); num.
  - change (sum_ok L7 L4 1). apply (sum_fit _ _ _ _ _ _ _ _ _ _ _ F7 F4); num.
Qed.
Lemma rel_demo_exact : let r := exact_steps rel_demo in s_last r = 3%Z /\ s_var r 2%nat = L8.
Proof. unfold exact_steps, rel_demo, spec_run. cbn [map fold_left]. rewrite !new_exact by lia. split; reflexivity. Qed.
(** 10 with coefficients 9/4, -5/2 and 5/2 *)
Lemma rel_case : (count_new (map call_of rel_demo) <= max_new)%nat /\ tame_program rel_demo /\ rel_rounds rel_demo 2%nat = 22%nat /\
  let r := s_var (exact_steps rel_demo) 2%nat in l_mean r = 10 /\ l_coef r 1 = 9 / 4 /\ l_coef r 2 = - (5 / 2) /\ l_coef r 3 = 5 / 2 /\
  (forall i, l_coef r i = 0 \/ pow2 (-509) <= Rabs (l_coef r i)) /\ lin_var (s_last (exact_steps rel_demo)) r = 281 / 16 /\ 281 / 16 <= pow2 1018.
Proof.
  split; [apply max_new_ge; vm_compute; discriminate|]. split; [exact rel_demo_tame|]. split; [vm_compute; reflexivity|]. cbv zeta. destruct rel_demo_exact as [E1 E2]. cbv zeta in E1, E2. rewrite E1, E2.
  destruct F8 as [M C]. split; [exact M|]. rewrite !C. repeat (split; [reflexivity|]). split; [|split].
  - intro i. rewrite C. assert (P : pow2 (-509) <= 2) by (change 2 with (pow2 1); apply pow2_le; lia). 
    revert P. generalize (pow2 (-509)). intros e P. apply (tri_all (fun p => p = 0 \/ e <= Rabs p)).
    + right. rewrite Rabs_pos_eq; lra.
    + right. rewrite Rabs_left; lra.
    + right. rewrite Rabs_pos_eq; lra.
    + left. reflexivity.
  - unfold lin_var, lin_cov, sum_ids, SpecLin.ids. change (map Z.of_nat (seq 1 (Z.to_nat 3))) with [1; 2; 3]%Z. cbn [rsum fold_right map]. rewrite !C. cbn [tri]. lra.
  - change (1018)%Z with (5 + 1013)%Z. apply Rle_trans with (pow2 5); [change (pow2 5) with 32; lra|apply pow2_le; lia].
Qed.
