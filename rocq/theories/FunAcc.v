(** * FunAcc: numerical derivatives on doubles, analysis (C70) *)

From Coq Require Import List ZArith Bool Reals Lra Lia Psatz.
From Coquelicot Require Import Coquelicot.
From Verif Require Import Base Num SpecFun Derivs MathProofs FunProofs.
Import ListNotations.
Local Open Scope R_scope.

(** ** Taylor polynomials at a, in the direction [g] = 1 or -1 *)
Section Taylor.
  Variables (a g H : R).
  Hypothesis (Hg : g * g = 1).
  Hypothesis (HH : 0 <= H).
  Lemma g_abs1 : Rabs g = 1.
  Proof.
    assert (P := Rabs_pos g). assert (E : Rabs g * Rabs g = 1) by (rewrite <- Rabs_mult, Hg; apply Rabs_R1). nra.
  Qed.
  Lemma near_g t : 0 <= t <= H -> near a H (a + g * t).
  Proof.
    intro Ht. unfold near. replace (a + g * t - a) with (g * t) by ring. rewrite Rabs_mult, g_abs1, !Rabs_pos_eq; lra.
  Qed.
  Lemma dir_derive (F F1 : R -> R) : (forall t : R, near a H t -> is_derive F t (F1 t)) ->
    forall t : R, 0 <= t <= H -> is_derive (fun t => F (a + g * t)) t (g * F1 (a + g * t)).
  Proof. intros D t Ht. assert (D1 := D _ (near_g t Ht)). auto_derive; [eexists; exact D1|]. derv D1. ring. Qed.

  Lemma tay1 (F F1 : R -> R) M : (forall t : R, near a H t -> is_derive F t (F1 t)) -> bounded_on (near a H) F1 M ->
    forall t, 0 <= t <= H -> Rabs (F (a + g * t) - F a) <= M * t.
  Proof.
    intros D B t Ht.
    replace (M * t) with (M / INR 1 * t ^ 1) by (cbn; field).
    apply (int_bound (fun t => F (a + g * t) - F a) (fun t => g * F1 (a + g * t)) M 0 t); [lra| | |].
    - rewrite Rmult_0_r, Rplus_0_r. ring.
    - intros u Hu. assert (D1 := dir_derive F F1 D u ltac:(lra)). auto_derive; [eexists; exact (D _ (near_g u ltac:(lra)))|].
      derv (D _ (near_g u ltac:(lra))). ring.
    - intros u Hu. rewrite Rabs_mult, g_abs1. cbn. rewrite Rmult_1_l, Rmult_1_r. apply B, near_g. lra.
  Qed.
  Lemma tay2 (F F1 F2 : R -> R) M : (forall t : R, near a H t -> is_derive F t (F1 t)) ->
    (forall t : R, near a H t -> is_derive F1 t (F2 t)) -> bounded_on (near a H) F2 M ->
    forall t, 0 <= t <= H -> Rabs (F (a + g * t) - F a - g * t * F1 a) <= M / 2 * t ^ 2.
  Proof.
    intros D D' B t Ht.
    replace (M / 2 * t ^ 2) with (M / INR 2 * t ^ 2) by (cbn; field).
    apply (int_bound (fun t => F (a + g * t) - F a - g * t * F1 a) (fun t => g * (F1 (a + g * t) - F1 a)) M 1 t); [lra| | |].
    - rewrite Rmult_0_r, Rplus_0_r. ring.
    - intros u Hu. auto_derive; [eexists; exact (D _ (near_g u ltac:(lra)))|].
      derv (D _ (near_g u ltac:(lra))). ring.
    - intros u Hu. rewrite Rabs_mult, g_abs1, Rmult_1_l, pow_1. apply (tay1 F1 F2 M D' B). lra.
  Qed.
  Lemma tay3 (F F1 F2 F3 : R -> R) M : derivs_on (near a H) F [F1; F2; F3] -> bounded_on (near a H) F3 M ->
    forall t, 0 <= t <= H -> Rabs (F (a + g * t) - F a - g * t * F1 a - t ^ 2 / 2 * F2 a) <= M / 6 * t ^ 3.
  Proof.
    intros (D & D' & D2 & _) B t Ht.
    replace (M / 6 * t ^ 3) with (M / 2 / INR 3 * t ^ 3) by (cbn; field).
    apply (int_bound (fun t => F (a + g * t) - F a - g * t * F1 a - t ^ 2 / 2 * F2 a)
             (fun t => g * (F1 (a + g * t) - F1 a - g * t * F2 a)) (M / 2) 2 t); [lra| | |].
    - rewrite Rmult_0_r, Rplus_0_r. field.
    - intros u Hu. auto_derive; [eexists; exact (D _ (near_g u ltac:(lra)))|].
      derv (D _ (near_g u ltac:(lra))). replace (g * (F1 (a + g * u) - F1 a - g * u * F2 a)) with (g * F1 (a + g * u) - g * F1 a - g * g * u * F2 a) by ring.
      rewrite Hg. field.
    - intros u Hu. rewrite Rabs_mult, g_abs1, Rmult_1_l. apply (tay2 F1 F2 F3 M D' D2 B). lra.
  Qed.
  Lemma tay4 (F F1 F2 F3 F4 : R -> R) M : derivs_on (near a H) F [F1; F2; F3; F4] -> bounded_on (near a H) F4 M ->
    forall t, 0 <= t <= H -> Rabs (F (a + g * t) - F a - g * t * F1 a - t ^ 2 / 2 * F2 a - g * t ^ 3 / 6 * F3 a) <= M / 24 * t ^ 4.
  Proof.
    intros (D & D') B t Ht.
    replace (M / 24 * t ^ 4) with (M / 6 / INR 4 * t ^ 4) by (cbn; field).
    apply (int_bound (fun t => F (a + g * t) - F a - g * t * F1 a - t ^ 2 / 2 * F2 a - g * t ^ 3 / 6 * F3 a)
             (fun t => g * (F1 (a + g * t) - F1 a - g * t * F2 a - t ^ 2 / 2 * F3 a)) (M / 6) 3 t); [lra| | |].
    - rewrite Rmult_0_r, Rplus_0_r. field.
    - intros u Hu. auto_derive; [eexists; exact (D _ (near_g u ltac:(lra)))|].
      derv (D _ (near_g u ltac:(lra))). replace (g * (F1 (a + g * u) - F1 a - g * u * F2 a - u ^ 2 / 2 * F3 a))
        with (g * F1 (a + g * u) - g * F1 a - g * g * u * F2 a - g * (u ^ 2 / 2) * F3 a) by ring.
      rewrite Hg. field.
    - intros u Hu. rewrite Rabs_mult, g_abs1, Rmult_1_l. apply (tay3 F1 F2 F3 F4 M D' B). lra.
  Qed.
End Taylor.
