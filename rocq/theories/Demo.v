(** * Demo: a concrete history, used to show that hypotheses can be met *)

From Coq Require Import List ZArith Bool Reals Lra Lia.
From Verif Require Import Base Num Map UReal World Sums SpecLin SpecObs URealProofs.
Import ListNotations.
Local Open Scope R_scope.

(** x = UReal(3, 1); y = UReal(4, 2); z = x + y; t = z * x; UReal(0, -1) throws;
    q = t / y; q.s(); q += q *)
Definition demo : list (call RN) :=
  [CNew 0%nat 3 1; CNew 1%nat 4 2; CAdd 2%nat 0%nat 1%nat; CMul 3%nat 2%nat 0%nat;
   CNew 4%nat 0 (-1); CDiv 5%nat 3%nat 1%nat; CS 5%nat; CAddA 5%nat 5%nat].

Ltac decide_signs :=
  repeat match goal with
  | |- context [Rlt_dec ?a ?b] => destruct (Rlt_dec a b); try (exfalso; lra)
  end.

Lemma max_new_ge n : (Z.of_nat n <= 2147483646)%Z -> (n <= max_new)%nat.
Proof. apply max_new_Z. Qed.

Lemma demo_legal : legal demo.
Proof.
  split; [repeat constructor|]. split; [|apply max_new_ge; cbn; lia].
  unfold demo. cbn. decide_signs. cbn. repeat split; try exact I; try lra.
Qed.

Definition demo_spec : sworld := spec_run s_init demo.
Lemma demo_spec_values :
  s_last demo_spec = 3%Z /\
  l_mean (s_var demo_spec 3%nat) = 21 /\ l_mean (s_var demo_spec 1%nat) = 4 /\
  (forall i, l_coef (s_var demo_spec 0%nat) i = if Z.eq_dec i 1 then 1 else 0) /\
  (forall i, l_coef (s_var demo_spec 1%nat) i = if Z.eq_dec i 2 then 2 else 0) /\
  (forall i, l_coef (s_var demo_spec 2%nat) i
     = 1 * (if Z.eq_dec i 1 then 1 else 0) + 1 * (if Z.eq_dec i 2 then 2 else 0)) /\
  (forall i, l_dep (s_var demo_spec 0%nat) i <-> i = 1%Z) /\
  (forall i, l_dep (s_var demo_spec 1%nat) i <-> i = 2%Z) /\
  (forall i, l_dep (s_var demo_spec 2%nat) i <-> i = 1%Z \/ i = 2%Z).
Proof.
  unfold demo_spec, demo. cbn. decide_signs. cbn.
  repeat match goal with |- _ /\ _ => split end; try reflexivity; try lra; intros; tauto.
Qed.

#[global] Opaque demo_spec.

Lemma demo_world : exists w, reachable w /\ run w_init demo = Ret w /\
  u_n (w_var w 3%nat) = 21 /\ u_s (w_var w 0%nat) = 1 /\ u_s (w_var w 1%nat) = 2 /\
  u_cov (w_var w 0%nat) (w_var w 2%nat) = 1 /\ u_cov (w_var w 1%nat) (w_var w 2%nat) = 4 /\
  u_cov (w_var w 0%nat) (w_var w 1%nat) = 0 /\ u_n (w_var w 1%nat) <> 0 /\
  u_isindep (w_var w 0%nat) = Ret true /\ u_isindep (w_var w 1%nat) = Ret true.
Proof.
  destruct (C04_refines_linear_forms_proof demo demo_legal) as (w & E & L & F). change (spec_run s_init demo) with demo_spec in *.
  destruct demo_spec_values as (S1 & S2 & S2' & S3 & S4 & S5 & S6 & S7 & S8).
  exists w. split; [exists demo; split; [exact demo_legal|exact E]|]. split; [exact E|].
  destruct (F 3%nat 0%nat) as (F3 & _). destruct (F 0%nat 2%nat) as (_ & _ & G1 & G2 & _).
  destruct (F 1%nat 2%nat) as (G0 & _ & G3 & G4 & _). destruct (F 0%nat 1%nat) as (_ & _ & _ & G5 & _).
  unfold lin_sdev, lin_var, lin_cov, sum_ids, ids in *. rewrite S1 in *.
  change (seq 1 (Z.to_nat 3)) with [1%nat; 2%nat; 3%nat] in *.
  cbn [map rsum Z.of_nat Pos.of_succ_nat Pos.succ] in *.
  rewrite ?S3, ?S4, ?S5 in *. cbn in G1, G2, G3, G4, G5.
  split; [congruence|]. split. { rewrite G1; transitivity (sqrt 1); [f_equal|apply sqrt_1].
idtac. lra. }
  split. { rewrite G3. transitivity (sqrt (2 * 2)); [f_equal; lra|apply sqrt_square; lra]. }
  split; [rewrite G2; lra|]. split; [rewrite G4; lra|]. split; [rewrite G5; lra|].
  split.
  { rewrite G0, S2'. lra. }
  split.
  - destruct (C09_isindep_indepid_proof demo w demo_legal E 0%nat) as ((b & Eb & Hb) & _).
    rewrite Eb. f_equal. apply Hb. change (spec_run s_init demo) with demo_spec. intros i j Hi Hj. apply S6 in Hi. apply S6 in Hj. congruence.
  - destruct (C09_isindep_indepid_proof demo w demo_legal E 1%nat) as ((b & Eb & Hb) & _).
    rewrite Eb. f_equal. apply Hb. change (spec_run s_init demo) with demo_spec. intros i j Hi Hj. apply S7 in Hi. apply S7 in Hj. congruence.
Qed.
