(** * PropsUReal: the properties of UReal (C01-C16, C46, C47)

    Generated from tools/PropsUReal.in.  Statements refer to the model (UReal.v,
    World.v, Threads.v) and to the specifications SpecLin.v, SpecObs.v, SpecAD.v. *)

From Coq Require Import List ZArith QArith Bool Reals Lra Lia Permutation.
From Coquelicot Require Import Coquelicot.
From Verif Require Import Base Num Map UReal World Threads Sums SpecLin SpecObs SpecAD.
From Verif Require Import URealProofs URealProofs2 ThreadsProofs ADProofs Demo SpecGrad GradProofs.
Import ListNotations.
Notation Forall := List.Forall.
Local Open Scope R_scope.

(** The hypothesis [reachable w] of the theorems below is met by a state with
    independent, dependent and correlated variables. *)
Example reachable_example : exists w, reachable w /\
  u_n (w_var w 3%nat) = 21 /\ u_s (w_var w 0%nat) = 1 /\ u_s (w_var w 1%nat) = 2 /\
  u_cov (w_var w 0%nat) (w_var w 2%nat) = 1 /\ u_cov (w_var w 0%nat) (w_var w 1%nat) = 0.
Proof. destruct demo_world as (w & R' & E & H). exists w. tauto. Qed.
(** The hypothesis [legal cs] is met by a history with eight calls, one of which throws. *)
Example legal_example : legal demo /\ length demo = 8%nat.
Proof. split; [exact demo_legal|reflexivity]. Qed.

(** ** C01 *)
@C01_fresh_ids_unique
Example C01_case : legal ([CNew 0%nat 3 1] ++ CNew 1%nat 4 2 :: [CAdd 2%nat 0%nat 1%nat] ++ [CNew 3%nat 0 0]).
Proof. split; [repeat constructor|]. split; [cbn; decide_signs; cbn; tauto|apply max_new_ge; cbn; lia]. Qed.

(** ** C02 *)
@C02_concurrent_ids_unique
(** Two threads, the first of which has obtained its id but not finished. *)
Example C02_case : exists c : config RN,
  steps (mkConfig 0 (map t_start [[(1, 1)]; [(2, 1); (3, -1)]])) c /\
  length (flat_map t_done (c_threads c)) = 1%nat /\ c_counter c = 2%Z.
Proof.
  eexists. split.
  - eapply Relation_Operators.rt1n_trans. { apply (step_intro []). reflexivity. }
    eapply Relation_Operators.rt1n_trans. { apply (step_intro [_]). reflexivity. }
    eapply Relation_Operators.rt1n_trans. { apply (step_intro [_]). reflexivity. }
    apply Relation_Operators.rt1n_refl.
  - cbn. destruct (Rltb_spec 1 0); [lra|]. split; reflexivity.
Qed.

(** ** C03 *)
@C03_invariants
(** All three kinds of value occur: a number, a construction, and a sum that depends on two. *)
Example C03_case : exists w, reachable w /\ uid (w_var w 3%nat) = 0%Z /\
  (0 < uid (w_var w 0%nat))%Z /\ (uid (w_var w 2%nat) < 0)%Z /\ 0 <= u_s2 (w_var w 2%nat) /\
  map fst (usigma (w_var w 2%nat)) = [1%Z; 2%Z].
Proof.
  eexists. split.
  - exists [CNew 0%nat 3 1; CNew 1%nat 4 2; CAdd 2%nat 0%nat 1%nat]. split.
    + split; [repeat constructor|]. split; [cbn; decide_signs; cbn; tauto|apply max_new_ge; cbn; lia].
    + cbn. destruct (Rltb_spec 1 0); [lra|]. destruct (Rltb_spec 2 0); [lra|]. reflexivity.
  - cbn. repeat split; try lia; lra.
Qed.

(** ** C04 *)
@C04_refines_linear_forms
(** The linear form of x + y in the history [demo]: coefficient 1 on x and 2 on y, variance 5. *)
Example C04_case : legal demo /\ lin_var (s_last demo_spec) (s_var demo_spec 2%nat) = 5.
Proof.
  split; [exact demo_legal|]. destruct demo_spec_values as (S1 & _ & _ & _ & _ & S5 & _).
  unfold lin_var, lin_cov, sum_ids, ids. rewrite S1. change (seq 1 (Z.to_nat 3)) with [1%nat; 2%nat; 3%nat].
  cbn [map rsum Z.of_nat Pos.of_succ_nat Pos.succ]. rewrite !S5. cbn. lra.
Qed.

(** ** C05 *)
@C05_chain_rule
Example C05_case : derivs_ok ad_init [CNew 0%nat 3 1; CUnary 1%nat 0%nat exp exp; CMul 2%nat 0%nat 1%nat].
Proof. cbn. repeat split. apply derivable_pt_lim_exp. Qed.

(** ** C06 *)
@C06_cov_symmetric
@C06_cov_self_is_var
@C06_cov_bilinear
@C06_cov_disjoint_zero
Example C06_case : exists cs w, legal cs /\ run w_init cs = Ret w /\
  (forall i, ~ (l_dep (s_var (spec_run s_init cs) 0%nat) i /\ l_dep (s_var (spec_run s_init cs) 1%nat) i)) /\
  u_s (w_var w 0%nat) = 1 /\ u_s (w_var w 1%nat) = 2.
Proof.
  destruct demo_world as (w & R' & E & H). exists demo, w. split; [exact demo_legal|]. split; [exact E|].
  split; [|tauto]. destruct demo_spec_values as (_ & _ & _ & _ & _ & _ & S6 & S7 & _).
  change (spec_run s_init demo) with demo_spec. intros i [A B]. apply S6 in A. apply S7 in B. lia.
Qed.

(** ** C07 *)
@C07_var_s_corr
Example C07_case : exists w, reachable w /\ u_s (w_var w 0%nat) <> 0 /\ u_s (w_var w 1%nat) <> 0.
Proof. destruct demo_world as (w & R' & E & H). exists w. split; [exact R'|]. split; lra. Qed.

(** ** C08 *)
@C08_caching_unobservable
@C08_caching_queries_same_value
Example C08_case : legal demo /\ length (without_queries demo) = 7%nat.
Proof. split; [exact demo_legal|reflexivity]. Qed.

(** ** C09 *)
@C09_isindep_indepid
@C09_independent_corr
Example C09_case : exists w, reachable w /\
  u_isindep (w_var w 0%nat) = Ret true /\ u_isindep (w_var w 1%nat) = Ret true /\
  u_s (w_var w 0%nat) <> 0 /\ u_s (w_var w 1%nat) <> 0.
Proof. destruct demo_world as (w & R' & E & H). exists w. repeat split; try tauto; lra. Qed.

(** ** C10 *)
@C10_binary_assign
@C10_compound_operators
@C10_operand_unchanged
(** The hypothesis is met also where both sides are the same object: q += q follows q = t / y. *)
Example C10_case : legal (demo ++ [CAssign 5%nat 5%nat (fun a b => a * b) (fun a b => b) (fun a b => a)]) /\ 0%nat <> 5%nat.
Proof.
  split; [|lia]. split; [repeat constructor|]. split; [|apply max_new_ge; cbn; lia].
  unfold demo. cbn. decide_signs. cbn. repeat split; try exact I; try lra.
Qed.

(** ** C11 *)
@C11_nary_one
@C11_nary_two
@C11_nary_order_irrelevant
@C11_nary_accumulates
Example C11_case : Permutation [(0%nat, 2); (1%nat, 3); (0%nat, 4)] [(0%nat, 4); (0%nat, 2); (1%nat, 3)].
Proof. apply Permutation_sym. apply (Permutation_cons_app [_; _] []). reflexivity. Qed.

(** ** C12 *)
@C12_number_contributes_nothing
@C12_zero_deviation
Example C12_case : legal demo /\ (count_new (demo ++ [CNew 0%nat 5%R 0%R]) <= max_new)%nat.
Proof. split; [exact demo_legal|apply max_new_ge; cbn; lia]. Qed.

(** ** C13 *)
@C13_invalid_construction
Example C13_case : (-1 < 0)%R /\ (0 <= 1)%R.
Proof. lra. Qed.

(** ** C14 *)
@C14_change_nom
@C14_convert_roundtrip
@C14_convert_keeps_covariance
Example C14_case : exists c : QN -> R, hom c /\ nltb (n0 : QN) n0 = false /\ c (nadd n1 n1 : QN) = 2.
Proof.
  exists Q2R. split; [|split; [reflexivity|]].
  - split; [unfold Q2R; cbn; lra|]. split; intros a b; cbn [nadd nmul QN T].
    + rewrite <- Qreals.Q2R_plus. apply Qreals.Qeq_eqR, QArith.Qreduction.Qred_correct.
    + rewrite <- Qreals.Q2R_mult. apply Qreals.Qeq_eqR, QArith.Qreduction.Qred_correct.
  - unfold Q2R; cbn. lra.
Qed.

(** ** C15: throws exactly when documented; the value is right when the object is the
    result of an operation with several operands; false in general. *)
@C15_grad_throws_iff
@C15_grad_partial
(** The value for every variable: wrong exactly for those that hold an independent
    variable up to functions of one argument. *)
@C15_grad_exact_partial
Example C15_exact_case : let cs := [CNew 0%nat 3 1; CNew 1%nat 4 2; CMul 2%nat 0%nat 1%nat; CNeg 3%nat 0%nat; CNeg 4%nat 2%nat] in
  map (lone cs) [0%nat; 1%nat; 2%nat; 3%nat; 4%nat] = [true; true; false; true; false].
Proof. cbn. destruct (Rlt_dec 1 0); [lra|]. destruct (Rlt_dec 2 0); [lra|]. reflexivity. Qed.
@C15_grad_refuted
Example C15_case : legal [CNew 0%nat 3 1; CNew 1%nat 4 2] /\
  let sw := spec_run s_init ([CNew 0%nat 3 1; CNew 1%nat 4 2] ++ [CMul 2%nat 0%nat 1%nat]) in
  l_dep (s_var sw 0%nat) 1%Z /\ (forall j, l_dep (s_var sw 0%nat) j -> j = 1%Z) /\
  l_coef (s_var sw 0%nat) 1%Z = 1 /\ l_coef (s_var sw 2%nat) 1%Z = 4.
Proof.
  split.
  - split; [repeat constructor|]. split; [cbn; decide_signs; cbn; tauto|apply max_new_ge; cbn; lia].
  - cbn. decide_signs. cbn. repeat split; auto; lra.
Qed.

(** ** C16 *)
@C16_sub_self
@C16_div_self
@C16_commutative
@C16_associative_distributive
@C16_inverse_operations
Example C16_case : exists w, reachable w /\ u_n (w_var w 1%nat) <> 0 /\ u_s (w_var w 1%nat) = 2.
Proof. destruct demo_world as (w & R' & E & H). exists w. tauto. Qed.

(** ** C46 *)
@C46_no_undefined_behaviour
Example C46_case : nltb (n0 : RN) n0 = false /\ nltb (n0 : QN) n0 = false /\
  Forall nary_ok [CNew 0%nat 3 1; CNary 1%nat [0%nat; 0%nat] (fun ms => hd 0 ms) (fun ms => [1; 1])].
Proof.
  split; [cbn; destruct (Rltb_spec 0 0); [lra|reflexivity]|]. split; [reflexivity|].
  repeat constructor.
Qed.

(** ** C47 *)
@C47_id_exhaustion_refuted
