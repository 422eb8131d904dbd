(** * PropsUReal: the properties of UReal (C01-C16, C46, C47)

    Generated from tools/PropsUReal.in.  Statements refer to the model (UReal.v,
    World.v, Threads.v) and to the specifications SpecLin.v, SpecObs.v, SpecAD.v. *)

From Coq Require Import List ZArith QArith Bool Reals Lra Lia Permutation.
From Coquelicot Require Import Coquelicot.
From Verif Require Import Base Num Map UReal World Threads Sums SpecLin SpecObs SpecAD.
From Verif Require Import URealProofs URealProofs2 ThreadsProofs ADProofs Demo SpecGrad GradProofs.
Import ListNotations.
Notation Forall := List.Forall.
Local Open Scope R_scope.

(** The hypothesis [reachable w] of the theorems below is met by a state with
    independent, dependent and correlated variables. *)
Example reachable_example : exists w, reachable w /\
  u_n (w_var w 3%nat) = 21 /\ u_s (w_var w 0%nat) = 1 /\ u_s (w_var w 1%nat) = 2 /\
  u_cov (w_var w 0%nat) (w_var w 2%nat) = 1 /\ u_cov (w_var w 0%nat) (w_var w 1%nat) = 0.
Proof. destruct demo_world as (w & R' & E & H). exists w. tauto. Qed.
(** The hypothesis [legal cs] is met by a history with eight calls, one of which throws. *)
Example legal_example : legal demo /\ length demo = 8%nat.
Proof. split; [exact demo_legal|reflexivity]. Qed.

(** ** C01 *)
Theorem C01_fresh_ids_unique : forall cs1 v1 n1 s1 cs2 v2 n2 s2,
  0 <= s1 -> 0 <= s2 ->
  legal (cs1 ++ CNew v1 n1 s1 :: cs2 ++ [CNew v2 n2 s2]) ->
  exists w1 w2 i1 i2,
    run w_init (cs1 ++ [CNew v1 n1 s1]) = Ret w1 /\
    run w_init (cs1 ++ CNew v1 n1 s1 :: cs2 ++ [CNew v2 n2 s2]) = Ret w2 /\
    u_indepid (w_var w1 v1) = Ret i1 /\ u_indepid (w_var w2 v2) = Ret i2 /\
    (0 < i1)%Z /\ (0 < i2)%Z /\ i1 <> i2.
Proof. exact C01_fresh_ids_unique_proof. Qed.
Print Assumptions C01_fresh_ids_unique.
Example C01_case : legal ([CNew 0%nat 3 1] ++ CNew 1%nat 4 2 :: [CAdd 2%nat 0%nat 1%nat] ++ [CNew 3%nat 0 0]).
Proof. split; [repeat constructor|]. split; [cbn; decide_signs; cbn; tauto|apply max_new_ge; cbn; lia]. Qed.

(** ** C02 *)
Theorem C02_concurrent_ids_unique : forall (N : Num) (progs : list (list (N * N))) c,
  (length (concat progs) <= max_new)%nat ->
  steps (mkConfig 0 (map t_start progs)) c ->
  let made := flat_map t_done (c_threads c) in
  exists ids, map u_indepid made = map Ret ids /\ NoDup ids /\ forall i, In i ids -> (0 < i)%Z.
Proof. exact C02_concurrent_ids_unique_proof. Qed.
Print Assumptions C02_concurrent_ids_unique.
(** Two threads, the first of which has obtained its id but not finished. *)
Example C02_case : exists c : config RN,
  steps (mkConfig 0 (map t_start [[(1, 1)]; [(2, 1); (3, -1)]])) c /\
  length (flat_map t_done (c_threads c)) = 1%nat /\ c_counter c = 2%Z.
Proof.
  eexists. split.
  - eapply Relation_Operators.rt1n_trans. { apply (step_intro []). reflexivity. }
    eapply Relation_Operators.rt1n_trans. { apply (step_intro [_]). reflexivity. }
    eapply Relation_Operators.rt1n_trans. { apply (step_intro [_]). reflexivity. }
    apply Relation_Operators.rt1n_refl.
  - cbn. destruct (Rltb_spec 1 0); [lra|]. split; reflexivity.
Qed.

(** ** C03 *)
Theorem C03_invariants : forall w, reachable w -> forall v,
  let x := w_var w v in
  (uid x = 0%Z -> usdev x = 0 /\ usigma x = []) /\
  ((0 < uid x)%Z -> usigma x = [] /\ (uid x <= w_last w)%Z) /\
  ((uid x < 0)%Z -> uid x = invalid_id /\
      (0 <= usdev x -> usdev x * usdev x = u_s2 x) /\
      (forall k c, In (k, c) (usigma x) -> (1 <= k <= w_last w)%Z) /\
      NoDup (map fst (usigma x))).
Proof. exact C03_invariants_proof. Qed.
Print Assumptions C03_invariants.
(** All three kinds of value occur: a number, a construction, and a sum that depends on two. *)
Example C03_case : exists w, reachable w /\ uid (w_var w 3%nat) = 0%Z /\
  (0 < uid (w_var w 0%nat))%Z /\ (uid (w_var w 2%nat) < 0)%Z /\ 0 <= u_s2 (w_var w 2%nat) /\
  map fst (usigma (w_var w 2%nat)) = [1%Z; 2%Z].
Proof.
  eexists. split.
  - exists [CNew 0%nat 3 1; CNew 1%nat 4 2; CAdd 2%nat 0%nat 1%nat]. split.
    + split; [repeat constructor|]. split; [cbn; decide_signs; cbn; tauto|apply max_new_ge; cbn; lia].
    + cbn. destruct (Rltb_spec 1 0); [lra|]. destruct (Rltb_spec 2 0); [lra|]. reflexivity.
  - cbn. repeat split; try lia; lra.
Qed.

(** ** C04 *)
Theorem C04_refines_linear_forms : forall cs, legal cs ->
  exists w, run w_init cs = Ret w /\
    let sw := spec_run s_init cs in
    w_last w = s_last sw /\
    forall u v,
      let x := w_var w u in let y := w_var w v in
      let a := s_var sw u in let b := s_var sw v in
      u_n x = l_mean a /\
      u_var x = lin_var (s_last sw) a /\
      u_s x = lin_sdev (s_last sw) a /\
      u_cov x y = lin_cov (s_last sw) a b /\
      u_corr x y = lin_cov (s_last sw) a b / (lin_sdev (s_last sw) a * lin_sdev (s_last sw) b).
Proof. exact C04_refines_linear_forms_proof. Qed.
Print Assumptions C04_refines_linear_forms.
(** The linear form of x + y in the history [demo]: coefficient 1 on x and 2 on y, variance 5. *)
Example C04_case : legal demo /\ lin_var (s_last demo_spec) (s_var demo_spec 2%nat) = 5.
Proof.
  split; [exact demo_legal|]. destruct demo_spec_values as (S1 & _ & _ & _ & _ & S5 & _).
  unfold lin_var, lin_cov, sum_ids, ids. rewrite S1. change (seq 1 (Z.to_nat 3)) with [1%nat; 2%nat; 3%nat].
  cbn [map rsum Z.of_nat Pos.of_succ_nat Pos.succ]. rewrite !S5. cbn. lra.
Qed.

(** ** C05 *)
Theorem C05_chain_rule : forall cs, List.Forall nary_ok cs -> (count_new cs <= max_new)%nat ->
  derivs_ok ad_init cs ->
  let p := ad_run ad_init cs in
  exists w (D : nat -> Z -> R), run w_init cs = Ret w /\
    (forall v, u_n (w_var w v) = ad_fun p v (ad_mean p)) /\
    (forall v i, (1 <= i <= ad_last p)%Z ->
       is_derive (fun t => ad_fun p v (env_set (ad_mean p) i t)) (ad_mean p i) (D v i)) /\
    (forall u v, u_cov (w_var w u) (w_var w v)
                 = sum_ids (ad_last p) (fun i => D u i * D v i * ad_sd p i ^ 2)) /\
    (forall v, u_var (w_var w v) = sum_ids (ad_last p) (fun i => (D v i * ad_sd p i) ^ 2)).
Proof. exact C05_chain_rule_proof. Qed.
Print Assumptions C05_chain_rule.
Example C05_case : derivs_ok ad_init [CNew 0%nat 3 1; CUnary 1%nat 0%nat exp exp; CMul 2%nat 0%nat 1%nat].
Proof. cbn. repeat split. apply derivable_pt_lim_exp. Qed.

(** ** C06 *)
Theorem C06_cov_symmetric : forall w, reachable w -> forall u v,
  u_cov (w_var w u) (w_var w v) = u_cov (w_var w v) (w_var w u).
Proof. exact C06_cov_symmetric_proof. Qed.
Print Assumptions C06_cov_symmetric.
Theorem C06_cov_self_is_var : forall w, reachable w -> forall u,
  u_cov (w_var w u) (w_var w u) = u_var (w_var w u).
Proof. exact C06_cov_self_is_var_proof. Qed.
Print Assumptions C06_cov_self_is_var.
Theorem C06_cov_bilinear : forall w, reachable w -> forall u v t mu d dx dy,
  u_cov (u_unary (w_var w u) mu d) (w_var w t) = d * u_cov (w_var w u) (w_var w t) /\
  exists z, u_binary (w_var w u) (w_var w v) mu dx dy = Ret z /\
    u_cov z (w_var w t) = dx * u_cov (w_var w u) (w_var w t) + dy * u_cov (w_var w v) (w_var w t).
Proof. exact C06_cov_bilinear_proof. Qed.
Print Assumptions C06_cov_bilinear.
Theorem C06_cov_disjoint_zero : forall cs w, legal cs -> run w_init cs = Ret w ->
  forall u v, (forall i, ~ (l_dep (s_var (spec_run s_init cs) u) i /\
                            l_dep (s_var (spec_run s_init cs) v) i)) ->
  u_cov (w_var w u) (w_var w v) = 0.
Proof. exact C06_cov_disjoint_zero_proof. Qed.
Print Assumptions C06_cov_disjoint_zero.
Example C06_case : exists cs w, legal cs /\ run w_init cs = Ret w /\
  (forall i, ~ (l_dep (s_var (spec_run s_init cs) 0%nat) i /\ l_dep (s_var (spec_run s_init cs) 1%nat) i)) /\
  u_s (w_var w 0%nat) = 1 /\ u_s (w_var w 1%nat) = 2.
Proof.
  destruct demo_world as (w & R' & E & H). exists demo, w. split; [exact demo_legal|]. split; [exact E|].
  split; [|tauto]. destruct demo_spec_values as (_ & _ & _ & _ & _ & _ & S6 & S7 & _).
  change (spec_run s_init demo) with demo_spec. intros i [A B]. apply S6 in A. apply S7 in B. lia.
Qed.

(** ** C07 *)
Theorem C07_var_s_corr : forall w, reachable w -> forall u v,
  let x := w_var w u in let y := w_var w v in
  0 <= u_s x /\ u_var x = u_s x * u_s x /\
  Rabs (u_cov x y) <= u_s x * u_s y /\
  (u_s x <> 0 -> u_s y <> 0 -> -1 <= u_corr x y <= 1) /\
  (u_s x <> 0 -> u_corr x x = 1 /\ u_corr x (u_neg x) = -1).
Proof. exact C07_var_s_corr_proof. Qed.
Print Assumptions C07_var_s_corr.
Example C07_case : exists w, reachable w /\ u_s (w_var w 0%nat) <> 0 /\ u_s (w_var w 1%nat) <> 0.
Proof. destruct demo_world as (w & R' & E & H). exists w. split; [exact R'|]. split; lra. Qed.

(** ** C08 *)
Theorem C08_caching_unobservable : forall cs, legal cs ->
  exists w w', run w_init cs = Ret w /\ run w_init (without_queries cs) = Ret w' /\
    same_obs w w' /\ forall u v, u_grad (w_var w u) (w_var w v) = u_grad (w_var w' u) (w_var w' v).
Proof. exact C08_caching_unobservable_proof. Qed.
Print Assumptions C08_caching_unobservable.
Theorem C08_caching_queries_same_value : forall w, reachable w -> forall v,
  fst (u_s_caching (w_var w v)) = u_s (w_var w v) /\
  fst (u_var_caching (w_var w v)) = u_var (w_var w v).
Proof. exact C08_caching_queries_same_value_proof. Qed.
Print Assumptions C08_caching_queries_same_value.
Example C08_case : legal demo /\ length (without_queries demo) = 7%nat.
Proof. split; [exact demo_legal|reflexivity]. Qed.

(** ** C09 *)
Theorem C09_isindep_indepid : forall cs w, legal cs -> run w_init cs = Ret w -> forall v,
  let a := s_var (spec_run s_init cs) v in
  (exists b, u_isindep (w_var w v) = Ret b /\ (b = true <-> lin_indep a)) /\
  (exists i, u_indepid (w_var w v) = Ret i /\
     ((forall j, ~ l_dep a j) -> i = 0%Z) /\
     (forall j, l_dep a j -> lin_indep a -> i = j) /\
     (~ lin_indep a -> i = invalid_id)).
Proof. exact C09_isindep_indepid_proof. Qed.
Print Assumptions C09_isindep_indepid.
Theorem C09_independent_corr : forall w, reachable w -> forall u v,
  let x := w_var w u in let y := w_var w v in
  u_isindep x = Ret true -> u_isindep y = Ret true -> u_s x <> 0 -> u_s y <> 0 ->
  u_corr x y = 0 \/ u_corr x y = 1 \/ u_corr x y = -1.
Proof. exact C09_independent_corr_proof. Qed.
Print Assumptions C09_independent_corr.
Example C09_case : exists w, reachable w /\
  u_isindep (w_var w 0%nat) = Ret true /\ u_isindep (w_var w 1%nat) = Ret true /\
  u_s (w_var w 0%nat) <> 0 /\ u_s (w_var w 1%nat) <> 0.
Proof. destruct demo_world as (w & R' & E & H). exists w. repeat split; try tauto; lra. Qed.

(** ** C10 *)
Theorem C10_binary_assign : forall cs v x f ft fx, legal cs ->
  exists w1 w2, run w_init (cs ++ [CAssign v x f ft fx]) = Ret w1 /\
                run w_init (cs ++ [CBinary v v x f ft fx]) = Ret w2 /\ same_obs w1 w2.
Proof. exact C10_binary_assign_proof. Qed.
Print Assumptions C10_binary_assign.
Theorem C10_compound_operators : forall cs v x, legal cs ->
  Forall (fun p => exists w1 w2, run w_init (cs ++ [fst p]) = Ret w1 /\
                run w_init (cs ++ [snd p]) = Ret w2 /\ same_obs w1 w2)
    [(CAddA v x, CAdd v v x); (CSubA v x, CSub v v x); (CMulA v x, CMul v v x);
     (CDivA v x, CDiv v v x)].
Proof. exact C10_compound_operators_proof. Qed.
Print Assumptions C10_compound_operators.
Theorem C10_operand_unchanged : forall w v x f ft fx u,
  u <> v -> w_var (fst (exec w (CAssign v x f ft fx))) u = (w_var w u : ureal RN).
Proof. exact C10_operand_unchanged_proof. Qed.
Print Assumptions C10_operand_unchanged.
(** The hypothesis is met also where both sides are the same object: q += q follows q = t / y. *)
Example C10_case : legal (demo ++ [CAssign 5%nat 5%nat (fun a b => a * b) (fun a b => b) (fun a b => a)]) /\ 0%nat <> 5%nat.
Proof.
  split; [|lia]. split; [repeat constructor|]. split; [|apply max_new_ge; cbn; lia].
  unfold demo. cbn. decide_signs. cbn. repeat split; try exact I; try lra.
Qed.

(** ** C11 *)
Theorem C11_nary_one : forall cs v x f df, legal cs ->
  exists w1 w2,
    run w_init (cs ++ [CNary v [x] (fun ms => f (hd 0 ms)) (fun ms => [df (hd 0 ms)])]) = Ret w1 /\
    run w_init (cs ++ [CUnary v x f df]) = Ret w2 /\ same_obs w1 w2.
Proof. exact C11_nary_one_proof. Qed.
Print Assumptions C11_nary_one.
Theorem C11_nary_two : forall cs v x y f fx fy, legal cs ->
  exists w1 w2,
    run w_init (cs ++ [CNary v [x; y] (fun ms => f (nth 0 ms 0) (nth 1 ms 0))
                         (fun ms => [fx (nth 0 ms 0) (nth 1 ms 0); fy (nth 0 ms 0) (nth 1 ms 0)])])
      = Ret w1 /\
    run w_init (cs ++ [CBinary v x y f fx fy]) = Ret w2 /\ same_obs w1 w2.
Proof. exact C11_nary_two_proof. Qed.
Print Assumptions C11_nary_two.
Theorem C11_nary_order_irrelevant : forall w, reachable w -> forall (l1 l2 : list (nat * R)) mu,
  Permutation l1 l2 ->
  exists z1 z2,
    u_nary (map (w_var w) (map fst l1)) mu (map snd l1) = Ret z1 /\
    u_nary (map (w_var w) (map fst l2)) mu (map snd l2) = Ret z2 /\ same_value w z1 z2.
Proof. exact C11_nary_order_irrelevant_proof. Qed.
Print Assumptions C11_nary_order_irrelevant.
Theorem C11_nary_accumulates : forall w, reachable w -> forall (l : list (nat * R)) mu,
  exists z, u_nary (map (w_var w) (map fst l)) mu (map snd l) = Ret z /\
            same_value w z (accumulate w l (u_const mu)).
Proof. exact C11_nary_accumulates_proof. Qed.
Print Assumptions C11_nary_accumulates.
Example C11_case : Permutation [(0%nat, 2); (1%nat, 3); (0%nat, 4)] [(0%nat, 4); (0%nat, 2); (1%nat, 3)].
Proof. apply Permutation_sym. apply (Permutation_cons_app [_; _] []). reflexivity. Qed.

(** ** C12 *)
Theorem C12_number_contributes_nothing : forall w, reachable w -> forall (n mu dx dy : R) u,
  let k := u_const n in
  u_n k = n /\ u_s k = 0 /\ u_var k = 0 /\
  u_cov k (w_var w u) = 0 /\ u_cov (w_var w u) k = 0 /\
  (forall v, w_last (fst (exec w (CConst v n))) = w_last w /\
             w_last (fst (exec w (CDefault v))) = w_last w) /\
  exists z z', u_binary (w_var w u) k mu dx dy = Ret z /\ u_binary k (w_var w u) mu dy dx = Ret z' /\
    same_value w z (u_unary (w_var w u) mu dx) /\ same_value w z' (u_unary (w_var w u) mu dx).
Proof. exact C12_number_contributes_nothing_proof. Qed.
Print Assumptions C12_number_contributes_nothing.
Theorem C12_zero_deviation : forall cs v (n : RN) w, legal cs ->
  (count_new (cs ++ [CNew v n 0%R]) <= max_new)%nat ->
  run w_init (cs ++ [CNew v n 0%R]) = Ret w -> forall u,
  u_n (w_var w v) = n /\ u_s (w_var w v) = 0 /\ u_cov (w_var w v) (w_var w u) = 0.
Proof. exact C12_zero_deviation_proof. Qed.
Print Assumptions C12_zero_deviation.
Example C12_case : legal demo /\ (count_new (demo ++ [CNew 0%nat 5%R 0%R]) <= max_new)%nat.
Proof. split; [exact demo_legal|apply max_new_ge; cbn; lia]. Qed.

(** ** C13 *)
Theorem C13_invalid_construction : forall (w : world RN) v n s,
  (snd (exec w (CNew v n s)) = Throw InvalidArgument <-> s < 0) /\
  (snd (exec w (CNew v n s)) = Ret tt <-> 0 <= s) /\
  (s < 0 -> forall u, w_var (fst (exec w (CNew v n s))) u = w_var w u) /\
  (0 <= s -> forall u, u <> v -> w_var (fst (exec w (CNew v n s))) u = w_var w u).
Proof. exact C13_invalid_construction_proof. Qed.
Print Assumptions C13_invalid_construction.
Example C13_case : (-1 < 0)%R /\ (0 <= 1)%R.
Proof. lra. Qed.

(** ** C14 *)
Theorem C14_change_nom : forall w, reachable w -> forall u n,
  let y := u_change_nom (w_var w u) n in
  u_n y = n /\ u_s y = u_s (w_var w u) /\ u_var y = u_var (w_var w u) /\
  u_isindep y = u_isindep (w_var w u) /\ u_indepid y = u_indepid (w_var w u) /\
  (forall t, u_cov y (w_var w t) = u_cov (w_var w u) (w_var w t)) /\
  (forall t, u_cov (w_var w t) y = u_cov (w_var w t) (w_var w u)) /\
  u_cov y y = u_cov (w_var w u) (w_var w u).
Proof. exact C14_change_nom_proof. Qed.
Print Assumptions C14_change_nom.
Theorem C14_convert_roundtrip : forall (M : Num) (c : RN -> M) (d : M -> RN),
  (forall a, d (c a) = a) ->
  forall w, reachable w -> forall v, u_convert d (u_convert c (w_var w v)) = w_var w v.
Proof. exact C14_convert_roundtrip_proof. Qed.
Print Assumptions C14_convert_roundtrip.
Theorem C14_convert_keeps_covariance : forall (N : Num) (c : N -> RN), hom c ->
  nltb (n0 : N) n0 = false ->
  forall cs : list (call N), Forall nary_ok cs -> (count_new cs <= max_new)%nat ->
  forall w, run w_init cs = Ret w -> forall u v,
  let x := w_var w u in let y := w_var w v in
  u_n (u_convert c x) = c (u_n x) /\
  u_isindep (u_convert c x) = u_isindep x /\ u_indepid (u_convert c x) = u_indepid x /\
  u_cov (u_convert c x) (u_convert c y) = c (u_cov x y).
Proof. exact C14_convert_keeps_covariance_proof. Qed.
Print Assumptions C14_convert_keeps_covariance.
Example C14_case : exists c : QN -> R, hom c /\ nltb (n0 : QN) n0 = false /\ c (nadd n1 n1 : QN) = 2.
Proof.
  exists Q2R. split; [|split; [reflexivity|]].
  - split; [unfold Q2R; cbn; lra|]. split; intros a b; cbn [nadd nmul QN T].
    + rewrite <- Qreals.Q2R_plus. apply Qreals.Qeq_eqR, QArith.Qreduction.Qred_correct.
    + rewrite <- Qreals.Q2R_mult. apply Qreals.Qeq_eqR, QArith.Qreduction.Qred_correct.
  - unfold Q2R; cbn. lra.
Qed.

(** ** C15: throws exactly when documented; the value is right when the object is the
    result of an operation with several operands; false in general. *)
Theorem C15_grad_throws_iff : forall cs w, legal cs -> run w_init cs = Ret w -> forall u v,
  u_grad (w_var w v) (w_var w u) = Throw InvalidArgument <->
  ~ (exists i, l_dep (s_var (spec_run s_init cs) u) i /\
               forall j, l_dep (s_var (spec_run s_init cs) u) j -> j = i).
Proof. exact C15_grad_throws_iff_proof. Qed.
Print Assumptions C15_grad_throws_iff.
Theorem C15_grad_partial : forall cs c v w, legal cs -> nary_ok c ->
  match c with CBinary t _ _ _ _ _ | CNary t _ _ _ | CAdd t _ _ | CSub t _ _ | CMul t _ _
             | CDiv t _ _ => t = v
             | CAssign t x _ _ _ | CAddA t x | CSubA t x | CMulA t x | CDivA t x => t = v /\ x <> v
             | _ => False end ->
  run w_init (cs ++ [c]) = Ret w ->
  let sw := spec_run s_init (cs ++ [c]) in
  forall u i, l_dep (s_var sw u) i -> (forall j, l_dep (s_var sw u) j -> j = i) ->
    l_coef (s_var sw u) i <> 0 ->
    u_grad (w_var w v) (w_var w u) = Ret (l_coef (s_var sw v) i / l_coef (s_var sw u) i).
Proof. exact C15_grad_partial_proof. Qed.
Print Assumptions C15_grad_partial.
(** The value for every variable: wrong exactly for those that hold an independent
    variable up to functions of one argument. *)
Theorem C15_grad_exact_partial : forall cs w, legal cs -> run w_init cs = Ret w -> forall u v i,
  let a := s_var (spec_run s_init cs) u in let b := s_var (spec_run s_init cs) v in
  l_dep a i -> (forall j, l_dep a j -> j = i) -> l_coef a i <> 0 ->
  u_grad (w_var w v) (w_var w u) = Ret (if lone cs v then 0 else l_coef b i / l_coef a i).
Proof. exact C15_grad_exact_partial_proof. Qed.
Print Assumptions C15_grad_exact_partial.
Example C15_exact_case : let cs := [CNew 0%nat 3 1; CNew 1%nat 4 2; CMul 2%nat 0%nat 1%nat; CNeg 3%nat 0%nat; CNeg 4%nat 2%nat] in
  map (lone cs) [0%nat; 1%nat; 2%nat; 3%nat; 4%nat] = [true; true; false; true; false].
Proof. cbn. destruct (Rlt_dec 1 0); [lra|]. destruct (Rlt_dec 2 0); [lra|]. reflexivity. Qed.
Theorem C15_grad_refuted : exists cs w u i, legal cs /\ run w_init cs = Ret w /\
  (let a := s_var (spec_run s_init cs) u in
   l_dep a i /\ (forall j, l_dep a j -> j = i) /\ l_coef a i <> 0 /\
   l_coef a i / l_coef a i = 1) /\
  u_grad (w_var w u) (w_var w u) = Ret 0.
Proof. exact C15_grad_refuted_proof. Qed.
Print Assumptions C15_grad_refuted.
Example C15_case : legal [CNew 0%nat 3 1; CNew 1%nat 4 2] /\
  let sw := spec_run s_init ([CNew 0%nat 3 1; CNew 1%nat 4 2] ++ [CMul 2%nat 0%nat 1%nat]) in
  l_dep (s_var sw 0%nat) 1%Z /\ (forall j, l_dep (s_var sw 0%nat) j -> j = 1%Z) /\
  l_coef (s_var sw 0%nat) 1%Z = 1 /\ l_coef (s_var sw 2%nat) 1%Z = 4.
Proof.
  split.
  - split; [repeat constructor|]. split; [cbn; decide_signs; cbn; tauto|apply max_new_ge; cbn; lia].
  - cbn. decide_signs. cbn. repeat split; auto; lra.
Qed.

(** ** C16 *)
Theorem C16_sub_self : forall w, reachable w -> forall u,
  exists z, u_sub (w_var w u) (w_var w u) = Ret z /\ u_n z = 0 /\ u_s z = 0 /\
            forall t, u_cov z (w_var w t) = 0.
Proof. exact C16_sub_self_proof. Qed.
Print Assumptions C16_sub_self.
Theorem C16_div_self : forall w, reachable w -> forall u, u_n (w_var w u) <> 0 ->
  exists z, u_div (w_var w u) (w_var w u) = Ret z /\ u_n z = 1 /\ u_s z = 0 /\
            forall t, u_cov z (w_var w t) = 0.
Proof. exact C16_div_self_proof. Qed.
Print Assumptions C16_div_self.
Theorem C16_commutative : forall w, reachable w -> forall u v,
  let x := w_var w u in let y := w_var w v in
  (exists a b, u_add x y = Ret a /\ u_add y x = Ret b /\ same_value w a b) /\
  (exists a b, u_mul x y = Ret a /\ u_mul y x = Ret b /\ same_value w a b).
Proof. exact C16_commutative_proof. Qed.
Print Assumptions C16_commutative.
Theorem C16_associative_distributive : forall w, reachable w -> forall t u v,
  let x := w_var w t in let y := w_var w u in let z := w_var w v in
  (exists xy yz a b, u_add x y = Ret xy /\ u_add xy z = Ret a /\
                     u_add y z = Ret yz /\ u_add x yz = Ret b /\ same_value w a b) /\
  (exists xy yz a b, u_mul x y = Ret xy /\ u_mul xy z = Ret a /\
                     u_mul y z = Ret yz /\ u_mul x yz = Ret b /\ same_value w a b) /\
  (exists yz a xy xz b, u_add y z = Ret yz /\ u_mul x yz = Ret a /\
                     u_mul x y = Ret xy /\ u_mul x z = Ret xz /\ u_add xy xz = Ret b /\
                     same_value w a b).
Proof. exact C16_associative_distributive_proof. Qed.
Print Assumptions C16_associative_distributive.
Theorem C16_inverse_operations : forall w, reachable w -> forall u v,
  let x := w_var w u in let y := w_var w v in
  same_value w (u_neg (u_neg x)) x /\
  (exists a b, u_add x x = Ret a /\ u_mul (u_const 2) x = Ret b /\ same_value w a b) /\
  (exists a b, u_sub x y = Ret a /\ u_add x (u_neg y) = Ret b /\ same_value w a b) /\
  (u_n y <> 0 ->
   exists q p, u_div x y = Ret q /\ u_mul q y = Ret p /\
     u_n p = u_n x /\ u_s p = u_s x /\ u_var p = u_var x /\
     forall t, u_cov p (w_var w t) = u_cov x (w_var w t)).
Proof. exact C16_inverse_operations_proof. Qed.
Print Assumptions C16_inverse_operations.
Example C16_case : exists w, reachable w /\ u_n (w_var w 1%nat) <> 0 /\ u_s (w_var w 1%nat) = 2.
Proof. destruct demo_world as (w & R' & E & H). exists w. tauto. Qed.

(** ** C46 *)
Theorem C46_no_undefined_behaviour : forall (N : Num), nltb (n0 : N) n0 = false ->
  forall cs : list (call N), Forall nary_ok cs -> (count_new cs <= max_new)%nat ->
  exists w, run w_init cs = Ret w /\
    (forall v, exists b, u_isindep (w_var w v) = Ret b) /\
    (forall v, exists i, u_indepid (w_var w v) = Ret i) /\
    (forall u v, (exists r, u_grad (w_var w u) (w_var w v) = Ret r) \/
                 u_grad (w_var w u) (w_var w v) = Throw InvalidArgument) /\
    (forall u v mu dx dy, exists z, u_binary (w_var w u) (w_var w v) mu dx dy = Ret z).
Proof. exact C46_no_undefined_behaviour_proof. Qed.
Print Assumptions C46_no_undefined_behaviour.
Example C46_case : nltb (n0 : RN) n0 = false /\ nltb (n0 : QN) n0 = false /\
  Forall nary_ok [CNew 0%nat 3 1; CNary 1%nat [0%nat; 0%nat] (fun ms => hd 0 ms) (fun ms => [1; 1])].
Proof.
  split; [cbn; destruct (Rltb_spec 0 0); [lra|reflexivity]|]. split; [reflexivity|].
  repeat constructor.
Qed.

(** ** C47 *)
Theorem C47_id_exhaustion_refuted :
  (exists cs : list (call RN), Forall nary_ok cs /\ count_new cs = S max_new /\ run w_init cs = UB) /\
  (exists (cs : list (call RN)) w v n s,
     count_new cs = S max_new /\ 0 <= s /\ run w_init (cs ++ [CNew v n s]) = Ret w /\
     u_indepid (w_var w v) = Ret 0%Z /\ u_var (w_var w v) = 1 /\ u_cov (w_var w v) (w_var w v) = 0).
Proof. exact C47_id_exhaustion_refuted_proof. Qed.
Print Assumptions C47_id_exhaustion_refuted.
