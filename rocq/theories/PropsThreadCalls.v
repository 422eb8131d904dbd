(** * PropsThreadCalls: threads that use the same variables (C69)

    Generated from tools/PropsThreadCalls.in. *)

From Coq Require Import List ZArith Reals Bool.
From Verif Require Import Base Num Map UReal World SpecLin SpecObs SpecOrder Demo AllocDemo ThreadCalls SpecThreads ThreadCallsProofs ThreadCallsProofs2.
Import ListNotations.
Local Open Scope R_scope.

(** ** C69: threads that do not assign what the others use never race. *)
Theorem C69_no_data_race : forall (N : Num) (w : world N) ts c, separate ts -> csteps (start w ts) c -> ~ race c.
Proof. exact C69_no_data_race_proof. Qed.
Print Assumptions C69_no_data_race.
(** What they leave is what the same calls leave one thread after the other. *)
Theorem C69_threads : forall pre ts w0 c, legal (pre ++ concat ts) -> run w_init pre = Ret w0 -> separate ts ->
  csteps (start w0 ts) c -> finished c ->
  exists w p, run w_init (pre ++ concat ts) = Ret w /\ renaming (w_last w) p /\ cf_last c = w_last w /\
    forall u v, let x := w_var w u in let y := w_var w v in let x' := cf_mem c u in let y' := cf_mem c v in
      u_n x' = u_n x /\ u_s x' = u_s x /\ u_var x' = u_var x /\
      u_cov x' y' = u_cov x y /\ u_corr x' y' = u_corr x y /\ u_isindep x' = u_isindep x /\
      exists i, u_indepid x = Ret i /\ u_indepid x' = Ret (p i).
Proof. exact C69_threads_proof. Qed.
Print Assumptions C69_threads.
(** No thread ever waits for another one. *)
Theorem C69_every_schedule_ends : forall (N : Num) (w : world N) ts, exists n, forall k c,
  steps_n cstep k (start w ts) c -> (k <= n)%nat /\ (finished c \/ exists c', cstep c c').
Proof. exact C69_every_schedule_ends_proof. Qed.
Print Assumptions C69_every_schedule_ends.
Example C69_case : exists w0 c, legal (adem ++ concat tdem) /\ run w_init adem = Ret w0 /\ separate tdem /\
  csteps (start w0 tdem) c /\ finished c.
Proof. exact tdem_case. Qed.
(** Independent variables, and variables whose deviation has been computed, can be queried by all the threads. *)
Theorem C69_shared_queries : forall (N : Num) (K : nat -> Prop) (w : world N) ts c,
  (forall v, K v -> settled (w_var w v)) -> separate_but K ts -> only_queried K ts ->
  csteps (start w ts) c -> ~ race c /\ forall v, K v -> cf_mem c v = w_var w v.
Proof. exact C69_shared_queries_proof. Qed.
Print Assumptions C69_shared_queries.
Example C69_queries_case : exists w0 : world RN, run w_init (adem ++ [CS 2%nat]) = Ret w0 /\
  let K := fun v => v = 0%nat \/ v = 2%nat in
  let ts : list (list (call RN)) := [[CS 2%nat; CVar 0%nat]; [CVar 2%nat; CS 0%nat; CAdd 10%nat 0%nat 2%nat]] in
  (forall v, K v -> settled (w_var w0 v)) /\ separate_but K ts /\ only_queried K ts.
Proof. exact tdem_queries_case. Qed.
(** The others cannot: two threads that only query the same variable race. *)
Theorem C69_two_queries_race : forall (N : Num) (w : world N) v, ~ settled (w_var w v) ->
  exists c, csteps (start w [[CS v]; [CS v]]) c /\ race c.
Proof. exact C69_two_queries_race_proof. Qed.
Print Assumptions C69_two_queries_race.
Theorem C69_any_queries_refuted : exists (pre : list (call RN)) w0 v c,
  legal pre /\ run w_init pre = Ret w0 /\ csteps (start w0 [[CS v]; [CS v]]) c /\ race c.
Proof. exact C69_any_queries_refuted_proof. Qed.
Print Assumptions C69_any_queries_refuted.
