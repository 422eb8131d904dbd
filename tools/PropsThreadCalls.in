(** * PropsThreadCalls: threads that use the same variables (C69)

    Generated from tools/PropsThreadCalls.in. *)

From Coq Require Import List ZArith Reals Bool.
From Verif Require Import Base Num Map UReal World SpecLin SpecObs SpecOrder Demo AllocDemo ThreadCalls SpecThreads ThreadCallsProofs ThreadCallsProofs2.
Import ListNotations.
Local Open Scope R_scope.

(** ** C69: threads that do not assign what the others use never race. *)
@C69_no_data_race
(** What they leave is what the same calls leave one thread after the other. *)
@C69_threads
(** No thread ever waits for another one. *)
@C69_every_schedule_ends
Example C69_case : exists w0 c, legal (adem ++ concat tdem) /\ run w_init adem = Ret w0 /\ separate tdem /\
  csteps (start w0 tdem) c /\ finished c.
Proof. exact tdem_case. Qed.
(** Independent variables, and variables whose deviation has been computed, can be queried by all the threads. *)
@C69_shared_queries
Example C69_queries_case : exists w0 : world RN, run w_init (adem ++ [CS 2%nat]) = Ret w0 /\
  let K := fun v => v = 0%nat \/ v = 2%nat in
  let ts : list (list (call RN)) := [[CS 2%nat; CVar 0%nat]; [CVar 2%nat; CS 0%nat; CAdd 10%nat 0%nat 2%nat]] in
  (forall v, K v -> settled (w_var w0 v)) /\ separate_but K ts /\ only_queried K ts.
Proof. exact tdem_queries_case. Qed.
(** The others cannot: two threads that only query the same variable race. *)
@C69_two_queries_race
@C69_any_queries_refuted
