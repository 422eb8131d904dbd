(** * PropsThreadCalls2: threads that use variables of both types (C79)

    Generated from tools/PropsThreadCalls2.in. *)

From Coq Require Import List ZArith Reals Bool.
From Verif Require Import Base Num Map UReal World HessGrad Moments CheckMoments UReal2 World2 SpecOrder SpecU2Run Demo Demo2 ThreadCalls ThreadCalls2
  SpecThreads SpecThreads2 ThreadCalls2Proofs3 ThreadDemo2.
Import ListNotations.
Local Open Scope R_scope.

(** ** C79: threads that do not assign what the others use never race. *)
Theorem C79_no_data_race : forall (N : Num) (eig : list (list N) -> option (list N)) w ts c,
  separate2 ts -> csteps2 eig (start2 w ts) c -> ~ race2 c.
Proof. exact C79_no_data_race_proof. Qed.
Print Assumptions C79_no_data_race.
(** What they leave is exactly what the same calls leave one at a time, in some order. *)
Theorem C79_one_after_the_other : forall (N : Num), nltb (n0 : N) n0 = false ->
  forall (eig : list (list N) -> option (list N)) pre ts w c,
  legal2 (pre ++ concat ts) -> run2 eig w2_init pre = Ret w -> separate2 ts -> csteps2 eig (start2 w ts) c -> finished2 c ->
  exists h w', interleaving ts h /\ run2 eig w h = Ret w' /\ same_state (with_counter (cf2_last c) (cf2_mem c)) w'.
Proof. exact C79_one_after_the_other_proof. Qed.
Print Assumptions C79_one_after_the_other.
Example C79_case : exists w c, legal2 (td_start ++ concat td_use) /\ run2 no_eig w2_init td_start = Ret w /\ separate2 td_use /\
  one_creates td_use /\ csteps2 no_eig (start2 w td_use) c /\ finished2 c.
Proof. exact td_use_case. Qed.
(** Any order that respects the one of each thread. *)
Theorem C79_every_order_happens : forall (N : Num) (eig : list (list N) -> option (list N)) w ts h w',
  interleaving ts h -> run2 eig w h = Ret w' ->
  exists c, csteps2 eig (start2 w ts) c /\ finished2 c /\ same_state (with_counter (cf2_last c) (cf2_mem c)) w'.
Proof. exact C79_every_order_happens_proof. Qed.
Print Assumptions C79_every_order_happens.
(** If only one of the threads creates independent variables, the schedule does not matter. *)
Theorem C79_any_schedule : forall (N : Num) (eig : list (list N) -> option (list N)) w ts c c',
  separate2 ts -> one_creates ts -> csteps2 eig (start2 w ts) c -> finished2 c -> csteps2 eig (start2 w ts) c' -> finished2 c' ->
  same_state (with_counter (cf2_last c) (cf2_mem c)) (with_counter (cf2_last c') (cf2_mem c')).
Proof. exact C79_any_schedule_proof. Qed.
Print Assumptions C79_any_schedule.
(** If two of them do, it does (UReal2 loses mixed derivatives depending on the order of the ids, see C59). *)
Theorem C79_several_creators_refuted : exists eig (pre post : list (call2 RN)) ts w c c' w1 w1' v,
  legal2 (pre ++ concat ts ++ post) /\ run2 eig w2_init pre = Ret w /\ separate2 ts /\
  csteps2 eig (start2 w ts) c /\ finished2 c /\ csteps2 eig (start2 w ts) c' /\ finished2 c' /\
  run2 eig (with_counter (cf2_last c) (cf2_mem c)) post = Ret w1 /\
  run2 eig (with_counter (cf2_last c') (cf2_mem c')) post = Ret w1' /\
  u2_var (w2_var w1 v) = Ret 4 /\ u2_var (w2_var w1' v) = Ret 3.
Proof. exact C79_several_creators_refuted_proof. Qed.
Print Assumptions C79_several_creators_refuted.
(** No thread ever waits for another one. *)
Theorem C79_every_schedule_ends : forall (N : Num) (eig : list (list N) -> option (list N)) w ts, exists n, forall k c,
  steps_n (cstep2 eig) k (start2 w ts) c -> (k <= n)%nat /\ (finished2 c \/ exists c', cstep2 eig c c').
Proof. exact C79_every_schedule_ends_proof. Qed.
Print Assumptions C79_every_schedule_ends.
(** A thread that assigns a variable races with one that only copies it. *)
Theorem C79_shared_assignment_races : forall (N : Num) (eig : list (list N) -> option (list N)) (w : world2 N) u v n,
  exists c, csteps2 eig (start2 w [[EConst v n]; [ECopy u v]]) c /\ race2 c.
Proof. exact C79_shared_assignment_races_proof. Qed.
Print Assumptions C79_shared_assignment_races.
