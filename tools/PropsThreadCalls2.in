(** * PropsThreadCalls2: threads that use variables of both types (C79)

    Generated from tools/PropsThreadCalls2.in. *)

From Coq Require Import List ZArith Reals Bool.
From Verif Require Import Base Num Map UReal World HessGrad Moments CheckMoments UReal2 World2 SpecOrder SpecU2Run Demo Demo2 ThreadCalls ThreadCalls2
  SpecThreads SpecThreads2 ThreadCalls2Proofs3 ThreadDemo2.
Import ListNotations.
Local Open Scope R_scope.

(** ** C79: threads that do not assign what the others use never race. *)
@C79_no_data_race
(** What they leave is exactly what the same calls leave one at a time, in some order. *)
@C79_one_after_the_other
Example C79_case : exists w c, legal2 (td_start ++ concat td_use) /\ run2 no_eig w2_init td_start = Ret w /\ separate2 td_use /\
  one_creates td_use /\ csteps2 no_eig (start2 w td_use) c /\ finished2 c.
Proof. exact td_use_case. Qed.
(** Any order that respects the one of each thread. *)
@C79_every_order_happens
(** If only one of the threads creates independent variables, the schedule does not matter. *)
@C79_any_schedule
(** If two of them do, it does (UReal2 loses mixed derivatives depending on the order of the ids, see C59). *)
@C79_several_creators_refuted
(** No thread ever waits for another one. *)
@C79_every_schedule_ends
(** A thread that assigns a variable races with one that only copies it. *)
@C79_shared_assignment_races
