(** * PropsAlloc2: calls on UReal2 that run out of memory (C80)

    Generated from tools/PropsAlloc2.in. *)

From Coq Require Import List ZArith Reals Bool Lra Lia.
From Verif Require Import Base Num Map UReal World SpecObs SpecOrder HessGrad Moments CheckMoments UReal2 World2 SpecU2 SpecU2Run U2Proofs
  Alloc SpecAlloc Alloc2 SpecAlloc2 Alloc2Proofs Alloc2Proofs2 Alloc2Proofs3 Demo Demo2 AllocDemo2.
Import ListNotations.
Local Open Scope R_scope.

(** ** C80: a call that succeeds does what it always does, and succeeds if there is memory for the derivatives. *)
@C80_enough_memory
(** A call that fails leaves all variables alone, except the left hand side of [v = x], and except what C68 says of UReal. *)
@C80_failed_call_no_effect
(** If the calls that fail are neither assignments in place nor constructions, the program is in the state it would be in without them. *)
@C80_as_if_not_called
(** Missing from the full statement (after any failures the program can go on): what a failed [v = x] left in v must not be used. *)
@C80_no_undefined_behaviour_partial
(** With the std::map of libstdc++ and with that of libc++, using it runs into an assertion; or it has the old mean
    and the new derivatives. *)
@C80_failed_assignment_refuted
Example C80_case : nltb (n0 : RN) n0 = false /\ good_libs (libstdcxx RN) /\ good_libs (libcxx RN) /\
  legal2 (map fst adem3) /\ careful no_eig (libstdcxx RN) none_broken w2_init adem3 /\
  snd (exec2_a no_eig (libstdcxx RN) 0 adem3_w (ECopy 1%nat 0%nat)) = None /\
  broken_by no_eig (libstdcxx RN) none_broken w2_init (firstn 3 adem3) 1%nat = true /\
  broken_by no_eig (libstdcxx RN) none_broken w2_init adem3 1%nat = false /\
  room 3 = 6%nat.
Proof.
  split; [exact Rltb_00|]. split; [apply libs_good; now left|]. split; [apply libs_good; now right|].
  split; [exact adem3_legal|]. destruct adem3_careful as (A & B & C & D). exact (conj A (conj B (conj C (conj D eq_refl)))).
Qed.
(** A history in which a negation fails and leaves no trace. *)
Example C80_not_called_case :
  let cs := [(ENewStd 0%nat 1 1 gauss (-1), 1%nat); (ENeg 2%nat 0%nat, 0%nat); (EConst 3%nat 2, 0%nat)] in
  fails_well no_eig (libstdcxx RN) w2_init cs /\
  done_calls no_eig (libstdcxx RN) w2_init cs = [ENewStd 0%nat 1 1 gauss (-1); EConst 3%nat 2].
Proof. exact adem4_fails. Qed.
