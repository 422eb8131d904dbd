(** * PropsAlloc: calls that run out of memory (C68)

    Generated from tools/PropsAlloc.in. *)

From Coq Require Import List ZArith Reals Bool Lra Lia.
From Verif Require Import Base Num Map UReal World SpecLin SpecObs SpecOrder Alloc SpecAlloc AllocProofs AllocProofs2 Demo AllocDemo.
Import ListNotations.
Local Open Scope R_scope.

(** ** C68: a call that succeeds does what it always does, and succeeds if there is enough memory. *)
@C68_enough_memory
(** A call that fails leaves all variables alone, except the left hand side of [v = x] and of the compound
    assignments. *)
@C68_failed_call_no_effect
(** After any number of failed calls nothing is undefined. *)
@C68_no_undefined_behaviour
(** What a failed compound assignment leaves: the mean, and the coefficients with respect to a part of the
    variables, are those before and after the call. *)
@C68_failed_compound_partial
(** Adding or subtracting a variable that depends on one independent variable only either succeeds or has no effect. *)
@C68_failed_add_partial
(** In general the left hand side is left with a deviation that is not the one of its coefficients. *)
@C68_failed_assignment_refuted
Example C68_case : good_map_lib (reusing_lib RN) /\ legal adem /\ exists w, run w_init adem = Ret w /\
  u_isindep (w_var w 4%nat) = Ret true /\
  (exists w', exec_a (reusing_lib RN) 0 w (CAddA 2%nat 4%nat) = (w', None)) /\
  (exists w', exec_a (reusing_lib RN) 1 w (CAddA 2%nat 4%nat) = (w', Some (Ret tt))) /\
  (exists w', exec_a (reusing_lib RN) 2 w (CMul 2%nat 2%nat 4%nat) = (w', None)) /\
  (exists w', exec_a (reusing_lib RN) 1 w (CAssign 3%nat 2%nat Rplus (fun _ _ => 1) (fun _ _ => 1)) = (w', None)).
Proof.
  split; [apply reusing_lib_good|]. split; [exact adem_legal|].
  destruct adem_run as (w & E & _ & H). exists w. split; [exact E|].
  cbn [exec_a]. unfold u_mul. rewrite !H. split; [reflexivity|].
  assert (D : Reqb 1 1 = true) by (destruct (Reqb_spec 1 1); [reflexivity|lra]).
  cbn -[IZR]. rewrite !D. cbn -[IZR]. repeat split; eexists; reflexivity.
Qed.
