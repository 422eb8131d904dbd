(** * PropsMem: the memory used by UReal (C85)

    Generated from tools/PropsMem.in. *)

From Coq Require Import List ZArith Reals Bool Lra Lia.
From Verif Require Import Base Num Map UReal World SpecLin SpecObs SpecOrder Alloc SpecAlloc SpecMem MemProofs Demo AllocDemo MemDemo.
Import ListNotations.
Local Open Scope R_scope.

(** ** C85: a variable computed with functions of two or more arguments holds one node for each independent variable
    it depends on (at most one for each variable ever constructed), the others hold none: copying to a variable that
    holds none allocates just that many. *)
@C85_memory_held
(** Constructors and queries never allocate.  A call that computes a new variable allocates as many nodes as
    the variable holds; a compound assignment, only those the left hand side did not have already. *)
@C85_allocations
(** Programs that only construct, copy and apply functions of one argument do not allocate at all. *)
@C85_one_operand_no_heap
Example C85_case : good_map_lib (reusing_lib RN) /\ legal (adem ++ [CAddA 2%nat 4%nat]) /\
  heap_free adem 0%nat = true /\ heap_free adem 2%nat = false /\ held adem 2%nat 2 /\ held adem 4%nat 0 /\
  held (adem ++ [CAddA 2%nat 4%nat]) 2%nat 3 /\
  (exists w, run w_init adem = Ret w /\ allocates (reusing_lib RN) w (CAddA 2%nat 4%nat) 1 /\
     allocates (reusing_lib RN) w (CMul 3%nat 2%nat 4%nat) 3 /\ allocates (reusing_lib RN) w (CCopy 3%nat 2%nat) 2) /\
  legal mdem /\ List.Forall (fun c => one_operand c = true) mdem.
Proof. exact mem_case. Qed.
