(** * PropsMem: the memory used by UReal (C85)

    Generated from tools/PropsMem.in. *)

From Coq Require Import List ZArith Reals Bool Lra Lia.
From Verif Require Import Base Num Map UReal World SpecLin SpecObs SpecOrder Alloc SpecAlloc SpecMem MemProofs Demo AllocDemo MemDemo.
Import ListNotations.
Local Open Scope R_scope.

(** ** C85: a variable computed with functions of two or more arguments holds one node for each independent variable
    it depends on (at most one for each variable ever constructed), the others hold none: copying to a variable that
    holds none allocates just that many. *)
Theorem C85_memory_held : forall (L : map_lib RN) cs w v, good_map_lib L -> legal cs -> run w_init cs = Ret w ->
  exists n, held cs v n /\ (n <= count_new cs)%nat /\
    (forall u, u <> v -> heap_free cs u = true -> allocates L w (CCopy u v) n) /\
    (forall u k, (n <= k)%nat -> snd (exec_a L k w (CCopy u v)) = Some (Ret tt)).
Proof. exact C85_memory_held_proof. Qed.
Print Assumptions C85_memory_held.
(** Constructors and queries never allocate.  A call that computes a new variable allocates as many nodes as
    the variable holds; a compound assignment, only those the left hand side did not have already. *)
Theorem C85_allocations : forall (L : map_lib RN) cs c w, legal (cs ++ [c]) -> run w_init cs = Ret w ->
  (no_operands c = true -> allocates L w c 0) /\
  (no_operands c = false -> in_place c = false -> forall n, held (cs ++ [c]) (writes c) n -> allocates L w c n) /\
  (in_place c = true -> is_copy c = false -> forall n n',
     held cs (writes c) n -> held (cs ++ [c]) (writes c) n' -> (n <= n')%nat /\ allocates L w c (n' - n)).
Proof. exact C85_allocations_proof. Qed.
Print Assumptions C85_allocations.
(** Programs that only construct, copy and apply functions of one argument do not allocate at all. *)
Theorem C85_one_operand_no_heap : forall (L : map_lib RN) cs c w, good_map_lib L ->
  legal (cs ++ [c]) -> List.Forall (fun c => one_operand c = true) (cs ++ [c]) -> run w_init cs = Ret w ->
  allocates L w c 0 /\ forall k, exec_a L k w c = (fst (exec w c), Some (snd (exec w c))).
Proof. exact C85_one_operand_no_heap_proof. Qed.
Print Assumptions C85_one_operand_no_heap.
Example C85_case : good_map_lib (reusing_lib RN) /\ legal (adem ++ [CAddA 2%nat 4%nat]) /\
  heap_free adem 0%nat = true /\ heap_free adem 2%nat = false /\ held adem 2%nat 2 /\ held adem 4%nat 0 /\
  held (adem ++ [CAddA 2%nat 4%nat]) 2%nat 3 /\
  (exists w, run w_init adem = Ret w /\ allocates (reusing_lib RN) w (CAddA 2%nat 4%nat) 1 /\
     allocates (reusing_lib RN) w (CMul 3%nat 2%nat 4%nat) 3 /\ allocates (reusing_lib RN) w (CCopy 3%nat 2%nat) 2) /\
  legal mdem /\ List.Forall (fun c => one_operand c = true) mdem.
Proof. exact mem_case. Qed.
