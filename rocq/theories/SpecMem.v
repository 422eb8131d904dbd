(** * SpecMem: vocabulary for the statements about the memory used by UReal

    How much memory a variable holds is told by the history of the program and by
    the set of independent variables it depends on (SpecLin.v). *)

From Coq Require Import List ZArith Bool Reals.
From Verif Require Import Base Num UReal World SpecLin SpecOrder Alloc SpecAlloc.
Import ListNotations.

(** [a] depends on [n] independent variables. *)
Definition num_deps (a : lin) (n : nat) : Prop :=
  exists l : list Z, NoDup l /\ length l = n /\ forall i, In i l <-> l_dep a i.

(** The variables that were constructed, or computed from those with functions of
    one argument only: [hf] says which ones before the call. *)
Definition heap_free_after (hf : nat -> bool) (c : call RN) : nat -> bool :=
  let put v b := fun u => if Nat.eqb u v then b else hf u in
  match c with
  | CNew v _ s => if Rlt_dec s 0 then hf else put v true
  | CConst v _ | CDefault v => put v true
  | CCopy v x | CChangeNom v x _ | CUnary v x _ _ | CNeg v x => put v (hf x)
  | CBinary v _ _ _ _ _ | CNary v _ _ _ | CAdd v _ _ | CSub v _ _ | CMul v _ _ | CDiv v _ _ => put v false
  | CAssign v x _ _ _ | CAddA v x | CSubA v x | CMulA v x | CDivA v x =>
      if Nat.eqb v x then hf else put v false
  | CS _ | CVar _ => hf
  end.
Definition heap_free (cs : list (call RN)) : nat -> bool := fold_left heap_free_after cs (fun _ => true).

(** The number of nodes the variable [v] holds after the history [cs]. *)
Definition held (cs : list (call RN)) (v n : nat) : Prop :=
  if heap_free cs v then n = 0%nat else num_deps (s_var (spec_run s_init cs) v) n.

(** The call performs exactly [n] allocations: it throws std::bad_alloc if and only
    if less than [n] of them succeed. *)
Definition allocates (L : map_lib RN) (w : world RN) (c : call RN) (n : nat) : Prop :=
  forall k, snd (exec_a L k w c) = None <-> (k < n)%nat.

(** The calls that do not compute anything from variables. *)
Definition no_operands {N : Num} (c : call N) : bool :=
  match c with CNew _ _ _ | CConst _ _ | CDefault _ | CS _ | CVar _ => true | _ => false end.
(** The calls with at most one variable among the operands. *)
Definition one_operand (c : call RN) : bool :=
  match c with
  | CNew _ _ _ | CConst _ _ | CDefault _ | CS _ | CVar _ | CCopy _ _ | CChangeNom _ _ _ | CUnary _ _ _ _ | CNeg _ _ => true
  | _ => false
  end.
Definition is_copy {N : Num} (c : call N) : bool := match c with CCopy _ _ => true | _ => false end.
