(** * SpecOrder: histories that differ by the order of unrelated calls

    Two calls are unrelated if neither assigns a variable the other one reads or
    assigns.  C++ leaves the order of many calls open (arguments of a function,
    operands of +, statements of different threads), so the results should not
    depend on it, although the ids of the independent variables do. *)

From Coq Require Import List ZArith Bool Reals.
From Verif Require Import Base Num Map UReal World HessGrad UReal2 World2 SpecU2 SpecU2Run.
Import ListNotations.

Section Calls.
  Context {N : Num}.

  (** The variable a call assigns. *)
  Definition writes (c : call N) : nat :=
    match c with
    | CNew v _ _ | CConst v _ | CDefault v | CCopy v _ | CChangeNom v _ _ | CUnary v _ _ _
    | CBinary v _ _ _ _ _ | CNary v _ _ _ | CAssign v _ _ _ _ | CNeg v _ | CAdd v _ _ | CSub v _ _
    | CMul v _ _ | CDiv v _ _ | CAddA v _ | CSubA v _ | CMulA v _ | CDivA v _ | CS v | CVar v => v
    end.
  (** The variables a call reads. *)
  Definition reads (c : call N) : list nat :=
    match c with
    | CNew _ _ _ | CConst _ _ | CDefault _ => []
    | CCopy _ x | CChangeNom _ x _ | CUnary _ x _ _ | CNeg _ x => [x]
    | CBinary _ x y _ _ _ | CAdd _ x y | CSub _ x y | CMul _ x y | CDiv _ x y => [x; y]
    | CNary _ xs _ _ => xs
    | CAssign v x _ _ _ | CAddA v x | CSubA v x | CMulA v x | CDivA v x => [v; x]
    | CS v | CVar v => [v]
    end.
  Definition unrelated (a b : call N) : Prop :=
    writes a <> writes b /\ ~ In (writes a) (reads b) /\ ~ In (writes b) (reads a).

  Definition writes2 (c : call2 N) : nat :=
    match c with
    | E1 c => writes c
    | ENew v _ _ _ | ENewStd v _ _ _ _ | EConst v _ | EDefault v | ECopy v _ | EUnary v _ _ _ _
    | EBinary v _ _ _ _ _ _ _ _ | ENeg v _ | EAdd v _ _ | ESub v _ _ | EMul v _ _ | EDiv v _ _ => v
    end.
  Definition reads2 (c : call2 N) : list nat :=
    match c with
    | E1 c => reads c
    | ENew _ _ _ _ | ENewStd _ _ _ _ _ | EConst _ _ | EDefault _ => []
    | ECopy _ x | EUnary _ x _ _ _ | ENeg _ x => [x]
    | EBinary _ x y _ _ _ _ _ _ | EAdd _ x y | ESub _ x y | EMul _ x y | EDiv _ x y => [x; y]
    end.
  (** A variable of type UReal and one of type UReal2 are different variables. *)
  Definition unrelated2 (a b : call2 N) : Prop :=
    match a, b with
    | E1 a, E1 b => unrelated a b
    | E1 _, _ | _, E1 _ => True
    | _, _ => writes2 a <> writes2 b /\ ~ In (writes2 a) (reads2 b) /\ ~ In (writes2 b) (reads2 a)
    end.
End Calls.

(** One history results from the other by exchanging, any number of times, two
    consecutive unrelated calls. *)
Inductive reordered {A : Type} (ind : A -> A -> Prop) : list A -> list A -> Prop :=
| reord_same l : reordered ind l l
| reord_swap l1 a b l2 : ind a b -> reordered ind (l1 ++ a :: b :: l2) (l1 ++ b :: a :: l2)
| reord_trans l l' l'' : reordered ind l l' -> reordered ind l' l'' -> reordered ind l l''.

(** A one to one renaming of the ids 1, ..., last. *)
Definition renaming (last : Z) (p : Z -> Z) : Prop :=
  (exists q, forall i, p (q i) = i /\ q (p i) = i) /\ (forall i, (i < 1 \/ last < i)%Z -> p i = i).

Local Open Scope R_scope.

(** Histories of UReal2 all of whose calls propagate mixed second derivatives
    (see [jet_covered]). *)
Fixpoint covered_run (eig : list (list RN) -> option (list RN)) (w : world2 RN) (cs : list (call2 RN)) : Prop :=
  match cs with
  | [] => True
  | c :: cs' => jet_covered (fun v => jet_of (w2_var w v)) c /\ covered_run eig (fst (exec2 eig w c)) cs'
  end.
