(** * SpecThreads2: threads that use variables of both types *)

From Coq Require Import List ZArith.
From Verif Require Import Base Num UReal World HessGrad UReal2 World2 SpecOrder.
Import ListNotations.

(** No thread assigns a variable another thread uses.  (A call of s() or var() on a
    variable of type UReal that is not const counts as an assignment.) *)
Fixpoint separate2 {N : Num} (ts : list (list (call2 N))) : Prop :=
  match ts with
  | [] => True
  | t :: ts' => (forall t' a b, In t' ts' -> In a t -> In b t' -> unrelated2 a b) /\ separate2 ts'
  end.

(** [l] makes the calls of all the lists, those of each list in its order. *)
Inductive interleaving {A : Type} : list (list A) -> list A -> Prop :=
| il_done ts : (forall t, In t ts -> t = []) -> interleaving ts []
| il_next ts1 a t ts2 l : interleaving (ts1 ++ t :: ts2) l -> interleaving (ts1 ++ (a :: t) :: ts2) (a :: l).

(** The same counter and the same variables. *)
Definition same_state {N : Num} (w w' : world2 N) : Prop :=
  w2_last w = w2_last w' /\ (forall v, w_var (w2_w w) v = w_var (w2_w w') v) /\
  (forall v, w2_var w v = w2_var w' v).

(** At most one thread creates independent variables. *)
Fixpoint one_creates {N : Num} (ts : list (list (call2 N))) : Prop :=
  match ts with
  | [] => True
  | t :: ts' => (forall t' a b, In t' ts' -> In a t -> In b t' -> is_new2 a = false \/ is_new2 b = false) /\ one_creates ts'
  end.
