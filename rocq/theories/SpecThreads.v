(** * SpecThreads: threads that may run at the same time *)

From Coq Require Import List ZArith.
From Verif Require Import Base Num UReal World SpecOrder.
Import ListNotations.

(** No thread assigns a variable another thread uses.  (A call of s() or var() on a
    variable that is not const counts as an assignment: it stores the result.) *)
Fixpoint separate {N : Num} (ts : list (list (call N))) : Prop :=
  match ts with
  | [] => True
  | t :: ts' => (forall t' a b, In t' ts' -> In a t -> In b t' -> unrelated a b) /\ separate ts'
  end.

(** [n] steps in a row. *)
Inductive steps_n {A : Type} (R : A -> A -> Prop) : nat -> A -> A -> Prop :=
| steps_0 a : steps_n R 0 a a
| steps_S n a b c : R a b -> steps_n R n b c -> steps_n R (S n) a c.

(** A query of the standard deviation through a reference that is not const. *)
Definition queries {N : Num} (c : call N) (v : nat) : Prop := c = CS v \/ c = CVar v.
(** Nothing is left to store in the variable by s() or var(): it is an independent
    variable or it has a standard deviation stored. *)
Definition settled {N : Num} (x : ureal N) : Prop := (0 <= uid x)%Z \/ nltb (usdev x) n0 = false.

(** As [separate], but the variables in [K] may be queried freely by every thread. *)
Fixpoint separate_but {N : Num} (K : nat -> Prop) (ts : list (list (call N))) : Prop :=
  match ts with
  | [] => True
  | t :: ts' =>
      (forall t' a b, In t' ts' -> In a t -> In b t' ->
         (K (writes a) /\ queries a (writes a)) \/ (K (writes b) /\ queries b (writes b)) \/ unrelated a b) /\
      separate_but K ts'
  end.
Definition only_queried {N : Num} (K : nat -> Prop) (ts : list (list (call N))) : Prop :=
  forall t c, In t ts -> In c t -> K (writes c) -> queries c (writes c).
