(** * Base: outcomes of C++ calls

    Every function of the library that can fail is modelled as a function into
    [outcome].  Undefined behaviour and failed assertions are outcomes of their
    own, so their absence is something to prove. *)

From Coq Require Import List ZArith Bool.
Import ListNotations.

(** The C++ exceptions the library throws. *)
Inductive exn : Type :=
| InvalidArgument   (* std::invalid_argument *)
| RuntimeError.     (* std::runtime_error *)

Inductive outcome (A : Type) : Type :=
| Ret (a : A)            (* normal return *)
| Throw (e : exn)        (* exception *)
| UB                     (* undefined behaviour: an end iterator is dereferenced *)
| Assert.                (* an assert(...) in the code fails (builds without NDEBUG) *)
Arguments Ret {A} a.
Arguments Throw {A} e.
Arguments UB {A}.
Arguments Assert {A}.

Definition bind {A B : Type} (o : outcome A) (f : A -> outcome B) : outcome B :=
  match o with
  | Ret a => f a
  | Throw e => Throw e
  | UB => UB
  | Assert => Assert
  end.

Declare Scope outcome_scope.
Delimit Scope outcome_scope with out.
Notation "x <- o ;; k" := (bind o (fun x => k))
  (at level 100, o at next level, right associativity) : outcome_scope.
Notation "' p <- o ;; k" := (bind o (fun x => let p := x in k))
  (at level 100, p pattern, o at next level, right associativity) : outcome_scope.
Open Scope outcome_scope.

Definition omap {A B : Type} (f : A -> B) (o : outcome A) : outcome B :=
  bind o (fun a => Ret (f a)).

(** assert(b) *)
Definition assert_ (b : bool) : outcome unit := if b then Ret tt else Assert.

(** Left fold with failure: a C++ loop over a sequence. *)
Fixpoint ofold {A B : Type} (f : A -> B -> outcome A) (l : list B) (a : A) : outcome A :=
  match l with
  | [] => Ret a
  | b :: l' => bind (f a b) (ofold f l')
  end.

(** Evaluate a list of failing computations from left to right. *)
Fixpoint omapM {A B : Type} (f : A -> outcome B) (l : list A) : outcome (list B) :=
  match l with
  | [] => Ret []
  | a :: l' => bind (f a) (fun b => bind (omapM f l') (fun bs => Ret (b :: bs)))
  end.
