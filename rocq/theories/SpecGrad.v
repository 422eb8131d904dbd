(** * SpecGrad: variables that hold an independent variable up to functions of one argument

    For C15: [grad] does not see these. *)

From Coq Require Import List Reals.
From Verif Require Import Base Num UReal World.
Import ListNotations.
Local Open Scope R_scope.

Definition lset (L : nat -> bool) (v : nat) (b : bool) : nat -> bool := fun u => if Nat.eqb u v then b else L u.

(** Constructions make them; copies and functions of one argument keep the kind;
    everything with two operands makes the other kind, except v op= v. *)
Definition lone_exec (L : nat -> bool) (c : call RN) : nat -> bool :=
  match c with
  | CNew v _ s => if Rlt_dec s 0 then L else lset L v true
  | CConst v _ | CDefault v => lset L v false
  | CCopy v x | CChangeNom v x _ | CUnary v x _ _ | CNeg v x => lset L v (L x)
  | CBinary v _ _ _ _ _ | CNary v _ _ _ | CAdd v _ _ | CSub v _ _ | CMul v _ _ | CDiv v _ _ => lset L v false
  | CAssign v x _ _ _ | CAddA v x | CSubA v x | CMulA v x | CDivA v x => lset L v (if Nat.eqb v x then L v else false)
  | CS _ | CVar _ => L
  end.
Definition lone (cs : list (call RN)) : nat -> bool := fold_left lone_exec cs (fun _ => false).
