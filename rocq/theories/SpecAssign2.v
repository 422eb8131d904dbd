(** * SpecAssign2: histories with binary_assign of UReal2, for C35 *)

From Coq Require Import List ZArith.
From Verif Require Import Base Num UReal World HessGrad Moments UReal2 World2 World2Assign SpecU2Run.
Import ListNotations.

Section SpecAssign2.
  Context {N : Num}.
  (** The calls other than binary_assign. *)
  Definition plain3 (cs : list (call3 N)) : list (call2 N) :=
    flat_map (fun c => match c with F2 c => [c] | _ => [] end) cs.
  Definition legal3 (cs : list (call3 N)) : Prop := legal2 (plain3 cs).
End SpecAssign2.
