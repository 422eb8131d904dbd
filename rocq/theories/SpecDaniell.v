(** * SpecDaniell: expectations that come from a probability measure

    SpecProb.v asks only for a positive linear functional.  The expectation of a
    probability measure is also closed under minima and continuous along increasing
    sequences (monotone convergence; a Daniell integral). *)

From Coq Require Import Reals.
From Verif Require Import SpecProb.
Local Open Scope R_scope.

Definition daniell (P : prob) : Prop :=
  (forall f g, int P f -> int P g -> int P (fun o => Rmin (f o) (g o))) /\
  (forall (f : nat -> Om P -> R) (g : Om P -> R),
     (forall n, int P (f n)) -> int P g ->
     (forall n o, f n o <= f (S n) o) -> (forall o, Un_cv (fun n => f n o) (g o)) ->
     Un_cv (fun n => Ex P (f n)) (Ex P g)).
