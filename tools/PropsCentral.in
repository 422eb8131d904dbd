(** * PropsCentral: central_moments and std_moments on doubles (C84)

    Generated from tools/PropsCentral.in. *)

From Coq Require Import List ZArith Bool Reals Lra Lia.
From Flocq Require Import Core BinarySingleNaN.
From Verif Require Import Base Num Distr SpecProb Ieee SpecIeee SpecMathIeee SpecAcc2 SpecAcc6 CentralAcc CentralAcc2 CentralAcc3 Demo3 DemoCentral.
Import ListNotations.
Local Open Scope R_scope.

(** ** C84 *)
@C84_central
@C84_variable
@C84_standardized
@C84_variance_refuted
(** A variable with two values, with moments 1 to 8 rounded to the nearest double; central moments 4, 5, ..., 5. *)
Example C84_case : (forall k, (1 <= k <= 8)%nat -> close uround (tight_d k) (Ex coin_expect (fun o => tight o ^ k))) /\
  (exists sm, std_moments (N := DN) (map (fun n => dofZ (five n)) (seq 2 7)) = Ret sm /\ close (22 * uround) (nth 5 sm (n0 (n := DN))) (5 / 256)).
Proof. split; [intros k Hk; rewrite tight_moment by exact Hk; now apply tight_close|exact std_case]. Qed.
