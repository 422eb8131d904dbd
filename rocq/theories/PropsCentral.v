(** * PropsCentral: central_moments and std_moments on doubles (C84)

    Generated from tools/PropsCentral.in. *)

From Coq Require Import List ZArith Bool Reals Lra Lia.
From Flocq Require Import Core BinarySingleNaN.
From Verif Require Import Base Num Distr SpecProb Ieee SpecIeee SpecMathIeee SpecAcc2 SpecAcc6 CentralAcc CentralAcc2 CentralAcc3 Demo3 DemoCentral.
Import ListNotations.
Local Open Scope R_scope.

(** ** C84 *)
Theorem C84_central : forall k0 (z : nat -> R) (d : nat -> double), z 0%nat = 1 -> (forall k, (1 <= k <= 8)%nat -> close ((1 + uround) ^ k0 - 1) (d k) (z k)) ->
  exists cm, central_moments (N := DN) (map d (seq 1 8)) = Ret cm /\ length cm = 7%nat /\
  forall n, (2 <= n <= 8)%nat -> let c := nth (n - 2) cm (n0 (n := DN)) in
    finite c -> approximates c (central z n) (size_central 0 z n) (size_central tiny z n) (n * (2 + k0)).
Proof. exact C84_central_proof. Qed.
Print Assumptions C84_central.
Theorem C84_variable : forall k0 (P : expect) (X : Om P -> R) (d : nat -> double),
  (forall k, (k <= 8)%nat -> int P (fun o => X o ^ k)) ->
  let z k := Ex P (fun o => X o ^ k) in
  (forall k, (1 <= k <= 8)%nat -> close ((1 + uround) ^ k0 - 1) (d k) (z k)) ->
  exists cm, central_moments (N := DN) (map d (seq 1 8)) = Ret cm /\ length cm = 7%nat /\
  forall n, (2 <= n <= 8)%nat -> let c := nth (n - 2) cm (n0 (n := DN)) in
    finite c -> approximates c (Ex P (fun o => (X o - Ex P X) ^ n)) (size_central 0 z n) (size_central tiny z n) (n * (2 + k0)).
Proof. exact C84_variable_proof. Qed.
Print Assumptions C84_variable.
Theorem C84_standardized : forall e (r : nat -> R) (d : nat -> double), uround <= e <= pow2 (-20) ->
  (forall n, (2 <= n <= 8)%nat -> close e (d n) (r n)) -> pow2 (-200) <= r 2%nat <= pow2 200 ->
  (forall n, (3 <= n <= 8)%nat -> regular (r n / sqrt (r 2%nat) ^ n)) ->
  exists sm, std_moments (N := DN) (map d (seq 2 7)) = Ret sm /\ length sm = 6%nat /\
  forall n, (3 <= n <= 8)%nat -> close (INR (3 * n - 2) * e) (nth (n - 3) sm (n0 (n := DN))) (r n / sqrt (r 2%nat) ^ n).
Proof. exact C84_standardized_proof. Qed.
Print Assumptions C84_standardized.
Theorem C84_variance_refuted : exists (P : prob) (X : Om P -> R) (d : nat -> double),
  (forall k, (k <= 8)%nat -> int P (fun o => X o ^ k)) /\
  (forall k, (1 <= k <= 8)%nat -> close uround (d k) (Ex P (fun o => X o ^ k))) /\
  0 < Ex P (fun o => (X o - Ex P X) ^ 2) /\
  exists cm sm, central_moments (N := DN) (map d (seq 1 8)) = Ret cm /\ std_moments (N := DN) cm = Ret sm /\
    (exists c, nth_error cm 0 = Some c /\ finite c /\ real_of c < 0) /\ length sm = 6%nat /\ List.Forall (fun a : double => is_nan a = true) sm.
Proof. exact C84_variance_refuted_proof. Qed.
Print Assumptions C84_variance_refuted.
(** A variable with two values, with moments 1 to 8 rounded to the nearest double; central moments 4, 5, ..., 5. *)
Example C84_case : (forall k, (1 <= k <= 8)%nat -> close uround (tight_d k) (Ex coin_expect (fun o => tight o ^ k))) /\
  (exists sm, std_moments (N := DN) (map (fun n => dofZ (five n)) (seq 2 7)) = Ret sm /\ close (22 * uround) (nth 5 sm (n0 (n := DN))) (5 / 256)).
Proof. split; [intros k Hk; rewrite tight_moment by exact Hk; now apply tight_close|exact std_case]. Qed.
