(** * PropsUReals: the properties of ureals.hpp (C19, C20)

    Generated from tools/PropsUReals.in. *)

From Coq Require Import List ZArith Bool Reals Lra Lia.
From Verif Require Import Base Num Map UReal World Sums SpecLin SpecObs Stat UReals SpecLDLT URealsProofs Demo.
Import ListNotations.
Local Open Scope R_scope.

(** ** C19 *)
Theorem C19_ureals_covariance : forall eigen w (mu cov : list RN),
  let n := length mu in
  reachable w -> (w_last w + Z.of_nat n <= 2147483646)%Z -> (0 < n)%nat ->
  length cov = (n * n)%nat ->
  (forall i j, (i < n)%nat -> (j < n)%nat -> nth (n * i + j) cov 0 = nth (n * j + i) cov 0) ->
  (forall V, ureals_V n cov = Ret V ->
     ld_ok (eigen n V) = true /\ ld_pos (eigen n V) = true /\
     decomposes n (fun i j => nth (n * i + j) cov 0) (eigen n V)) ->
  exists out, ureals eigen (w_last w) mu cov = ((w_last w + Z.of_nat n)%Z, Ret out) /\
    nom_vector out = mu /\ cov_matrix out = Ret cov /\
    forall x t, In x out -> u_cov x (w_var w t) = 0.
Proof. exact C19_ureals_covariance_proof. Qed.
Print Assumptions C19_ureals_covariance.
(** A 2x2 matrix whose decomposition exchanges the two variables. *)
Example C19_case :
  let d := mkLDLT (N := RN) true true (fun _ _ => 1 / 4) (fun k => if Nat.eqb k 0 then 8 else 1 / 2) (fun _ => 1%nat) in
  let cov := [1; 2; 2; 8] in
  reachable w_init /\
  (forall i j, (i < 2)%nat -> (j < 2)%nat -> nth (2 * i + j) cov 0 = nth (2 * j + i) cov 0) /\
  decomposes 2 (fun i j => nth (2 * i + j) cov 0) d.
Proof.
  intros d cov. split; [|split].
  - exists []. split; [|reflexivity]. split; [constructor|]. split; [exact I|]. apply max_new_ge. cbn. lia.
  - intros [|[|i]] [|[|j]] Hi Hj; try lia; reflexivity.
  - split; [|split].
    + intros; cbn; lia.
    + intros [|k] Hk; cbn; lra.
    + intros [|[|i]] [|[|j]] Hi Hj; try lia; cbn; lra.
Qed.

(** ** C20 *)
Theorem C20_ureals_validates : forall eigen last (mu cov : list RN),
  let n := length mu in
  let result := ureals eigen last mu cov in
  (snd result = Throw InvalidArgument <-> length cov <> (n * n)%nat) /\
  (snd result = Throw RuntimeError <->
     length cov = (n * n)%nat /\ (0 < n)%nat /\
     exists V, ureals_V n cov = Ret V /\ (ld_ok (eigen n V) = false \/ ld_pos (eigen n V) = false)) /\
  ((exists e, snd result = Throw e) -> fst result = last) /\
  (n = 0%nat -> cov = [] -> result = (last, Ret [])).
Proof. exact C20_ureals_validates_proof. Qed.
Print Assumptions C20_ureals_validates.
Theorem C20_ureals_ids : forall eigen last (mu cov : list RN) out,
  (0 <= last)%Z -> (last + Z.of_nat (length mu) <= 2147483646)%Z ->
  snd (ureals eigen last mu cov) = Ret out ->
  fst (ureals eigen last mu cov) = (last + Z.of_nat (length mu))%Z.
Proof. exact C20_ureals_ids_proof. Qed.
Print Assumptions C20_ureals_ids.
Theorem C20_ureals_one_triangle : forall (N : Num) eigen last (mu cov cov' : list N),
  length cov = length cov' ->
  (forall i j, (j <= i < length mu)%nat ->
     nth_error cov (i + length mu * j) = nth_error cov' (i + length mu * j)) ->
  ureals eigen last mu cov = ureals eigen last mu cov'.
Proof. exact C20_ureals_one_triangle_proof. Qed.
Print Assumptions C20_ureals_one_triangle.
Example C20_case : forall i j, (j <= i < 2)%nat ->
  nth_error [1; 2; 7; 8] (i + 2 * j) = nth_error [1; 2; 9; 8] (i + 2 * j).
Proof. intros [|[|i]] [|[|j]] H; try lia; reflexivity. Qed.
