(** * PropsURealsIeee: ureals on doubles (C72)

    Generated from tools/PropsURealsIeee.in. *)

From Coq Require Import List ZArith Bool Reals Lra Lia.
From Flocq Require Import Core BinarySingleNaN.
From Verif Require Import Base Num UReal World Stat UReals SpecLDLT Ieee SpecIeee SpecLDLTIeee URealsAcc2 URealsAcc3.
Import ListNotations.
Local Open Scope R_scope.

(** ** C72 *)
Theorem C72_accuracy : forall eigen w (mu cov : list DN) (delta : nat -> nat -> R),
  let n := length mu in let A i j := real_of (nth (n * i + j) cov dzero) in
  dreachable w -> (w_last w + Z.of_nat n <= 2147483646)%Z -> (0 < n)%nat -> length cov = (n * n)%nat ->
  (forall V, ureals_V n cov = Ret V ->
     ld_ok (eigen n V) = true /\ ld_pos (eigen n V) = true /\ decomposes_up_to n A delta (eigen n V)) ->
  exists out C, ureals eigen (w_last w) mu cov = ((w_last w + Z.of_nat n)%Z, Ret out) /\ length out = n /\ cov_matrix out = Ret C /\
    (forall i, (i < n)%nat -> let x := nth i out u_default in
       (finite (nth i mu dzero) -> finite (u_n x) /\ real_of (u_n x) = real_of (nth i mu dzero)) /\
       u_var x = nth (n * i + i) C dzero /\ u_s x = dsqrt (nth (n * i + i) C dzero)) /\
    (forall i j, (i < n)%nat -> (j < n)%nat -> let c := nth (n * i + j) C dzero in
       finite c /\
       Rabs (real_of c - A i j) <=
         delta i j + ((1 + uround) ^ (n + 6) - 1) * sqrt ((A i i + delta i i) * (A j j + delta j j)) + INR n * pow2 (-1074)) /\
    (forall x t, In x out -> u_cov x (w_var w t) = dzero).
Proof. exact C72_accuracy_proof. Qed.
Print Assumptions C72_accuracy.
(** The matrix ((1, 2), (2, 8)), decomposed exactly with an exchange of the two variables. *)
Example C72_case : dreachable w_init /\ length two_cov = (2 * 2)%nat /\
  decomposes_up_to 2 (fun i j => real_of (nth (2 * i + j) two_cov dzero)) (fun _ _ => 0) two_ldlt.
Proof. split; [exact init_reach|]. split; [reflexivity|exact two_case]. Qed.
Theorem C72_validates : forall eigen last (mu cov : list DN),
  let n := length mu in
  let result := ureals eigen last mu cov in
  (snd result = Throw InvalidArgument <-> length cov <> (n * n)%nat) /\
  (snd result = Throw RuntimeError <->
     length cov = (n * n)%nat /\ (0 < n)%nat /\
     exists V, ureals_V n cov = Ret V /\ (ld_ok (eigen n V) = false \/ ld_pos (eigen n V) = false)) /\
  ((exists e, snd result = Throw e) -> fst result = last) /\
  (length cov = (n * n)%nat -> forall V, ureals_V n cov = Ret V -> ld_ok (eigen n V) = true -> ld_pos (eigen n V) = true ->
     (exists k, (k < n)%nat /\ Bleb dzero (ld_D (eigen n V) k) = false) -> snd result = Assert).
Proof. exact C72_validates_proof. Qed.
Print Assumptions C72_validates.
(** The covariance matrix is not always reproduced exactly. *)
Theorem C72_exact_refuted : exists eigen (mu cov : list DN) out C, length mu = 1%nat /\
  (forall V, ureals_V 1 cov = Ret V -> ld_ok (eigen 1%nat V) = true /\ ld_pos (eigen 1%nat V) = true /\
     decomposes_up_to 1 (fun i j => real_of (nth (1 * i + j) cov dzero)) (fun _ _ => 0) (eigen 1%nat V)) /\
  ureals eigen 0 mu cov = (1%Z, Ret out) /\ cov_matrix out = Ret C /\
  real_of (nth 0 cov dzero) < real_of (nth 0 C dzero).
Proof. exact C72_exact_refuted_proof. Qed.
Print Assumptions C72_exact_refuted.
