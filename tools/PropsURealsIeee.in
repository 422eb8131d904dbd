(** * PropsURealsIeee: ureals on doubles (C72)

    Generated from tools/PropsURealsIeee.in. *)

From Coq Require Import List ZArith Bool Reals Lra Lia.
From Flocq Require Import Core BinarySingleNaN.
From Verif Require Import Base Num UReal World Stat UReals SpecLDLT Ieee SpecIeee SpecLDLTIeee URealsAcc2 URealsAcc3.
Import ListNotations.
Local Open Scope R_scope.

(** ** C72 *)
@C72_accuracy
(** The matrix ((1, 2), (2, 8)), decomposed exactly with an exchange of the two variables. *)
Example C72_case : dreachable w_init /\ length two_cov = (2 * 2)%nat /\
  decomposes_up_to 2 (fun i j => real_of (nth (2 * i + j) two_cov dzero)) (fun _ _ => 0) two_ldlt.
Proof. split; [exact init_reach|]. split; [reflexivity|exact two_case]. Qed.
@C72_validates
(** The covariance matrix is not always reproduced exactly. *)
@C72_exact_refuted
