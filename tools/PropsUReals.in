(** * PropsUReals: the properties of ureals.hpp (C19, C20)

    Generated from tools/PropsUReals.in. *)

From Coq Require Import List ZArith Bool Reals Lra Lia.
From Verif Require Import Base Num Map UReal World Sums SpecLin SpecObs Stat UReals SpecLDLT URealsProofs Demo.
Import ListNotations.
Local Open Scope R_scope.

(** ** C19 *)
@C19_ureals_covariance
(** A 2x2 matrix whose decomposition exchanges the two variables. *)
Example C19_case :
  let d := mkLDLT (N := RN) true true (fun _ _ => 1 / 4) (fun k => if Nat.eqb k 0 then 8 else 1 / 2) (fun _ => 1%nat) in
  let cov := [1; 2; 2; 8] in
  reachable w_init /\
  (forall i j, (i < 2)%nat -> (j < 2)%nat -> nth (2 * i + j) cov 0 = nth (2 * j + i) cov 0) /\
  decomposes 2 (fun i j => nth (2 * i + j) cov 0) d.
Proof.
  intros d cov. split; [|split].
  - exists []. split; [|reflexivity]. split; [constructor|]. split; [exact I|]. apply max_new_ge. cbn. lia.
  - intros [|[|i]] [|[|j]] Hi Hj; try lia; reflexivity.
  - split; [|split].
    + intros; cbn; lia.
    + intros [|k] Hk; cbn; lra.
    + intros [|[|i]] [|[|j]] Hi Hj; try lia; cbn; lra.
Qed.

(** ** C20 *)
@C20_ureals_validates
@C20_ureals_ids
@C20_ureals_one_triangle
Example C20_case : forall i j, (j <= i < 2)%nat ->
  nth_error [1; 2; 7; 8] (i + 2 * j) = nth_error [1; 2; 9; 8] (i + 2 * j).
Proof. intros [|[|i]] [|[|j]] H; try lia; reflexivity. Qed.
