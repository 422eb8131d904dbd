(** * DemoCentral: concrete cases of C84 *)

From Coq Require Import List ZArith Bool Arith Reals Lra Lia.
From Flocq Require Import Core BinarySingleNaN.
From Verif Require Import Base Num Distr SpecProb Ieee SpecIeee SpecMathIeee IoAcc1 SpecAcc2 SpecAcc6 CentralAcc CentralAcc2 CentralAcc3 Demo3.
Import ListNotations.
Local Open Scope R_scope.

(** The two values 2^53 + 2 and 2^53 + 4 of CentralAcc3.v meet the hypotheses: the variance is
    known up to 6 roundings of 2^107, which exceeds it. *)
Example central_case : exists cm, central_moments (N := DN) (map tight_d (seq 1 8)) = Ret cm /\
  let c := nth 0 cm (n0 (n := DN)) in finite c /\
  approximates c (Ex coin_expect (fun o => (tight o - Ex coin_expect tight) ^ 2)) (size_central 0 (fun k => Ex coin_expect (fun o => tight o ^ k)) 2) (size_central tiny (fun k => Ex coin_expect (fun o => tight o ^ k)) 2) 6.
Proof.
  destruct (C84_variable_proof 1 coin_expect tight tight_d) as (cm & E & _ & B).
  - intros; exact I.
  - intros k Hk. cbv beta. rewrite tight_moment by exact Hk. replace ((1 + uround) ^ 1 - 1) with uround by ring. now apply tight_close.
  - exists cm. split; [exact E|]. cbv zeta. assert (F : finite (nth 0 cm (n0 (n := DN)))).
    { assert (Q : Ret cm = Ret (map (cexpr (N := DN) tight_d) (seq 2 7))) by (rewrite <- E; exact (central_list (N := DN) tight_d)). assert (I : forall a b : list DN, Ret a = Ret b -> a = b) by (intros a b K; now injection K). apply I in Q. rewrite Q. vm_compute. reflexivity. }
    split; [exact F|]. apply (B 2%nat); [lia|exact F].
Qed.

(** Central moments 4, 5, 5, ..., 5. *)
Definition five (n : nat) : Z := if Nat.eqb n 2 then 4 else 5.
Example std_case : exists sm, std_moments (N := DN) (map (fun n => dofZ (five n)) (seq 2 7)) = Ret sm /\
  close (22 * uround) (nth 5 sm (n0 (n := DN))) (5 / 256).
Proof.
  assert (S4 : sqrt 4 = 2) by (replace 4 with (2 * 2) by ring; apply sqrt_square; lra).
  destruct (C84_standardized_proof uround (fun n => IZR (five n)) (fun n => dofZ (five n))) as (sm & E & _ & B).
  - split; [lra|]. apply bpow_le. lia.
  - intros n Hn. destruct (dofZ_exact (five n)) as [F V]; [unfold five; destruct (Nat.eqb n 2); cbn; lia|]. split; [exact F|]. rewrite V, Rminus_eq_0, Rabs_R0.
    apply Rmult_le_pos; [apply bpow_ge_0|apply Rabs_pos].
  - change (IZR (five 2)) with (pow2 2). split; apply bpow_le; lia.
  - intros n Hn. right. change (IZR (five 2)) with 4. rewrite S4. replace (five n) with 5%Z by (do 3 (destruct n as [|n]; [lia|]); reflexivity).
    assert (P : pow2 (- Z.of_nat n) = / 2 ^ n).
    { unfold pow2. rewrite bpow_opp. apply f_equal. rewrite <- (IZR_Zpower radix2) by lia. now rewrite <- pow_IZR. }
    unfold Rdiv. rewrite <- P. assert (0 < pow2 (- Z.of_nat n)) by apply bpow_gt_0. rewrite Rabs_pos_eq by lra. split.
    + apply Rle_trans with (pow2 (- Z.of_nat n)); [apply bpow_le; lia|lra].
    + apply Rle_trans with (pow2 3 * pow2 0); [|unfold pow2; rewrite <- bpow_plus; apply bpow_le; lia].
      apply Rmult_le_compat; [lra|lra|change (pow2 3) with 8; lra|apply bpow_le; lia].
  - exists sm. split; [exact E|]. specialize (B 8%nat ltac:(lia)). change (8 - 3)%nat with 5%nat in B. change (IZR (five 2)) with 4 in B. change (IZR (five 8)) with 5 in B. rewrite S4 in B.
    replace (INR (3 * 8 - 2)) with 22 in B by (cbn; lra). replace (2 ^ 8) with 256 in B by (cbn; lra). exact B.
Qed.
