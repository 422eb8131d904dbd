(** * CentralAcc3: a variable whose computed variance is negative (C84) *)

From Coq Require Import List ZArith Bool Arith Reals Lra Lia Psatz SpecFloat.
From Flocq Require Import Core BinarySingleNaN.
From Verif Require Import Base Num Distr SpecProb SpecCast ConvProofs.
From Verif Require Import Ieee IeeeFacts SpecIeee SpecMathIeee IoAcc1 SpecAcc2 Track SpecAcc6 CentralAcc CentralAcc2 Demo3.
Import ListNotations.
Local Open Scope R_scope.

(** X takes the values 2^53 + 2 and 2^53 + 4, both doubles, with equal probability. *)
Definition tight (o : bool) : R := if o then IZR (2 ^ 53 + 2) else IZR (2 ^ 53 + 4).
Definition tight_raw (k : nat) : Z := ((2 ^ 53 + 2) ^ Z.of_nat k + (2 ^ 53 + 4) ^ Z.of_nat k) / 2.
Definition tight_d (k : nat) : double := dofZ (tight_raw k).
Lemma tight_moment k : (1 <= k <= 8)%nat -> Ex coin_expect (fun o => tight o ^ k) = IZR (tight_raw k).
Proof.
  intro Hk. change ((IZR (2 ^ 53 + 2) ^ k + IZR (2 ^ 53 + 4) ^ k) / 2 = IZR (tight_raw k)). rewrite !pow_IZR, <- plus_IZR.
  assert (E : ((2 ^ 53 + 2) ^ Z.of_nat k + (2 ^ 53 + 4) ^ Z.of_nat k = tight_raw k * 2)%Z).
  { do 9 (destruct k as [|k]; [first [lia|vm_compute; reflexivity]|]). lia. }
  rewrite E, mult_IZR. field.
Qed.
Lemma tight_close k : (1 <= k <= 8)%nat -> close uround (tight_d k) (IZR (tight_raw k)).
Proof.
  intro Hk. assert (F : finite (tight_d k)) by (unfold finite, tight_d; do 9 (destruct k as [|k]; [first [lia|vm_compute; reflexivity]|]); lia).
  split; [exact F|]. destruct (rel_ofZ (tight_raw k)) as [_ R]. specialize (R F).
  assert (K : kZ (tight_raw k) = 1%nat) by (do 9 (destruct k as [|k]; [first [lia|vm_compute; reflexivity]|]); lia).
  rewrite K in R. unfold tight_d. rewrite pow_1 in R. lra.
Qed.
Lemma C84_variance_refuted_proof : exists (P : prob) (X : Om P -> R) (d : nat -> double),
  (forall k, (k <= 8)%nat -> int P (fun o => X o ^ k)) /\
  (forall k, (1 <= k <= 8)%nat -> close uround (d k) (Ex P (fun o => X o ^ k))) /\
  0 < Ex P (fun o => (X o - Ex P X) ^ 2) /\
  exists cm sm, central_moments (N := DN) (map d (seq 1 8)) = Ret cm /\ std_moments (N := DN) cm = Ret sm /\
    (exists c, nth_error cm 0 = Some c /\ finite c /\ real_of c < 0) /\ length sm = 6%nat /\ List.Forall (fun a : double => is_nan a = true) sm.
Proof.
  exists coin, tight, tight_d. split; [intros; exact I|]. split; [|split].
  { intros k Hk. change (close uround (tight_d k) (Ex coin_expect (fun o => tight o ^ k))). rewrite tight_moment by exact Hk. now apply tight_close. }
  { change (0 < ((IZR (2 ^ 53 + 2) - (IZR (2 ^ 53 + 2) + IZR (2 ^ 53 + 4)) / 2) ^ 2 + (IZR (2 ^ 53 + 4) - (IZR (2 ^ 53 + 2) + IZR (2 ^ 53 + 4)) / 2) ^ 2) / 2). cbn -[IZR Rplus Rmult Rminus Rdiv]. lra. }
  set (sm := map (fun n => ndiv (n := DN) (cexpr (N := DN) tight_d n) (snpow (N := DN) (cexpr (N := DN) tight_d 2) (n - 2))) (seq 3 6)).
  exists (map (cexpr (N := DN) tight_d) (seq 2 7)), sm. split; [exact (central_list (N := DN) tight_d)|].
  split; [exact (std_list (N := DN) (cexpr (N := DN) tight_d))|]. split; [|split].
  - exists (cexpr (N := DN) tight_d 2). split; [reflexivity|]. split; [vm_compute; reflexivity|].
    change (B2R (cexpr (N := DN) tight_d 2 : double) < 0). rewrite <- SF2R_B2SF.
    let v := eval vm_compute in (B2SF (cexpr (N := DN) tight_d 2 : double)) in replace (B2SF (cexpr (N := DN) tight_d 2 : double)) with v by (vm_compute; reflexivity).
    unfold SF2R, F2R. cbn -[IZR Rmult Rinv]. lra.
  - reflexivity.
  - unfold sm. cbn [map seq]. repeat constructor; vm_compute; reflexivity.
Qed.
