(** * DemoIeee: a concrete history on doubles *)

From Coq Require Import List ZArith Reals Bool Lra Lia SpecFloat.
From Flocq Require Import Core BinarySingleNaN.
From Verif Require Import Base Num Map UReal World SpecObs HessGrad World2 SpecU2Run Ieee SpecIeee Demo IeeeProofs5.
Import ListNotations.
Local Open Scope R_scope.

(** x = UReal(3, 1); y = UReal(7, 2); z = x + y; z.s(); z *= x *)
Definition ddemo : list (call DN) :=
  [CNew 0%nat (d 3) (d 1); CNew 1%nat (d 7) (d 2); CAdd 2%nat 0%nat 1%nat; CS 2%nat; CMulA 2%nat 0%nat].
Definition dworld : world DN := after ddemo.
Lemma ddemo_legal : dlegal ddemo.
Proof. apply dlegal_small; [repeat constructor|cbn; lia]. Qed.
Lemma ddemo_run : run w_init ddemo = Ret dworld. Proof. ran. Qed.
Lemma dworld_reach : dreachable dworld. Proof. exists ddemo. split; [exact ddemo_legal|exact ddemo_run]. Qed.
Lemma ddemo_no_self : List.Forall (fun c => self_assign c = false) ddemo. Proof. repeat constructor. Qed.
Lemma small_no_overflow r : Rabs r <= pow2 1000 -> no_overflow r.
Proof.
  intro Hr. unfold no_overflow, nearest. apply Rle_lt_trans with (pow2 1000); [|apply bpow_lt; lia].
  apply abs_round_le_generic; [apply FLT_exp_valid; reflexivity|apply valid_rnd_N| |exact Hr]. apply generic_format_bpow. unfold FLT_exp. lia.
Qed.
Lemma pow2_big : 1000000 <= pow2 1000.
Proof. apply Rle_trans with (pow2 20); [unfold pow2; cbn -[IZR]; lra|apply bpow_le; lia]. Qed.
Lemma pow2_tiny : pow2 (-511) <= 1 / 1000000.
Proof. apply Rle_trans with (pow2 (-20)); [apply bpow_le; lia|unfold pow2; cbn -[IZR Rinv]; lra]. Qed.
Lemma x_mean : real_of (u_n (w_var dworld 0%nat)) = 3. Proof. realval; lra. Qed.
Lemma y_mean : real_of (u_n (w_var dworld 1%nat)) = 7. Proof. realval; lra. Qed.
Lemma z_mean : real_of (u_n (w_var dworld 2%nat)) = 30. Proof. realval; lra. Qed.
Lemma y_dev : real_of (u_s (w_var dworld 1%nat)) = 2. Proof. realval; lra. Qed.
(** the coefficients of z = (x + y) x are 13 and 6 *)
Lemma z_coefs : map real_of (coefs (w_var dworld 2%nat)) = [13; 6].
Proof.
  rewrite (map_ext _ _ real_SF). rewrite <- (map_map (fun a : double => B2SF a) (SF2R radix2)).
  replace (map (fun a : double => B2SF a) (coefs (w_var dworld 2%nat))) with (map (fun a : double => B2SF a) [dofZ 13; dofZ 6]) by (vm_compute; reflexivity).
  cbn [map]. f_equal; [|f_equal]; rewrite <- real_SF; realval; lra.
Qed.
Lemma z_finite : List.Forall finite (coefs (w_var dworld 2%nat)).
Proof.
  assert (E : forallb (fun a : double => is_finite a) (coefs (w_var dworld 2%nat)) = true) by (vm_compute; reflexivity).
  rewrite forallb_forall in E. apply Forall_forall. exact E.
Qed.

(** x = UReal2(-3, 4, moments of the coin); y = 2 * (x + x) *)
Definition ddemo2 : list (call2 DN) :=
  [ENewStd 0%nat (d (-3)) (d 4) coin (d (-1)); EAdd 1%nat 0%nat 0%nat; EConst 2%nat (d 2); EMul 3%nat 2%nat 1%nat].
Lemma ddemo2_legal : legal2 ddemo2.
Proof.
  split; [repeat constructor|]. split; [|apply max_new_ge; cbn; lia]. repeat constructor. intro H. vm_compute in H. discriminate H.
Qed.
