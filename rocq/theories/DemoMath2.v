(** * DemoMath2: a program on doubles for the example of C78 *)

From Coq Require Import List ZArith Bool Reals Lra Lia.
From Coquelicot Require Import Coquelicot.
From Flocq Require Import Core BinarySingleNaN.
From Verif Require Import Base Num Map UReal World SpecObs HessGrad Moments CheckMoments UReal2 World2 U2World SpecU2 SpecU2Run Ieee IeeeFacts SpecIeee IoAcc1 Demo IeeeProofs3 IeeeProofs5 SpecAcc3 DemoAcc2.
From Verif Require Import Nan Math SpecMathIeee SpecMath2Ieee.
Import ListNotations.
Local Open Scope R_scope.

(** x = 1/2 +- 1 and y = 2 +- 3; z = (x y) x *)
Definition m2_demo : list (call2 DN) :=
  [ENewStd 0%nat (half 1 1) (d 1) expo (d (-1)); ENewStd 1%nat (d 2) (d 3) expo (d (-1)); EMul 2%nat 0%nat 1%nat; EMul 3%nat 2%nat 0%nat].
Definition m2_world : world2 DN := match run2 no_eig w2_init m2_demo with Ret w => w | _ => w2_init end.
Lemma m2_demo_legal : legal2 m2_demo.
Proof.
  split; [repeat constructor|]. split; [|apply max_new_ge; cbn; lia]. repeat constructor; intro H; vm_compute in H; discriminate H.
Qed.
Lemma m2_demo_run : run2 no_eig w2_init m2_demo = Ret m2_world.
Proof.
  assert (B : (match run2 no_eig w2_init m2_demo with Ret _ => true | _ => false end) = true) by (vm_compute; reflexivity).
  unfold m2_world. destruct (run2 no_eig w2_init m2_demo); [reflexivity|discriminate..].
Qed.
Lemma plain_mid r : / 1024 <= Rabs r <= 1024 -> plain r.
Proof.
  intros [L U]. right. split.
  - apply Rle_trans with (/ 1024); [|exact L]. change (/ 1024) with (pow2 (-10)). apply pow2_le. lia.
  - apply Rle_trans with 1024; [exact U|]. change 1024 with (pow2 10). apply pow2_le. lia.
Qed.
Definition at_is (x : ureal2 DN) (i : Z) (g h : R) : Prop :=
  finite (grad_at x i) /\ real_of (grad_at x i) = g /\ finite (hess_at x i i) /\ real_of (hess_at x i i) = h.
Ltac at_val := split; [vm_compute; reflexivity|]; split; [realval; lra|]; split; [vm_compute; reflexivity|]; realval; lra.
Lemma m2_at0 : at_is (w2_var m2_world 0%nat) 1 1 0. Proof. at_val. Qed.
Lemma m2_at1 : at_is (w2_var m2_world 1%nat) 2 3 0. Proof. at_val. Qed.
Lemma m2_at3 : at_is (w2_var m2_world 3%nat) 1 2 2 /\ at_is (w2_var m2_world 3%nat) 2 (3 / 4) 0. Proof. split; at_val. Qed.
Lemma m2_mean : real_of (u2_first_order_n (w2_var m2_world 0%nat)) = / 2 /\ real_of (u2_first_order_n (w2_var m2_world 1%nat)) = 2 /\ real_of (u2_first_order_n (w2_var m2_world 3%nat)) = / 2.
Proof. repeat split; realval; lra. Qed.
Lemma at_plain x i g h : at_is x i g h -> plain g -> plain h -> plain_at x i.
Proof. intros (A & B & C & D) Hg Hh. split; [exact A|]. split; [now rewrite B|]. split; [exact C|]. now rewrite D. Qed.
