(** * FunAcc6: cases for C70 *)

From Coq Require Import List ZArith Bool Reals Lra Lia Psatz.
From Coquelicot Require Import Coquelicot.
From Flocq Require Import Core BinarySingleNaN.
From Verif Require Import Base Num Map UReal World Ieee IeeeFacts SpecIeee IeeeProofs3 IeeeProofs4 IeeeProofs5 IeeeCov SpecFun SpecFunIeee FunAcc2 FunAcc3 FunAcc5 Functions.
Import ListNotations.
Local Open Scope R_scope.

Lemma val26 : pow2 (-26) = / 67108864. Proof. reflexivity. Qed.
Lemma val13 : pow2 (-13) = / 8192. Proof. reflexivity. Qed.
Lemma val53 : uround = / 9007199254740992. Proof. reflexivity. Qed.
Lemma big490 : 1048576 <= pow2 480 /\ pow2 480 <= pow2 490.
Proof. split; [change 1048576 with (pow2 20)|]; apply pow2_le; lia. Qed.
Lemma small1074 : 0 < pow2 (-1074) <= / 9007199254740992 /\ 0 < pow2 (-1073) <= / 9007199254740992.
Proof. rewrite <- val53. unfold uround. repeat split; try apply pow2_pos; apply pow2_le; lia. Qed.
Definition step1 : double := default_step (N := DN) eps64 1.
Definition step2 : double := default_step (N := DN) eps64 2.
Lemma step1_val : real_of step1 = / 67108864.
Proof. destruct eps64_val as [Fe Ee]. rewrite <- val26. apply (C70_default_step_proof eps64 Fe Ee). Qed.
Lemma step2_val : real_of step2 = / 8192.
Proof. destruct eps64_val as [Fe Ee]. rewrite <- val13. apply (C70_default_step_proof eps64 Fe Ee). Qed.

(** x = 1 +- 1, squared *)
Definition one_one : list (call DN) := [CNew 0%nat (dofZ 1 : DN) (dofZ 1 : DN)].
Lemma one_one_case : let w := after one_one in let x := w_var w 0%nat in
  dlegal one_one /\ List.Forall (fun c => self_assign c = false) one_one /\ run w_init one_one = Ret w /\
  finite (u_n x) /\ real_of (u_n x) = 1 /\ coefs x = [dofZ 1].
Proof.
  split; [apply dlegal_small; [repeat constructor|cbn; lia]|]. split; [repeat constructor|]. split; [reflexivity|]. split; [vm_compute; reflexivity|].
  split; [change (real_of (dofZ 1) = 1); realval; lra|reflexivity].
Qed.
Lemma forward_case : let h := real_of step1 in let P := near 1 (2 * h) in let err := forward_err 1 h 2 2 (2 * uround) in
  good_step 1 step1 /\ computes P (2 * uround) (fun t => dmul t t) (fun t => t * t) /\
  derivs_on P (fun t => t * t) [fun t => 2 * t; fun _ => 2] /\ bounded_on P (fun _ => 2) 2 /\
  forward_size h 2 2 (2 * uround) /\ err <= / 3 * Rabs 2 /\ err <= / 8388608 /\
  List.Forall (fun c => finite c /\ (real_of c = 0 \/ pow2 (-500) <= Rabs (2 * real_of c))) [dofZ 1] /\
  2 * 2 * sum_sq [dofZ 1] <= pow2 1000.
Proof.
  cbv zeta. rewrite step1_val. destruct (square_case (/ 67108864) ltac:(lra)) as (C & (D1 & D2 & _) & B & _).
  split; [apply one_good|]. split; [exact C|]. split; [split; [exact D1|]; split; [exact D2|exact I]|]. split; [exact B|].
  assert (BG := big490). assert (SM := small1074). unfold forward_size, forward_err, step_err. rewrite val53, Rabs_R1, !(Rabs_pos_eq 2) by lra.
  split; [lra|]. split; [lra|]. split; [lra|].
  assert (E1 : real_of (dofZ 1) = 1) by (realval; lra). split.
  - constructor; [|constructor]. split; [reflexivity|]. right. rewrite E1, Rabs_pos_eq by lra. apply Rle_trans with (pow2 0); [apply pow2_le; lia|]. change (pow2 0) with 1. lra.
  - unfold sum_sq. cbn [fold_right]. rewrite E1. apply Rle_trans with (pow2 2); [change (pow2 2) with 4; lra|apply pow2_le; lia].
Qed.
Lemma central_case : let h := real_of step2 in let P := near 1 (2 * h) in
  good_step 1 step2 /\ computes P (2 * uround) (fun t => dmul t t) (fun t => t * t) /\
  derivs_on P (fun t => t * t) [fun t => 2 * t; fun _ => 2; fun _ => 0; fun _ => 0] /\ bounded_on P (fun _ => 0) 0 /\
  central_size1 h 2 2 0 (2 * uround) /\ central_size2 h 1 2 2 0 0 (2 * uround) /\
  central_err1 1 h 2 2 0 (2 * uround) <= / 68719476736 /\ central_err2 1 h 1 2 2 0 0 (2 * uround) <= / 4194304.
Proof.
  cbv zeta. rewrite step2_val. destruct (square_case (/ 8192) ltac:(lra)) as (C & D & _ & B).
  split; [apply one_good|]. split; [exact C|]. split; [exact D|]. split; [exact B|].
  assert (BG := big490). assert (SM := small1074). unfold central_size1, central_size2, central_err1, central_err2, step_err.
  rewrite val53, Rabs_R1, !Rabs_R0, !(Rabs_pos_eq 2) by lra.
  split; [lra|]. split; [split; lra|]. split; lra.
Qed.
(** the product of two numbers close to 1 *)
Lemma product_case : let h := real_of step2 in let P := near 1 (2 * h) in
  computes2 P P (2 * uround) (fun s t => dmul s t) (fun s t => s * t) /\
  derivs_on P (fun t => t * 1) [fun _ => 1; fun _ => 0; fun _ => 0; fun _ => 0] /\
  derivs_on P (fun t => 1 * t) [fun _ => 1; fun _ => 0; fun _ => 0; fun _ => 0] /\ bounded_on P (fun _ => 0) 0 /\
  (forall s t, P s -> P t -> is_derive (fun s => s * t) s t) /\ (forall s t, P s -> P t -> is_derive (fun t => t) t 1) /\
  (forall s t, P s -> P t -> Rabs (1 - 1) <= 0) /\ (forall s t, P s -> P t -> Rabs (s * t) <= 2) /\
  central_size1 h 1 0 0 (2 * uround) /\ central_size2 h (1 * 1) 1 0 0 0 (2 * uround) /\ mixed_size h 2 1 0 (2 * uround) /\
  mixed_err 1 1 h 2 1 0 (2 * uround) <= / 2097152.
Proof.
  cbv zeta. rewrite step2_val.
  assert (B : forall s t, near 1 (2 * / 8192) s -> near 1 (2 * / 8192) t -> 0 <= s * t <= 8 / 5).
  { intros s t Hs Ht. unfold near in Hs, Ht. rewrite (Rabs_pos_eq (2 * / 8192)) in Hs, Ht by lra. apply abs_bound in Hs, Ht. nra. }
  split; [|split; [|split; [|split; [|split; [|split; [|split; [|split; [|]]]]]]]].
  - intros s t Fs Ft Ps Pt. specialize (B _ _ Ps Pt). set (r := real_of s * real_of t) in *. assert (U := ur_small).
    destruct (dmul_round s t Fs Ft) as [F V].
    { apply fits. fold r. rewrite Rabs_pos_eq by lra. apply Rle_trans with (pow2 1); [unfold pow2; cbn; lra|apply pow2_le; lia]. }
    split; [exact F|]. rewrite V. fold r. destruct (nearest_pm r) as (e & k & He & Hk & E). rewrite E. apply abs_bound in He, Hk.
    assert (PK : pow2 (-1075) <= / 10 * ur). { unfold uround. apply Rle_trans with (pow2 (-4) * pow2 (-53)); [rewrite <- pow2_add; apply pow2_le; lia|]. apply Rmult_le_compat_r; [left; apply pow2_pos|unfold pow2; cbn; lra]. }
    apply Rabs_le. nra.
  - split; [|split; [|split; [|split; [|exact I]]]]; intros t _; auto_derive; auto; ring.
  - split; [|split; [|split; [|split; [|exact I]]]]; intros t _; auto_derive; auto; ring.
  - intros t _. rewrite Rabs_R0. lra.
  - intros s t _ _. auto_derive; auto; ring.
  - intros s t _ _. auto_derive; auto; ring.
  - intros s t _ _. rewrite Rminus_eq_0, Rabs_R0. lra.
  - intros s t Hs Ht. specialize (B s t Hs Ht). rewrite Rabs_pos_eq; lra.
  - assert (BG := big490). assert (SM := small1074). unfold central_size1, central_size2, mixed_size, mixed_err, step_err.
    rewrite val53, Rmult_1_r, Rabs_R1, !Rabs_R0.
    split; [lra|]. split; [split; lra|]. split; [split; lra|]. lra.
Qed.
