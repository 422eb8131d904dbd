(** * DemoAcc2: a program on doubles for the examples of C75 *)

From Coq Require Import List ZArith Bool Reals Lra Lia Psatz Sorted.
From Flocq Require Import Core BinarySingleNaN.
From Verif Require Import Base Num Map UReal World HessGrad Moments CheckMoments UReal2 World2 U2World SpecU2Run SpecObs SpecU2 Ieee IeeeFacts IoAcc1 Demo IeeeProofs3 IeeeProofs5 SpecIeee HessProofs U2Facts ConvProofs SpecAcc2 Track AccMom2.
Import ListNotations.
Local Open Scope R_scope.

(** moments of the exponential distribution; z = x y x and x + y *)
Definition expo : moms DN := mkM (N := DN) (d 2) (d 9) (d 44) (d 265) (d 1854) (d 14833).
Definition acc_demo : list (call2 DN) :=
  [ENewStd 0%nat (d 3) (d 2) expo (d (-1)); ENewStd 1%nat (d 5) (d 1) expo (d (-1)); EMul 2%nat 0%nat 1%nat; EMul 3%nat 2%nat 0%nat; EAdd 4%nat 0%nat 1%nat].
Definition no_eig : list (list DN) -> option (list DN) := fun _ => None.
Definition acc_world : world2 DN := match run2 no_eig w2_init acc_demo with Ret w => w | _ => w2_init end.
Lemma acc_demo_legal : legal2 acc_demo.
Proof.
  split; [repeat constructor|]. split; [|apply max_new_ge; cbn; lia]. repeat constructor; intro H; vm_compute in H; discriminate H.
Qed.
Lemma acc_demo_run : run2 no_eig w2_init acc_demo = Ret acc_world.
Proof.
  assert (B : (match run2 no_eig w2_init acc_demo with Ret _ => true | _ => false end) = true) by (vm_compute; reflexivity).
  unfold acc_world. destruct (run2 no_eig w2_init acc_demo); [reflexivity|discriminate..].
Qed.
Lemma moderate_Z z : (Z.abs z <= 2 ^ 53)%Z -> moderate (dofZ z).
Proof.
  intro H. destruct (dofZ_exact z H) as [F E]. split; [exact F|]. rewrite E. destruct (Z.eq_dec z 0) as [->|Z0]; [now left|right]. rewrite <- abs_IZR. split.
  - apply Rle_trans with 1; [change 1 with (pow2 0); apply pow2_le; lia|apply IZR_le; lia].
  - apply Rle_trans with (pow2 53); [unfold pow2; rewrite <- IZR_Zpower by lia; apply IZR_le; exact H|apply pow2_le; lia].
Qed.
Lemma moderate_list (l : list double) (zs : list Z) : map (fun a : double => B2SF a) l = map (fun z => B2SF (dofZ z)) zs ->
  List.Forall (fun z => (Z.abs z <= 2 ^ 53)%Z) zs -> List.Forall moderate l.
Proof.
  revert zs. induction l as [|a l IH]; intros [|z zs] E F; try discriminate E; constructor.
  - cbn [map] in E. injection E as E _. apply B2SF_inj in E. subst a. inversion F; subst. now apply moderate_Z.
  - cbn [map] in E. injection E as _ E. inversion F; subst. now apply (IH zs).
Qed.
Lemma z_ordinary : ordinary (w2_var acc_world 3%nat).
Proof.
  split; [|apply Nat.leb_le; vm_compute; reflexivity].
  apply (moderate_list _ [60; 20; 2; 9; 44; 265; 1854; 14833; 9; 0; 2; 9; 44; 265; 1854; 14833; 6]%Z); [vm_compute; reflexivity|].
  repeat constructor; cbn; lia.
Qed.
Lemma s_ordinary : ordinary (w2_var acc_world 4%nat).
Proof.
  split; [|apply Nat.leb_le; vm_compute; reflexivity].
  apply (moderate_list _ [2; 0; 2; 9; 44; 265; 1854; 14833; 1; 0; 2; 9; 44; 265; 1854; 14833]%Z); [vm_compute; reflexivity|].
  repeat constructor; cbn; lia.
Qed.
Lemma linear_of (x : ureal2 DN) : hg_ok (u2hg x) -> trimap (u2hg x) = [] -> List.Forall (fun a : double => real_of a = 0) (map (fun kd : Z * diag DN => dhh (snd kd)) (diagmap (u2hg x))) ->
  forall i j, j_h (jet_of (exactly x)) i j = 0.
Proof.
  intros OK ET ED i j. rewrite (ex_cu x OK). unfold jet_of, cu, chg. cbn [j_h u2hg diagmap trimap]. rewrite ET. destruct (Z.eqb i j); [|reflexivity].
  destruct (mfind i _) as [e|] eqn:Ef; [|reflexivity]. apply mfind_In in Ef. apply in_map_iff in Ef as ([k e'] & E & He). unfold ckd in E. cbn [fst snd] in E. injection E as _ <-.
  rewrite Forall_forall in ED. cbn [cd dhh]. apply ED. apply in_map_iff. exists (k, e'). now split.
Qed.
(** the variable x + y has no second derivatives *)
Lemma s_linear : forall i j, j_h (jet_of (exactly (w2_var acc_world 4%nat))) i j = 0.
Proof.
  apply linear_of; [exact (var_ok no_eig acc_demo acc_world acc_demo_legal acc_demo_run 4)|vm_compute; reflexivity|].
  assert (E : map (fun a : double => B2SF a) (map (fun kd : Z * diag DN => dhh (snd kd)) (diagmap (u2hg (w2_var acc_world 4%nat)))) = map (fun z => B2SF (dofZ z)) [0; 0]%Z) by (vm_compute; reflexivity).
  destruct (map (fun kd : Z * diag DN => dhh (snd kd)) (diagmap (u2hg (w2_var acc_world 4%nat)))) as [|a [|b [|c l]]]; try discriminate E. cbn [map] in E. injection E as E1 E2.
  change (B2SF a = B2SF (dofZ 0)) in E1. change (B2SF b = B2SF (dofZ 0)) in E2. apply B2SF_inj in E1. apply B2SF_inj in E2. subst a b.
  assert (Z0 : real_of (dofZ 0) = 0) by (apply (dofZ_exact 0); lia). repeat constructor; exact Z0.
Qed.
