(** * ShapeAcc2: linear variables, and a negative variance (C82) *)

From Coq Require Import List ZArith Bool Reals Lra Lia Psatz.
From Coq Require Import SpecFloat.
From Flocq Require Import Core BinarySingleNaN.
From Verif Require Import Base Num Map UReal World HessGrad Moments CheckMoments UReal2 World2 SpecObs SpecU2 SpecU2Run SpecProb SpecMom
  Ieee IeeeFacts IoAcc1 SpecIeee IeeeProofs2 IeeeProofs3 IeeeProofs4 IeeeProofs5 IeeeCov SpecAcc2 SpecCast AccFinal DemoAcc2 Demo Demo3 SpecShape ShapeAcc.
Import ListNotations.
Local Open Scope R_scope.

Definition grads (l : list (Z * diag DN)) : R := fold_right (fun (kd : Z * diag DN) s => real_of (dgrad (snd kd)) ^ 2 + s) 0 l.
Lemma grads_range (l : list (Z * diag DN)) : (forall k (d : diag DN), In (k, d) l -> moderate (dgrad d)) ->
  0 <= grads l <= INR (length l) * pow2 300 /\ (grads l <> 0 -> pow2 (-340) <= grads l).
Proof.
  assert (P := pow2_pos (-170)). induction l as [|[k d] l IH]; intro H; unfold grads; cbn [fold_right length snd].
  - change (INR 0) with 0. rewrite Rmult_0_l. split; [lra|]. intro C. now exfalso.
  - fold (grads l). destruct IH as [[I1 I2] I3]; [intros k' d' H'; eapply H; right; exact H'|]. destruct (H k d (or_introl eq_refl)) as [_ Hd].
    rewrite S_INR. set (g := real_of (dgrad d)) in *. assert (P3 := pow2_pos 300). destruct Hd as [Z|[D1 D2]].
    + rewrite Z. replace (0 ^ 2) with 0 by ring. rewrite Rplus_0_l. split; [split; [exact I1|nra]|exact I3].
    + assert (G2 : g ^ 2 = Rabs g * Rabs g) by (replace (g ^ 2) with (g * g) by ring; rewrite <- Rabs_mult; symmetry; apply Rabs_pos_eq; nra).
      assert (U : g ^ 2 <= pow2 300) by (rewrite G2; change 300%Z with (150 + 150)%Z; rewrite pow2_add; apply Rmult_le_compat; try apply Rabs_pos; assumption).
      assert (W : pow2 (-340) <= g ^ 2) by (rewrite G2; change (-340)%Z with (-170 + -170)%Z; rewrite pow2_add; apply Rmult_le_compat; lra).
      assert (P4 := pow2_pos (-340)). split; [split; nra|]. intros _. lra.
Qed.

Lemma C82_linear_proof : forall eig (cs : list (call2 DN)) w, legal2 cs -> run2 eig w2_init cs = Ret w ->
  forall v, let x := w2_var w v in ordinary x -> (forall i j, j_h (jet_of (exactly x)) i j = 0) ->
  let r := fold_right (fun (kd : Z * diag DN) s => real_of (dgrad (snd kd)) ^ 2 + s) 0 (diagmap (u2hg x)) in r <> 0 ->
  let k := 4 * INR (depth 2 (n_ids x)) * uround in
  exact_moment x 2 r (k * r) /\ conditioned r (k * r) /\ gives (u2_s x) (sqrt r) ((k + 2 * uround) * sqrt r).
Proof.
  intros eig cs w L E v x O Hj r N0 k. destruct (linear_both eig cs w L E v O Hj) as (A & B & _). fold x in A, B. fold r in A, B.
  assert (M : exact_moment x 2 r (k * r)) by (split; [exact A|exists r; split; [exact B|reflexivity]]).
  assert (Mo : forall i (d : diag DN), In (i, d) (diagmap (u2hg x)) -> moderate (dgrad d)).
  { intros i d H. destruct O as [O _]. rewrite List.Forall_forall in O. apply O. unfold numbers. apply in_or_app. left. apply in_flat_map. exists (i, d). split; [exact H|now left]. }
  destruct (grads_range _ Mo) as [[G1 G2] G3]. change (grads (diagmap (u2hg x))) with r in G1, G2, G3. specialize (G3 N0).
  assert (P := pow2_pos (-340)). assert (Ln : (n_ids x <= 1024)%nat) by apply O. unfold n_ids in Ln.
  assert (Lr : INR (length (diagmap (u2hg x))) <= 1024) by (change 1024 with (IZR (Z.of_nat 1024)); rewrite INR_IZR_INZ; apply IZR_le; lia).
  assert (R2 : r <= pow2 340).
  { assert (P3 := pow2_pos 300). apply Rle_trans with (1024 * pow2 300); [eapply Rle_trans; [exact G2|]; apply Rmult_le_compat_r; lra|]. apply Rle_trans with (pow2 310); [right; change 310%Z with (10 + 300)%Z; rewrite pow2_add; f_equal; unfold pow2; cbn; lra|apply pow2_le; lia]. }
  assert (K : 0 <= k <= / 8).
  { unfold k. change uround with ur. assert (Ue : ur = / 9007199254740992) by reflexivity. rewrite Ue. assert (D : INR (depth 2 (n_ids x)) <= 1051655).
    { rewrite INR_IZR_INZ. apply IZR_le. unfold depth, n_ids. nia. }
    assert (D0 := pos_INR (depth 2 (n_ids x))). lra. }
  assert (C : conditioned r (k * r)).
  { split; [split; [exact G3|exact R2]|]. clearbody k. clear - K G1. nra. }
  split; [exact M|]. split; [exact C|]. destruct (C82_deviation_partial_proof eig cs w L E v O r (k * r) M C) as [H _]. fold x in H.
  unfold dev_err in H. replace (k * r / r) with k in H by (field; lra). exact H.
Qed.

(** ** The sum of the squares of two fair coins, a = +-10000019 and b = +-1001 *)
Definition fair : moms DN := mkM (N := DN) (d 0) (d 1) (d 0) (d 1) (d 0) (d 1).
Definition coins : list (call2 DN) :=
  [ENewStd 0%nat (d 0) (d 10000019) fair (d (-1)); ENewStd 1%nat (d 0) (d 1001) fair (d (-1)); EMul 2%nat 0%nat 0%nat; EMul 3%nat 1%nat 1%nat; EAdd 4%nat 2%nat 3%nat].
Definition coins_world : world2 DN := match run2 no_eig w2_init coins with Ret w => w | _ => w2_init end.
Lemma coins_legal : legal2 coins.
Proof.
  split; [repeat constructor|]. split; [|apply max_new_ge; cbn; lia]. repeat constructor; intro H; vm_compute in H; discriminate H.
Qed.
Lemma coins_run : run2 no_eig w2_init coins = Ret coins_world.
Proof.
  assert (B : (match run2 no_eig w2_init coins with Ret _ => true | _ => false end) = true) by (vm_compute; reflexivity).
  unfold coins_world. destruct (run2 no_eig w2_init coins); [reflexivity|discriminate..].
Qed.
Lemma coins_ordinary : ordinary (w2_var coins_world 4%nat).
Proof.
  split; [|apply Nat.leb_le; vm_compute; reflexivity].
  apply (moderate_list _ [0; 100000380000361; 0; 1; 0; 1; 0; 1; 0; 1002001; 0; 1; 0; 1; 0; 1]%Z); [vm_compute; reflexivity|].
  repeat constructor; cbn; lia.
Qed.
Lemma fair_realizable : realizable (moms_convert (N := DN) (M := RN) real_of fair).
Proof.
  assert (E0 : real_of (d 0) = 0) by (apply (dofZ_exact 0); lia). assert (E1 : real_of (d 1) = 1) by (apply (dofZ_exact 1); lia).
  unfold moms_convert, fair. cbn [v3 v4 v5 v6 v7 v8]. rewrite E0, E1. exact pm1_realizable.
Qed.
Definition sfo (o : outcome DN) : option spec_float := match o with Ret a => Some (B2SF (a : double)) | _ => None end.
Lemma sfo_ret (o : outcome DN) f : sfo o = Some f -> exists a : double, o = Ret a /\ B2SF a = f.
Proof. destruct o; intro H; try discriminate H. injection H as H. eauto. Qed.
Lemma sf_nan (a : double) : B2SF a = S754_nan -> is_nan a = true.
Proof. now destruct a. Qed.
