(** * DemoIeee2: covariances and correlations in the history of DemoIeee *)

From Coq Require Import List ZArith Reals Bool Lra Lia SpecFloat.
From Flocq Require Import Core BinarySingleNaN.
From Verif Require Import Base Num Map UReal World SpecObs Ieee SpecIeee SpecIeee2 IeeeProofs5 DemoIeee.
Import ListNotations.
Local Open Scope R_scope.

Definition sf_pair (p : double * double) : spec_float * spec_float := (B2SF (fst p), B2SF (snd p)).
Definition real_pair (p : spec_float * spec_float) : R * R := (SF2R radix2 (fst p), SF2R radix2 (snd p)).
Lemma sums_SF l : sum_prod l = fold_right (fun p r => fst p * snd p + r) 0 (map real_pair (map sf_pair l)) /\
  sum_abs l = fold_right (fun p r => Rabs (fst p * snd p) + r) 0 (map real_pair (map sf_pair l)).
Proof.
  split; (induction l as [|[a b] l IH]; [reflexivity|]); unfold sum_prod, sum_abs in *; cbn [map fold_right real_pair sf_pair fst snd] in *;
    rewrite IH, <- !real_SF; reflexivity.
Qed.
Lemma finite_SF l : List.Forall (fun p => is_finite_SF (fst p) = true /\ is_finite_SF (snd p) = true) (map sf_pair l) -> finite_pairs l.
Proof.
  induction l as [|[a b] l IH]; intro H; [constructor|]. inversion H as [|? ? [Ha Hb] H']; subst. constructor; [|now apply IH].
  cbn [fst snd sf_pair] in *. rewrite !is_finite_SF_B2SF in *. split; assumption.
Qed.
(** z = (x + y) x: the coefficients of x and of z for x are 1 and 13 *)
Lemma xz_common : map sf_pair (common (w_var dworld 0%nat) (w_var dworld 2%nat)) = map sf_pair [(dofZ 1, dofZ 13)].
Proof. vm_compute. reflexivity. Qed.
Lemma xz_sums : sum_prod (common (w_var dworld 0%nat) (w_var dworld 2%nat)) = 13 /\ sum_abs (common (w_var dworld 0%nat) (w_var dworld 2%nat)) = 13.
Proof.
  assert (E1 : real_of (dofZ 1) = 1) by (realval; lra). assert (E2 : real_of (dofZ 13) = 13) by (realval; lra).
  destruct (sums_SF (common (w_var dworld 0%nat) (w_var dworld 2%nat))) as [-> ->]. rewrite xz_common.
  destruct (sums_SF [(dofZ 1, dofZ 13)]) as [<- <-]. unfold sum_prod, sum_abs. cbn [fold_right fst snd]. rewrite E1, E2.
  rewrite Rabs_pos_eq by lra. lra.
Qed.
Lemma xz_finite : finite_pairs (common (w_var dworld 0%nat) (w_var dworld 2%nat)).
Proof. apply finite_SF. rewrite xz_common. repeat constructor. Qed.
Lemma x_coefs : map real_of (coefs (w_var dworld 0%nat)) = [1].
Proof.
  rewrite (map_ext _ _ real_SF). rewrite <- (map_map (fun a : double => B2SF a) (SF2R radix2)).
  replace (map (fun a : double => B2SF a) (coefs (w_var dworld 0%nat))) with (map (fun a : double => B2SF a) [dofZ 1]) by (vm_compute; reflexivity).
  cbn [map]. f_equal. rewrite <- real_SF; realval; lra.
Qed.
Lemma x_finite : List.Forall finite (coefs (w_var dworld 0%nat)).
Proof.
  assert (E : forallb (fun a : double => is_finite a) (coefs (w_var dworld 0%nat)) = true) by (vm_compute; reflexivity).
  rewrite forallb_forall in E. apply List.Forall_forall. exact E.
Qed.
Lemma no_underflow_big l : List.Forall finite l -> List.Forall (fun r => 1 <= r) (map real_of l) -> no_underflow l.
Proof.
  intros F H. assert (S := pow2_tiny). assert (S1 : pow2 (-510) = 2 * pow2 (-511)) by (unfold pow2; change (-510)%Z with (1 + -511)%Z; rewrite bpow_plus; f_equal).
  unfold no_underflow. induction l as [|a l IH]; [constructor|]. inversion F; subst. cbn [map] in H. inversion H; subst.
  constructor; [|now apply IH]. split; [assumption|]. right. rewrite Rabs_pos_eq; lra.
Qed.
Lemma sum_sq_reals l : sum_sq l = fold_right (fun a r => a * a + r) 0 (map real_of l).
Proof. unfold sum_sq. induction l as [|a l IH]; [reflexivity|]. cbn [map fold_right]. now rewrite IH. Qed.
