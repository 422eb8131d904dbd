(** * CentralAcc2: moments of a random variable from rounded ones, standardized moments (C84) *)

From Coq Require Import List ZArith Bool Arith Reals Lra Lia Psatz SpecFloat.
From Flocq Require Import Core BinarySingleNaN.
From Verif Require Import Base Num Distr SpecProb SpecCast ConvProofs.
From Verif Require Import Ieee IeeeFacts SpecIeee SpecMathIeee IeeeProofs IeeeCov IeeeRel IoAcc1 SpecAcc2 Track AccMom2 SpecAcc5 SpecAcc6 UPoly2 DistrProofs CentralAcc Demo3.
Import ListNotations.
Local Open Scope R_scope.

Lemma central_variable (P : expect) (X : Om P -> R) n : (forall k, (k <= 8)%nat -> int P (fun o => X o ^ k)) -> (2 <= n <= 8)%nat ->
  central (fun k => Ex P (fun o => X o ^ k)) n = Ex P (fun o => (X o - Ex P X) ^ n).
Proof.
  intros H Hn. assert (C := C38_central_moments_proof P X H). set (r k := Ex P (fun o => X o ^ k)) in *.
  assert (E0 : r 0%nat = 1) by (destruct (Ex_ext P (fun _ => 1) (fun o => X o ^ 0)) as [_ E]; [reflexivity|apply Ex_const|unfold r; rewrite <- E; apply Ex_const]).
  rewrite central_list in C.
  assert (I : forall a b : list RN, Ret a = Ret b -> a = b) by (intros a b E; now injection E). apply I in C.
  apply (f_equal (fun l => nth (n - 2) l 0)) in C.
  rewrite (nth_indep _ 0 (cexpr r 0)) in C by (rewrite map_length, seq_length; lia). rewrite map_nth, seq_nth in C by lia.
  rewrite (nth_indep _ 0 ((fun k => Ex P (fun o => (X o - Ex P X) ^ k)) 0%nat)) in C by (rewrite map_length, seq_length; lia). rewrite (map_nth (fun k => Ex P (fun o => (X o - Ex P X) ^ k))), seq_nth in C by lia.
  replace (2 + (n - 2))%nat with n in C by lia. now rewrite <- C, <- (central_real r n Hn E0).
Qed.

Lemma C84_variable_proof : forall k0 (P : expect) (X : Om P -> R) (d : nat -> double),
  (forall k, (k <= 8)%nat -> int P (fun o => X o ^ k)) ->
  let z k := Ex P (fun o => X o ^ k) in
  (forall k, (1 <= k <= 8)%nat -> close ((1 + uround) ^ k0 - 1) (d k) (z k)) ->
  exists cm, central_moments (N := DN) (map d (seq 1 8)) = Ret cm /\ length cm = 7%nat /\
  forall n, (2 <= n <= 8)%nat -> let c := nth (n - 2) cm (n0 (n := DN)) in
    finite c -> approximates c (Ex P (fun o => (X o - Ex P X) ^ n)) (size_central 0 z n) (size_central tiny z n) (n * (2 + k0)).
Proof.
  intros k0 P X d HI z H.
  assert (E0 : z 0%nat = 1) by (destruct (Ex_ext P (fun _ => 1) (fun o => X o ^ 0)) as [_ E]; [reflexivity|apply Ex_const|unfold z; rewrite <- E; apply Ex_const]).
  destruct (C84_central_proof k0 z d E0 H) as (cm & Ec & L & B). exists cm. split; [exact Ec|]. split; [exact L|].
  intros n Hn c F. rewrite <- (central_variable P X n HI Hn). exact (B n Hn F).
Qed.

(** ** Standardized moments *)
Section Std.
  Context {N : Num}.
  Fixpoint snpow (m2 : N) (j : nat) : N := match j with O => m2 | S j' => nmul (snpow m2 j') (nsqrt m2) end.
  Lemma std_list (d : nat -> N) : std_moments (N := N) (map d (seq 2 7)) = Ret (map (fun n => ndiv (d n) (snpow (d 2%nat) (n - 2))) (seq 3 6)).
  Proof. vm_compute. reflexivity. Qed.
End Std.

Lemma sn_near e (d2 : double) (r2 : R) j : uround <= e <= pow2 (-20) -> close e d2 r2 -> pow2 (-200) <= r2 <= pow2 200 -> (j <= 6)%nat ->
  near e (3 * j + 1) (snpow (N := DN) d2 j) (sqrt r2 ^ (j + 2)).
Proof.
  intros He C B Hj. assert (He' := He).
  assert (P0 : 0 < pow2 (-200)) by apply bpow_gt_0. assert (Qs : sqrt r2 * sqrt r2 = r2) by (apply sqrt_sqrt; lra).
  assert (Lo : pow2 (-100) <= sqrt r2).
  { replace (pow2 (-100)) with (sqrt (pow2 (-200))); [apply sqrt_le_1_alt; lra|]. replace (pow2 (-200)) with (pow2 (-100) * pow2 (-100)) by (unfold pow2; rewrite <- bpow_plus; apply f_equal; lia). apply sqrt_square. apply bpow_ge_0. }
  assert (Hi : sqrt r2 <= pow2 100).
  { replace (pow2 100) with (sqrt (pow2 200)); [apply sqrt_le_1_alt; lra|]. replace (pow2 200) with (pow2 100 * pow2 100) by (unfold pow2; rewrite <- bpow_plus; apply f_equal; lia). apply sqrt_square. apply bpow_ge_0. }
  assert (Pw : forall i, (i <= 8)%nat -> pow2 (-800) <= sqrt r2 ^ i <= pow2 800).
  { intros i Hi'. assert (P1 : 0 < pow2 (-100)) by apply bpow_gt_0.
    assert (W : forall i, pow2 (-100 * Z.of_nat i) <= sqrt r2 ^ i <= pow2 (100 * Z.of_nat i)).
    { clear i Hi'. induction i as [|i0 IH]; [change (pow2 0 <= 1 <= pow2 0); change (pow2 0) with 1; lra|]. cbn [pow].
      replace (-100 * Z.of_nat (S i0))%Z with (-100 + -100 * Z.of_nat i0)%Z by lia. replace (100 * Z.of_nat (S i0))%Z with (100 + 100 * Z.of_nat i0)%Z by lia.
      unfold pow2 in *. rewrite !bpow_plus. assert (0 < bpow radix2 (-100 * Z.of_nat i0)) by apply bpow_gt_0. assert (0 < sqrt r2 ^ i0) by lra. split; apply Rmult_le_compat; lra. }
    destruct (W i) as [A1 A2]. split.
    - eapply Rle_trans; [|exact A1]. apply bpow_le. lia.
    - eapply Rle_trans; [exact A2|]. apply bpow_le. lia. }
  assert (Reg : forall i, (i <= 8)%nat -> regular (sqrt r2 ^ i)).
  { intros i Hi'. right. destruct (Pw i Hi') as [A1 A2]. assert (0 < pow2 (-800)) by apply bpow_gt_0. rewrite Rabs_pos_eq by lra. split.
    - eapply Rle_trans; [|exact A1]. apply bpow_le. lia.
    - eapply Rle_trans; [exact A2|]. apply bpow_le. lia. }
  assert (N2 := near_close e He' d2 r2 C).
  assert (Ns : near e 2 (dsqrt d2) (sqrt r2)).
  { apply (near_sqrt e He' 1); [lia|lra|exact N2|]. specialize (Reg 1%nat ltac:(lia)). now rewrite pow_1 in Reg. }
  induction j as [|j IH].
  - cbn [snpow]. apply (near_eq e _ _ r2); [cbn; rewrite Rmult_1_r; now rewrite Qs|]. exact N2.
  - cbn [snpow]. apply (near_eq e _ _ (sqrt r2 ^ (j + 2) * sqrt r2)); [replace (S j + 2)%nat with (S (j + 2)) by lia; cbn [pow]; apply Rmult_comm|].
    apply (near_weaken e He' (S (3 * j + 1 + 2))); [lia|]. apply (near_mul e He'); [lia|apply IH; lia|exact Ns|].
    replace (sqrt r2 ^ (j + 2) * sqrt r2) with (sqrt r2 ^ (S (j + 2))) by (cbn [pow]; apply Rmult_comm). apply Reg. lia.
Qed.

Lemma C84_standardized_proof : forall e (r : nat -> R) (d : nat -> double), uround <= e <= pow2 (-20) ->
  (forall n, (2 <= n <= 8)%nat -> close e (d n) (r n)) -> pow2 (-200) <= r 2%nat <= pow2 200 ->
  (forall n, (3 <= n <= 8)%nat -> regular (r n / sqrt (r 2%nat) ^ n)) ->
  exists sm, std_moments (N := DN) (map d (seq 2 7)) = Ret sm /\ length sm = 6%nat /\
  forall n, (3 <= n <= 8)%nat -> close (INR (3 * n - 2) * e) (nth (n - 3) sm (n0 (n := DN))) (r n / sqrt (r 2%nat) ^ n).
Proof.
  intros e r d He C B Rg. assert (He' := He). set (f n := ndiv (n := DN) (d n) (snpow (N := DN) (d 2%nat) (n - 2))).
  exists (map f (seq 3 6)). split; [exact (std_list (N := DN) d)|].
  split; [now rewrite map_length, seq_length|]. intros n Hn.
  rewrite nth_indep with (d' := f 0%nat) by (rewrite map_length, seq_length; lia). rewrite map_nth, seq_nth by lia. replace (3 + (n - 3))%nat with n by lia.
  assert (Ns := sn_near e (d 2%nat) (r 2%nat) (n - 2) He (C 2%nat ltac:(lia)) B ltac:(lia)). replace (n - 2 + 2)%nat with n in Ns by lia.
  assert (Nn := near_close e He' _ _ (C n ltac:(lia))).
  assert (P0 : 0 < pow2 (-200)) by apply bpow_gt_0. assert (P2 : sqrt (r 2%nat) ^ n <> 0) by (apply pow_nonzero; assert (0 < sqrt (r 2%nat)) by (apply sqrt_lt_R0; lra); lra).
  assert (Q := near_div e He' 1 (3 * (n - 2) + 1) _ _ _ _ ltac:(lia) Nn Ns P2 (Rg n Hn)). apply (close_near e He') in Q; [|lia].
  rewrite <- S_INR in Q. replace (S (S (1 + (3 * (n - 2) + 1)))) with (3 * n - 2)%nat in Q by lia. exact Q.
Qed.
