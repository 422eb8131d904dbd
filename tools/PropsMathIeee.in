(** * PropsMathIeee: math.hpp on doubles (C65, C66)

    Generated from tools/PropsMathIeee.in.  [accurate] and [accurate1] are in SpecMathIeee.v: the
    functions of <cmath> are any functions with relative error [e].  [accurate2] is in SpecMathIeee2.v. *)

From Coq Require Import List ZArith Bool Reals Lra Lia.
From Coquelicot Require Import Coquelicot.
From Flocq Require Import Core BinarySingleNaN.
From Verif Require Import Base Num UReal World Ieee IeeeFacts SpecIeee IeeeProofs3 IeeeProofs4 IeeeProofs5 Nan Math SpecMathIeee SpecMathIeee2 MathAcc2 MathAcc5 MathAcc7.
Import ListNotations.
Local Open Scope R_scope.

(** There are such functions: the correctly rounded ones. *)
Example accurate_case : accurate rounded_cmath uround /\ uround <= uround <= pow2 (-20).
Proof. split; [exact rounded_accurate|]. split; [apply Rle_refl|apply pow2_le; lia]. Qed.
(** A variable of mean 1/2 or 2 and deviation 1; 1/2 or 2 is inside the domain of every function. *)
Example C65_case : forall z k, (z = 1 /\ k = 1 \/ z = 2 /\ k = 0)%Z -> let cs := [CNew 0%nat (half z k) (dofZ 1 : DN)] in let w := after cs in
  let x := w_var w 0%nat in
  dlegal cs /\ List.Forall (fun c => self_assign c = false) cs /\ run w_init cs = Ret w /\
  finite (u_n x) /\ real_of (u_n x) = IZR z / pow2 k /\ coefs x = [dofZ 1] /\
  100 * uround <= 1 - / 2 * / 2 /\ 100 * uround * (2 * 2) <= 2 * 2 - 1.
Proof.
  intros z k H cs w x. split; [apply dlegal_small; [repeat constructor|cbn; lia]|]. split; [repeat constructor|]. split; [reflexivity|].
  change uround with (/ 9007199254740992).
  destruct H as [[-> ->]|[-> ->]]; (split; [vm_compute; reflexivity|]); (split; [|split; [reflexivity|lra]]).
  - change (real_of (half 1 1) = 1 / 2). realval. lra.
  - change (real_of (half 2 0) = 2 / 1). realval. lra.
Qed.

(** ** C65 *)
@C65_functions
(** Missing: a bound which does not depend on the mean, see the next theorem, and negative means
    of cbrt, see C21_cbrt_negative_refuted. *)
@C65_cancelling_partial
@C65_uniform_bound_refuted

(** Two variables of means 2 and 3 and deviations 1; 2 and 3 are inside the domain of every operator and function. *)
Example C66_case : let cs := [CNew 0%nat (dofZ 2 : DN) (dofZ 1 : DN); CNew 1%nat (dofZ 3 : DN) (dofZ 1 : DN)] in let w := after cs in
  let x := w_var w 0%nat in let y := w_var w 1%nat in
  dlegal cs /\ List.Forall (fun c => self_assign c = false) cs /\ run w_init cs = Ret w /\
  finite (u_n x) /\ real_of (u_n x) = 2 /\ finite (u_n y) /\ real_of (u_n y) = 3 /\
  (exists i j, i <> j /\ ids x = [i] /\ ids y = [j] /\ coef x i = 1 /\ coef x j = 0 /\ coef y i = 0 /\ coef y j = 1) /\
  regular (2 + 3) /\ regular (2 * 3) /\ regular (2 / 3) /\ regular (/ 3) /\ regular (2 / (3 * 3)) /\
  Rpower 2 3 = 8 /\ regular (8 * 3) /\ regular (8 * 3 / 2) /\ regular (ln 2) /\ regular (8 * ln 2) /\
  regular (2 / sqrt (2 * 2 + 3 * 3)) /\ regular (3 / sqrt (2 * 2 + 3 * 3)) /\
  Ztrunc (nearest (2 / 3)) = Ztrunc (2 / 3) /\ ZnearestA (nearest (2 / 3)) = ZnearestA (2 / 3) /\
  (forall n, n <> 0%Z -> 2 / 3 <> IZR n) /\ (forall n, 2 / 3 <> IZR n + / 2).
Proof.
  intros cs w x y. split; [apply dlegal_small; [repeat constructor|cbn; lia]|]. split; [repeat constructor|]. split; [reflexivity|].
  split; [vm_compute; reflexivity|]. split; [change (real_of (dofZ 2) = 2); exact (real_lit 2 eq_refl)|].
  split; [vm_compute; reflexivity|]. split; [change (real_of (dofZ 3) = 3); exact (real_lit 3 eq_refl)|]. split.
  { exists (uid x), (uid y). split; [discriminate|]. split; [reflexivity|]. split; [reflexivity|].
    split; [change (real_of (dofZ 1) = 1); exact (real_lit 1 eq_refl)|]. split; [reflexivity|]. split; [reflexivity|].
    change (real_of (dofZ 1) = 1); exact (real_lit 1 eq_refl). }
  destruct ln2_rng as [L1 L2]. change (pow2 (-1)) with (/ 2) in L1. change (pow2 0) with 1 in L2.
  assert (S1 : 2 <= sqrt (2 * 2 + 3 * 3)) by (rewrite <- (sqrt_square 2) at 1 by lra; apply sqrt_le_1_alt; lra).
  assert (S2 : sqrt (2 * 2 + 3 * 3) <= 4) by (rewrite <- (sqrt_square 4) by lra; apply sqrt_le_1_alt; lra).
  set (s := sqrt (2 * 2 + 3 * 3)) in *. assert (I : / 4 <= / s <= / 2) by (split; apply Rinv_le_contravar; lra).
  do 5 (split; [apply reg_mid; lra|]). split.
  { replace 3 with (INR 3) at 1 by (simpl; lra). rewrite Rpower_pow by lra. simpl. lra. }
  do 6 (split; [apply reg_mid; unfold Rdiv; lra|]).
  assert (R23 : regular (2 / 3)) by (apply reg_mid; lra).
  assert (N1 : forall n : Z, n <> 0%Z -> / 3 <= Rabs (2 / 3 - IZR n)).
  { intros n Hn. destruct (Z_lt_le_dec n 0) as [A|A].
    - assert (IZR n <= -1) by (apply IZR_le; lia). rewrite Rabs_pos_eq; lra.
    - assert (1 <= IZR n) by (apply IZR_le; lia). rewrite Rabs_left1; lra. }
  assert (N2 : forall n : Z, / 6 <= Rabs (2 / 3 - (IZR n + / 2))).
  { intros n. destruct (Z_lt_le_dec n 1) as [A|A].
    - assert (IZR n <= 0) by (apply IZR_le; lia). rewrite Rabs_pos_eq; lra.
    - assert (1 <= IZR n) by (apply IZR_le; lia). rewrite Rabs_left1; lra. }
  assert (U : uround * Rabs (2 / 3) < / 6) by (rewrite Rabs_pos_eq by lra; change uround with (/ 9007199254740992); lra).
  split; [apply C66_quotient_trunc_proof; [exact R23|]; intros n Hn; specialize (N1 n Hn); lra|].
  split; [apply C66_quotient_round_proof; [exact R23|]; intros n; specialize (N2 n); lra|].
  split; [intros n Hn E|intros n E].
  - specialize (N1 n Hn). rewrite <- E, Rminus_eq_0, Rabs_R0 in N1. lra.
  - specialize (N2 n). rewrite <- E, Rminus_eq_0, Rabs_R0 in N2. lra.
Qed.

(** ** C66 *)
@C66_operators
@C66_functions
(** Missing: quotients which round to another integral part, see C66_quotient_refuted. *)
@C66_quotient_partial
@C66_quotient_trunc
@C66_quotient_round
@C66_quotient_refuted
