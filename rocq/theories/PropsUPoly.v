(** * PropsUPoly: programs of +, - and * on UReal<double> against exact arithmetic (C83)

    Generated from tools/PropsUPoly.in. *)

From Coq Require Import List ZArith Bool Reals Lra Lia.
From Flocq Require Import Core BinarySingleNaN.
From Verif Require Import Base Num Map UReal World SpecObs SpecLin Ieee SpecIeee SpecMathIeee2 SpecAcc2 SpecAcc3 SpecAcc4 SpecAcc5 UPoly6
  IeeeProofs5 DemoIeee DemoIeee2 DemoUPoly.
From Verif Require Import SpecMathIeee2.
Import ListNotations.
Local Open Scope R_scope.

(** ** C83 *)
Theorem C83_values : forall cs, dlegal cs -> List.Forall upoly cs ->
  exists w, run w_init cs = Ret w /\ w_last w = s_last (exact_run cs) /\
  forall v, let x := w_var w v in let k := urounds cs v in
  let r := s_var (exact_run cs) v in let a := s_var (size_run 0 cs) v in let b := s_var (size_run tiny cs) v in
    (forall i, In i (ids x) <-> l_dep r i) /\
    (finite (u_n x) -> approximates (u_n x) (l_mean r) (l_mean a) (l_mean b) k) /\
    (forall i, finite (coef_on x i) -> approximates (coef_on x i) (l_coef r i) (l_coef a i) (l_coef b i) k).
Proof. exact C83_values_proof. Qed.
Print Assumptions C83_values.
Theorem C83_covariances : forall cs w, dlegal cs -> List.Forall upoly cs -> run w_init cs = Ret w ->
  forall u v, let x := w_var w u in let y := w_var w v in let last := s_last (exact_run cs) in
  let r := s_var (exact_run cs) in let a := s_var (size_run 0 cs) in let b := s_var (size_run tiny cs) in
  finite (u_cov x y) ->
  approximates (u_cov x y) (lin_cov last (r u) (r v)) (lin_cov last (a u) (a v)) (size_cov tiny last (urounds cs u) (urounds cs v) (b u) (b v))
    (S (Nat.min (length (coefs x)) (length (coefs y)))).
Proof. exact C83_covariances_proof. Qed.
Print Assumptions C83_covariances.
Theorem C83_deviation : forall cs w, dlegal cs -> List.Forall upoly cs -> List.Forall (fun c => self_assign c = false) cs -> run w_init cs = Ret w ->
  forall v, let x := w_var w v in let last := s_last (exact_run cs) in let n := length (coefs x) in
  let r := s_var (exact_run cs) v in let e := size_error last (urounds cs v) (s_var (size_run 0 cs) v) (s_var (size_run tiny cs) v) in
  no_underflow (coefs x) -> sum_sq (coefs x) <= pow2 1020 ->
  finite (u_s x) /\ (1 - uround) ^ (n + 3) * (lin_sdev last r - e) <= real_of (u_s x) <= (1 + uround) ^ (n + 3) * (lin_sdev last r + e).
Proof. exact C83_deviation_proof. Qed.
Print Assumptions C83_deviation.
Theorem C83_relative : forall cs w, dlegal cs -> List.Forall upoly cs -> List.Forall (fun c => self_assign c = false) cs -> run w_init cs = Ret w ->
  forall v, let x := w_var w v in let n := length (coefs x) in let k := S (urounds cs v) in
  let r := s_var (exact_run cs) v in let s := lin_sdev (s_last (exact_run cs)) r in
  no_underflow (coefs x) -> sum_sq (coefs x) <= pow2 1020 ->
  (forall i, l_coef (s_var (size_run tiny cs) v) i <= (1 + uround) * Rabs (l_coef r i)) ->
  finite (u_s x) /\ (1 - uround) ^ (n + 3) * ((2 - (1 + uround) ^ k) * s) <= real_of (u_s x) <= (1 + uround) ^ (n + 3) * ((1 + uround) ^ k * s).
Proof. exact C83_relative_proof. Qed.
Print Assumptions C83_relative.
(** x = 3 +- 1, y = 7 +- 2; z = x + y, whose deviation is asked; z *= x.  Nothing cancels: the
    deviation of z is sqrt 205 up to ten roundings. *)
Example C83_case : dlegal ddemo /\ List.Forall upoly ddemo /\ List.Forall (fun c => self_assign c = false) ddemo /\ run w_init ddemo = Ret dworld /\
  urounds ddemo 2%nat = 4%nat /\ no_underflow (coefs (w_var dworld 2%nat)) /\ sum_sq (coefs (w_var dworld 2%nat)) <= pow2 1020 /\
  let r := s_var (exact_run ddemo) 2%nat in l_mean r = 30 /\ l_coef r 1 = 13 /\ l_coef r 2 = 6 /\
  forall i, l_coef (s_var (size_run tiny ddemo) 2%nat) i <= (1 + uround) * Rabs (l_coef r i).
Proof.
  split; [exact ddemo_legal|]. split; [exact ddemo_upoly|]. split; [exact ddemo_no_self|]. split; [exact ddemo_run|]. split; [exact z_rounds|].
  split; [apply no_underflow_big; [exact z_finite|rewrite z_coefs; repeat constructor; lra]|].
  split; [|exact z_spec].
  rewrite sum_sq_reals, z_coefs. cbn [fold_right]. assert (B := pow2_big). assert (B1 : pow2 1000 <= pow2 1020) by (apply bpow_le; lia). lra.
Qed.
