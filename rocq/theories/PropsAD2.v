(** * PropsAD2: whole programs on UReal2 and Taylor polynomials (C60)

    Generated from tools/PropsAD2.in. *)

From Coq Require Import List ZArith Reals Bool Lra Lia.
From Coquelicot Require Import Coquelicot.
From Verif Require Import Base Num Map UReal World SpecLin SpecAD SpecObs HessGrad Moments CheckMoments UReal2 World2 SpecU2 SpecU2Run SpecProb SpecMom
  SpecMath2 SpecOrder SpecAD2 ADProofs2 Demo2 OrderDemo ADDemo2.
Import ListNotations.
Local Open Scope R_scope.

(** ** C60: a program on UReal2 computes the Taylor polynomial of degree two of the
    function the program is, and the moments of that polynomial. *)
Theorem C60_second_order_taylor_partial : forall eig (cs : list (call2 RN)), legal2 cs -> accepted eig w2_init cs ->
  covered_run eig w2_init cs -> derivs2_ok ad_init cs ->
  let p := ad2_run ad_init cs in
  exists w, run2 eig w2_init cs = Ret w /\ w2_last w = ad_last p /\
    forall v, u2_first_order_n (w2_var w v) = ad_fun p v (ad_mean p) /\
      exists (D1 : Z -> R) (D2 : Z -> Z -> R), has_derivatives2 (ad_last p) (ad_fun p v) (ad_mean p) D1 D2 /\
        (forall i, j_g (jet_of (w2_var w v)) i = D1 i * ad_sd p i) /\
        (forall i j, j_h (jet_of (w2_var w v)) i j = D2 i j * ad_sd p i * ad_sd p j / 2).
Proof. exact C60_second_order_taylor_partial_proof. Qed.
Print Assumptions C60_second_order_taylor_partial.
Theorem C60_moments_of_the_taylor_polynomial_partial : forall eig (cs : list (call2 RN)), legal2 cs -> accepted eig w2_init cs ->
  covered_run eig w2_init cs -> derivs2_ok ad_init cs ->
  let p := ad2_run ad_init cs in
  exists w, run2 eig w2_init cs = Ret w /\
    forall v, let x := w2_var w v in
      exists (D1 : Z -> R) (D2 : Z -> Z -> R), has_derivatives2 (ad_last p) (ad_fun p v) (ad_mean p) D1 D2 /\
        forall (P : prob) (l : list Z) (X : Z -> Om P -> R) (M : Z -> moms RN), NoDup l ->
          independent P l X (fun i => stdmom (M i)) ->
          (forall i, In i l -> exists s, s <> 0 /\ given eig w2_init cs i = Some (s, M i)) ->
          involves_only (jet_of x) l ->
          let Y := fun o => taylor2 (ad_last p) (ad_fun p v (ad_mean p)) D1 D2 (fun i => ad_sd p i * X i o) in
          u2_n PropMean x = Ret (Ex P Y) /\
          forall n, (2 <= n <= 4)%nat -> u2_m x (Z.of_nat n) = Ret (Ex P (fun o => (Y o - Ex P Y) ^ n)).
Proof. exact C60_moments_of_the_taylor_polynomial_partial_proof. Qed.
Print Assumptions C60_moments_of_the_taylor_polynomial_partial.
Theorem C60_covariance_of_the_taylor_polynomials_partial : forall eig (cs : list (call2 RN)), legal2 cs -> accepted eig w2_init cs ->
  covered_run eig w2_init cs -> derivs2_ok ad_init cs ->
  let p := ad2_run ad_init cs in
  exists w, run2 eig w2_init cs = Ret w /\
    forall u v, let x := w2_var w u in let y := w2_var w v in
      exists (D1 E1 : Z -> R) (D2 E2 : Z -> Z -> R),
        has_derivatives2 (ad_last p) (ad_fun p u) (ad_mean p) D1 D2 /\ has_derivatives2 (ad_last p) (ad_fun p v) (ad_mean p) E1 E2 /\
        forall (P : prob) (l : list Z) (X : Z -> Om P -> R) (M : Z -> moms RN), NoDup l ->
          independent P l X (fun i => stdmom (M i)) ->
          (forall i, In i l -> exists s, s <> 0 /\ given eig w2_init cs i = Some (s, M i)) ->
          involves_only (jet_of x) l -> involves_only (jet_of y) l ->
          let Y := fun o => taylor2 (ad_last p) (ad_fun p u (ad_mean p)) D1 D2 (fun i => ad_sd p i * X i o) in
          let Z := fun o => taylor2 (ad_last p) (ad_fun p v (ad_mean p)) E1 E2 (fun i => ad_sd p i * X i o) in
          u2_cov x y = Ret (Ex P (fun o => (Y o - Ex P Y) * (Z o - Ex P Z))).
Proof. exact C60_covariance_of_the_taylor_polynomials_partial_proof. Qed.
Print Assumptions C60_covariance_of_the_taylor_polynomials_partial.
(** Two variables, a UReal, a product and a quotient meet the hypotheses. *)
Example C60_case : legal2 ord3 /\ accepted no_eig w2_init ord3 /\ covered_run no_eig w2_init ord3 /\ derivs2_ok ad_init ord3 /\
  ad_fun (ad2_run ad_init ord3) 3%nat = (fun e => e 1%Z / e 2%Z).
Proof.
  split; [exact ord3_legal|]. split; [exact ord3_accepted|]. split; [exact ord3_covered|]. split; [exact ord3_derivs|exact ord3_value].
Qed.
(** Not so for x + x^2 at x = a*b + c. *)
Theorem C60_second_order_taylor_refuted : exists eig (cs : list (call2 RN)) w (v : nat) (i j : Z) a b,
  legal2 cs /\ accepted eig w2_init cs /\ derivs2_ok ad_init cs /\ run2 eig w2_init cs = Ret w /\
  let p := ad2_run ad_init cs in
  i <> j /\ ad_sd p i = 1 /\ ad_sd p j = 1 /\
  twice_differentiable (fun s t => ad_fun p v (moved (ad_mean p) (fun k => if Z.eqb k i then 1 else 0) (fun k => if Z.eqb k j then 1 else 0) s t)) 0 0
    0 0 a b 1 /\
  j_h (jet_of (w2_var w v)) i j = 0.
Proof. exact C60_second_order_taylor_refuted_proof. Qed.
Print Assumptions C60_second_order_taylor_refuted.
