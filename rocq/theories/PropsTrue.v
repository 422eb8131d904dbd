(** * PropsTrue: distance between propagated and true means, deviations and covariances (C90)

    Generated from tools/PropsTrue.in. *)

From Coq Require Import List ZArith Bool Reals Lra Lia.
From Coquelicot Require Import Coquelicot.
From Verif Require Import Base Num Map UReal World HessGrad Moments CheckMoments UReal2 World2 SpecLin SpecObs SpecAD SpecU2 SpecU2Run SpecProb SpecMom
  SpecMath2 SpecOrder SpecAD2 Demo2 Demo3 SpecTrue TrueProofs TrueProofs2 TrueDemo SpecAffine TrueAffine SpecDegree TrueQuad.
Import ListNotations.
Local Open Scope R_scope.

(** ** C90: let the independent variables be random, uncorrelated, with the given means and deviations, and let [Y] be
    what the program computes from their values.  If on the way from the means to the values the second derivative of the
    program does not exceed [B], then n() differs from the mean of [Y] by at most half of the mean of [B], and s() from the
    standard deviation of [Y] by at most half of the root mean square of [B]. *)
Theorem C90_first_order : forall cs, List.Forall nary_ok cs -> (count_new cs <= max_new)%nat -> derivs_ok ad_init cs ->
  let p := ad_run ad_init cs in
  exists w, run w_init cs = Ret w /\
    forall v (P : prob) (X : Z -> Om P -> R) (B : Om P -> R), standardized P (ad_last p) X ->
      let path := fun o t => ad_fun p v (part_way (ad_mean p) (ad_sd p) (fun i => X i o) t) in
      let Y := fun o => path o 1 in
      (forall o, bends 2 (path o) (B o)) -> int P Y -> int P B ->
      Rabs (u_n (w_var w v) - Ex P Y) <= Ex P B / 2 /\
      (with_products P -> finite_variance P Y -> finite_variance P B ->
       Rabs (u_s (w_var w v) - true_sd P Y) <= rms P B / 2).
Proof. exact C90_first_order_proof. Qed.
Print Assumptions C90_first_order.
Theorem C90_first_order_covariance : forall cs, List.Forall nary_ok cs -> (count_new cs <= max_new)%nat -> derivs_ok ad_init cs ->
  let p := ad_run ad_init cs in
  exists w, run w_init cs = Ret w /\
    forall u v (P : prob) (X : Z -> Om P -> R) (B B' : Om P -> R), standardized P (ad_last p) X -> with_products P ->
      let path := fun x o t => ad_fun p x (part_way (ad_mean p) (ad_sd p) (fun i => X i o) t) in
      let Y := fun x o => path x o 1 in
      (forall o, bends 2 (path u o) (B o)) -> (forall o, bends 2 (path v o) (B' o)) ->
      finite_variance P (Y u) -> finite_variance P B -> finite_variance P (Y v) -> finite_variance P B' ->
      Rabs (u_cov (w_var w u) (w_var w v) - true_cov P (Y u) (Y v)) <=
        u_s (w_var w u) * (rms P B' / 2) + rms P B / 2 * u_s (w_var w v) + rms P B / 2 * (rms P B' / 2).
Proof. exact C90_first_order_covariance_proof. Qed.
Print Assumptions C90_first_order_covariance.
(** The square of 3 +- 1/2, for a fair coin: s() is within 1/4 of the deviation. *)
Example C90_case_square : let p := ad_run ad_init square_prog in
  List.Forall nary_ok square_prog /\ (count_new square_prog <= max_new)%nat /\ derivs_ok ad_init square_prog /\
  standardized coin (ad_last p) (fun _ => toss) /\ with_products coin /\
  (forall o : bool, bends 2 (fun t => ad_fun p 1%nat (part_way (ad_mean p) (ad_sd p) (fun _ => toss o) t)) (1 / 2)) /\
  (forall f : bool -> R, finite_variance coin f) /\
  rms coin (fun _ => 1 / 2) = 1 / 2.
Proof. exact square_case. Qed.
(** Sums, differences and products with numbers: the mean, the deviation and the covariances are exactly those of what the
    program computes, whatever the distributions. *)
Theorem C90_affine_exact : forall cs, List.Forall nary_ok cs -> (count_new cs <= max_new)%nat -> derivs_ok ad_init cs ->
  affine_run ad_init cs ->
  let p := ad_run ad_init cs in
  exists w, run w_init cs = Ret w /\
    forall u v (P : prob) (X : Z -> Om P -> R), standardized P (ad_last p) X -> with_products P ->
      let Y := fun x o => ad_fun p x (part_way (ad_mean p) (ad_sd p) (fun i => X i o) 1) in
      u_n (w_var w v) = Ex P (Y v) /\ u_s (w_var w v) = true_sd P (Y v) /\
      u_cov (w_var w u) (w_var w v) = true_cov P (Y u) (Y v).
Proof. exact C90_affine_exact_proof. Qed.
Print Assumptions C90_affine_exact.
Example C90_case_affine : let p := ad_run ad_init affine_prog in
  List.Forall nary_ok affine_prog /\ (count_new affine_prog <= max_new)%nat /\ derivs_ok ad_init affine_prog /\
  affine_run ad_init affine_prog /\ standardized coin (ad_last p) (fun _ => toss) /\ with_products coin.
Proof. exact affine_case. Qed.
(** For UReal2, with third derivatives and a sixth: the mean with its correction, and the deviation.  What is missing: programs
    that take the second derivative of a function of several variables. *)
Theorem C90_second_order_partial : forall eig (cs : list (call2 RN)), legal2 cs -> accepted eig w2_init cs ->
  covered_run eig w2_init cs -> derivs2_ok ad_init cs ->
  let p := ad2_run ad_init cs in
  exists w, run2 eig w2_init cs = Ret w /\
    forall v (P : prob) (l : list Z) (X : Z -> Om P -> R) (M : Z -> moms RN) (B : Om P -> R), let x := w2_var w v in NoDup l ->
      independent P l X (fun i => stdmom (M i)) ->
      (forall i, In i l -> exists s, s <> 0 /\ given eig w2_init cs i = Some (s, M i)) ->
      involves_only (jet_of x) l ->
      let path := fun o t => ad_fun p v (part_way (ad_mean p) (ad_sd p) (fun i => X i o) t) in
      let Y := fun o => path o 1 in
      (forall o, bends 3 (path o) (B o)) -> int P Y -> int P B ->
      exists n s, u2_n PropMean x = Ret n /\ u2_s x = Ret s /\
        Rabs (n - Ex P Y) <= Ex P B / 6 /\
        (with_products P -> finite_variance P Y -> finite_variance P B -> Rabs (s - true_sd P Y) <= rms P B / 6).
Proof. exact C90_second_order_partial_proof. Qed.
Print Assumptions C90_second_order_partial.
Theorem C90_second_order_covariance_partial : forall eig (cs : list (call2 RN)), legal2 cs -> accepted eig w2_init cs ->
  covered_run eig w2_init cs -> derivs2_ok ad_init cs ->
  let p := ad2_run ad_init cs in
  exists w, run2 eig w2_init cs = Ret w /\
    forall u v (P : prob) (l : list Z) (X : Z -> Om P -> R) (M : Z -> moms RN) (B B' : Om P -> R),
      let x := w2_var w u in let y := w2_var w v in NoDup l ->
      independent P l X (fun i => stdmom (M i)) ->
      (forall i, In i l -> exists s, s <> 0 /\ given eig w2_init cs i = Some (s, M i)) ->
      involves_only (jet_of x) l -> involves_only (jet_of y) l -> with_products P ->
      let path := fun z o t => ad_fun p z (part_way (ad_mean p) (ad_sd p) (fun i => X i o) t) in
      let Y := fun z o => path z o 1 in
      (forall o, bends 3 (path u o) (B o)) -> (forall o, bends 3 (path v o) (B' o)) ->
      finite_variance P (Y u) -> finite_variance P B -> finite_variance P (Y v) -> finite_variance P B' ->
      exists c sx sy, u2_cov x y = Ret c /\ u2_s x = Ret sx /\ u2_s y = Ret sy /\
        Rabs (c - true_cov P (Y u) (Y v)) <= sx * (rms P B' / 6) + rms P B / 6 * sy + rms P B / 6 * (rms P B' / 6).
Proof. exact C90_second_order_covariance_partial_proof. Qed.
Print Assumptions C90_second_order_covariance_partial.
(** The cube of 1 +- 1/2. *)
Example C90_case_cube : let p := ad2_run ad_init cube_prog in
  legal2 cube_prog /\ accepted no_eig w2_init cube_prog /\ covered_run no_eig w2_init cube_prog /\ derivs2_ok ad_init cube_prog /\
  independent coin [1%Z] (fun _ => toss) (fun _ => stdmom pm1) /\ with_products coin /\
  given no_eig w2_init cube_prog 1 = Some (1 / 2, pm1) /\
  (forall w, run2 no_eig w2_init cube_prog = Ret w -> involves_only (jet_of (w2_var w 1%nat)) [1%Z]) /\
  (forall o : bool, bends 3 (fun t => ad_fun p 1%nat (part_way (ad_mean p) (ad_sd p) (fun _ => toss o) t)) (3 / 4)).
Proof. exact cube_case. Qed.
(** Programs of sums, differences and products of degree at most two: the mean, the moments up to the fourth, the deviation
    and the covariances are exactly those of what the program computes. *)
Theorem C90_polynomials_exact : forall eig (cs : list (call2 RN)), legal2 cs -> accepted eig w2_init cs -> List.Forall ring_call cs ->
  let p := ad2_run ad_init cs in
  exists w, run2 eig w2_init cs = Ret w /\
    forall u v (P : prob) (l : list Z) (X : Z -> Om P -> R) (M : Z -> moms RN),
      let x := w2_var w u in let y := w2_var w v in (degree cs u <= 2)%nat -> (degree cs v <= 2)%nat -> NoDup l ->
      independent P l X (fun i => stdmom (M i)) ->
      (forall i, In i l -> exists s, s <> 0 /\ given eig w2_init cs i = Some (s, M i)) ->
      involves_only (jet_of x) l -> involves_only (jet_of y) l ->
      let Y := fun z o => ad_fun p z (part_way (ad_mean p) (ad_sd p) (fun i => X i o) 1) in
      u2_n PropMean x = Ret (Ex P (Y u)) /\
      (forall k, (2 <= k <= 4)%nat -> int P (fun o => (Y u o - Ex P (Y u)) ^ k) /\
         u2_m x (Z.of_nat k) = Ret (Ex P (fun o => (Y u o - Ex P (Y u)) ^ k))) /\
      u2_s x = Ret (true_sd P (Y u)) /\
      u2_cov x y = Ret (true_cov P (Y u) (Y v)).
Proof. exact C90_polynomials_exact_proof. Qed.
Print Assumptions C90_polynomials_exact.
(** More generally if along every line from the means the program is a polynomial of degree two.  What is missing: programs that
    take the second derivative of a function of several variables. *)
Theorem C90_quadratic_exact_partial : forall eig (cs : list (call2 RN)), legal2 cs -> accepted eig w2_init cs ->
  covered_run eig w2_init cs -> derivs2_ok ad_init cs ->
  let p := ad2_run ad_init cs in
  exists w, run2 eig w2_init cs = Ret w /\
    forall u v (P : prob) (l : list Z) (X : Z -> Om P -> R) (M : Z -> moms RN),
      let x := w2_var w u in let y := w2_var w v in NoDup l ->
      independent P l X (fun i => stdmom (M i)) ->
      (forall i, In i l -> exists s, s <> 0 /\ given eig w2_init cs i = Some (s, M i)) ->
      involves_only (jet_of x) l -> involves_only (jet_of y) l ->
      let path := fun z o t => ad_fun p z (part_way (ad_mean p) (ad_sd p) (fun i => X i o) t) in
      let Y := fun z o => path z o 1 in
      (forall z o, z = u \/ z = v -> exists a b c, forall t, path z o t = a + b * t + c * t ^ 2) ->
      u2_n PropMean x = Ret (Ex P (Y u)) /\
      (forall k, (2 <= k <= 4)%nat -> int P (fun o => (Y u o - Ex P (Y u)) ^ k) /\
         u2_m x (Z.of_nat k) = Ret (Ex P (fun o => (Y u o - Ex P (Y u)) ^ k))) /\
      u2_s x = Ret (true_sd P (Y u)) /\
      u2_cov x y = Ret (true_cov P (Y u) (Y v)).
Proof. exact C90_quadratic_exact_partial_proof. Qed.
Print Assumptions C90_quadratic_exact_partial.
Example C90_case_polynomial :
  legal2 quad_prog /\ accepted no_eig w2_init quad_prog /\ List.Forall ring_call quad_prog /\ degree quad_prog 3%nat = 2%nat /\
  independent coin [1%Z] (fun _ => toss) (fun _ => stdmom pm1) /\
  given no_eig w2_init quad_prog 1 = Some (1 / 2, pm1) /\
  (forall w, run2 no_eig w2_init quad_prog = Ret w -> involves_only (jet_of (w2_var w 3%nat)) [1%Z]).
Proof. exact quad_case. Qed.
(** Not so for (a + b)^2, a polynomial of degree two: the deviation is 2 and the library says 0. *)
Theorem C90_second_order_refuted : exists eig (cs : list (call2 RN)) w v (P : prob) (l : list Z) (X : Z -> Om P -> R) (M : Z -> moms RN) (B : Om P -> R),
  let p := ad2_run ad_init cs in let x := w2_var w v in
  let path := fun o t => ad_fun p v (part_way (ad_mean p) (ad_sd p) (fun i => X i o) t) in
  let Y := fun o => path o 1 in
  legal2 cs /\ accepted eig w2_init cs /\ derivs2_ok ad_init cs /\ run2 eig w2_init cs = Ret w /\
  NoDup l /\ independent P l X (fun i => stdmom (M i)) /\
  (forall i, In i l -> exists s, s <> 0 /\ given eig w2_init cs i = Some (s, M i)) /\ involves_only (jet_of x) l /\
  (forall o, bends 3 (path o) (B o)) /\ with_products P /\ finite_variance P Y /\ finite_variance P B /\
  rms P B = 0 /\ true_sd P Y = 2 /\ u2_s x = Ret 0.
Proof. exact C90_second_order_refuted_proof. Qed.
Print Assumptions C90_second_order_refuted.
