(** * PropsDistr: distribution factories (C37, C38, C39)

    Generated from tools/PropsDistr.in. *)

From Coq Require Import List ZArith Bool Reals Lra Lia.
From Coquelicot Require Import Coquelicot.
From Verif Require Import Base Num Map UReal Stat World HessGrad Moments CheckMoments UReal2 World2 Distr Sums
  SpecProb SpecMom SpecHankel SpecDistr DistrProofs DistrProofs2 Demo3 Demo4.
Import ListNotations.
Local Open Scope R_scope.

(** ** C37 *)
Theorem C37_normal : forall mu sigma : R, exists m : moms RN,
  (forall eig last, d_normal (N := RN) eig last mu sigma = u2_new_std eig last mu sigma m 0) /\
  (0 < sigma -> forall k, (k <= 8)%nat ->
     average (normal_density mu sigma) minus_infinity plus_infinity (fun x => ((x - mu) / sigma) ^ k) (stdmom m k)).
Proof. exact C37_normal_proof. Qed.
Print Assumptions C37_normal.
Theorem C37_chisquare : forall k : Z,
  ((k < 0)%Z -> forall eig last, d_chisquare (N := RN) eig last k = (last, Throw InvalidArgument)) /\
  (k = 0%Z -> forall eig last, d_chisquare (N := RN) eig last k = (last, Ret (u2_const (0 : RN)))) /\
  ((0 < k)%Z -> exists m : moms RN, let sigma := sqrt (2 * IZR k) in
     (forall eig last, d_chisquare (N := RN) eig last k = u2_new_std eig last (IZR k : RN) (sigma : RN) m 0) /\
     average (chisquare_density (IZR k)) zero_plus plus_infinity (fun x => x) (IZR k) /\
     average (chisquare_density (IZR k)) zero_plus plus_infinity (fun x => (x - IZR k) ^ 2) (sigma ^ 2) /\
     forall j, (j <= 8)%nat ->
       average (chisquare_density (IZR k)) zero_plus plus_infinity (fun x => ((x - IZR k) / sigma) ^ j) (stdmom m j)).
Proof. exact C37_chisquare_proof. Qed.
Print Assumptions C37_chisquare.
Theorem C37_uniform : forall left right : R, exists (m : moms RN) (sigma : R),
  (forall eig last, d_uniform (N := RN) eig last left right = u2_new_std eig last ((left + right) / 2 : R) sigma m 0) /\
  (right < left -> sigma < 0) /\ (left = right -> sigma = 0) /\
  (left < right -> 0 < sigma /\
     average uniform_density (at_point left) (at_point right) (fun x => x) ((left + right) / 2) /\
     average uniform_density (at_point left) (at_point right) (fun x => (x - (left + right) / 2) ^ 2) (sigma ^ 2) /\
     forall k, (k <= 8)%nat ->
       average uniform_density (at_point left) (at_point right) (fun x => ((x - (left + right) / 2) / sigma) ^ k) (stdmom m k)).
Proof. exact C37_uniform_proof. Qed.
Print Assumptions C37_uniform.
Theorem C37_queries : forall eig last l x,
  (forall mu sigma : R, 0 < sigma -> d_normal (N := RN) eig last mu sigma = (l, Ret x) ->
     describes (normal_density mu sigma) minus_infinity plus_infinity mu x) /\
  (forall k : Z, (0 < k)%Z -> d_chisquare (N := RN) eig last k = (l, Ret x) ->
     describes (chisquare_density (IZR k)) zero_plus plus_infinity (IZR k) x) /\
  (forall left right : R, left < right -> d_uniform (N := RN) eig last left right = (l, Ret x) ->
     describes uniform_density (at_point left) (at_point right) ((left + right) / 2) x).
Proof. exact C37_queries_proof. Qed.
Print Assumptions C37_queries.
Theorem C37_invalid_parameters : forall eig last,
  (forall mu sigma : R, sigma < 0 -> d_normal (N := RN) eig last mu sigma = (last, Throw InvalidArgument)) /\
  (forall k : Z, (k < 0)%Z -> d_chisquare (N := RN) eig last k = (last, Throw InvalidArgument)) /\
  (forall left right : R, right < left -> d_uniform (N := RN) eig last left right = (last, Throw InvalidArgument)).
Proof. exact C37_invalid_parameters_proof. Qed.
Print Assumptions C37_invalid_parameters.
Theorem C37_degenerate : forall eig last l x,
  (forall mu : R, d_normal (N := RN) eig last mu 0 = (l, Ret x) \/ d_uniform (N := RN) eig last mu mu = (l, Ret x) ->
     u2_first_order_n x = mu /\ (forall p, u2_n p x = Ret (mu : RN)) /\ u2_s x = Ret (0 : RN) /\
     forall k, (1 <= k <= 4)%nat -> u2_m x (Z.of_nat k) = Ret (0 : RN)) /\
  (d_chisquare (N := RN) eig last 0 = (l, Ret x) -> l = last /\ u2_isindep x = true /\ (forall p, u2_n p x = Ret (0 : RN)) /\
     forall k, (1 <= k <= 4)%nat -> u2_m x (Z.of_nat k) = Ret (0 : RN)).
Proof. exact C37_degenerate_proof. Qed.
Print Assumptions C37_degenerate.
(** Factories that return: a solver that accepts everything, three degrees of freedom. *)
Example C37_case : exists eig last l x, d_chisquare (N := RN) eig last 3 = (l, Ret x).
Proof.
  destruct solver_exists as [eig H]. destruct (C39_valid_parameters_accepted_proof eig 0 H) as (_ & K & _).
  destruct (K 3%Z ltac:(lia)) as [x Ex]. eauto.
Qed.

(** ** C38 *)
Theorem C38_binomial_coefficients : forall n k : Z,
  ((0 <= k <= n)%Z -> (n <= 8)%Z -> exists c, binom_coeff n k = Ret c /\
     (c * Z.of_nat (fact (Z.to_nat k)) * Z.of_nat (fact (Z.to_nat (n - k))) = Z.of_nat (fact (Z.to_nat n)))%Z) /\
  (~ ((0 <= k <= n)%Z /\ (n <= 8)%Z) -> binom_coeff n k = Assert).
Proof. exact C38_binomial_coefficients_proof. Qed.
Print Assumptions C38_binomial_coefficients.
Theorem C38_central_moments : forall (P : expect) (X : Om P -> R),
  (forall k, (k <= 8)%nat -> int P (fun o => X o ^ k)) ->
  central_moments (N := RN) (map (fun k => Ex P (fun o => X o ^ k)) (seq 1 8)) =
  Ret (map (fun k => Ex P (fun o => (X o - Ex P X) ^ k)) (seq 2 7)).
Proof. exact C38_central_moments_proof. Qed.
Print Assumptions C38_central_moments.
Theorem C38_standardized_moments : forall (P : expect) (X : Om P -> R),
  (forall k, (k <= 8)%nat -> int P (fun o => X o ^ k)) ->
  let mu := Ex P X in
  let var := Ex P (fun o => (X o - mu) ^ 2) in
  0 < var ->
  std_moments (N := RN) (map (fun k => Ex P (fun o => (X o - mu) ^ k)) (seq 2 7)) =
  Ret (map (fun k => Ex P (fun o => ((X o - mu) / sqrt var) ^ k)) (seq 3 6)).
Proof. exact C38_standardized_moments_proof. Qed.
Print Assumptions C38_standardized_moments.
(** The raw moments of a fair coin with values 0 and 1. *)
Example C38_case : (forall k, (k <= 8)%nat -> int coin (fun o => ((1 + toss o) / 2) ^ k)) /\ 
  0 < Ex coin (fun o => ((1 + toss o) / 2 - Ex coin (fun o => (1 + toss o) / 2)) ^ 2).
Proof. split; [intros; exact I|]. cbn. unfold toss. lra. Qed.

(** ** C39 *)
Theorem C39_valid_parameters_accepted : forall eig last, solver_correct eig ->
  (forall mu sigma : R, 0 <= sigma -> exists x, d_normal (N := RN) eig last mu sigma = (wrap32 (last + 1), Ret x)) /\
  (forall k : Z, (0 < k)%Z -> exists x, d_chisquare (N := RN) eig last k = (wrap32 (last + 1), Ret x)) /\
  (exists x, d_chisquare (N := RN) eig last 0 = (last, Ret x)) /\
  (forall left right : R, left <= right -> exists x, d_uniform (N := RN) eig last left right = (wrap32 (last + 1), Ret x)).
Proof. exact C39_valid_parameters_accepted_proof. Qed.
Print Assumptions C39_valid_parameters_accepted.
Example C39_case : exists eig, solver_correct eig.
Proof. exact solver_exists. Qed.
