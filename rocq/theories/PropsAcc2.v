(** * PropsAcc2: accuracy of the moments of UReal2 on doubles (C75)

    Generated from tools/PropsAcc2.in. *)

From Coq Require Import List ZArith Bool Reals Lra Lia.
From Flocq Require Import Core BinarySingleNaN.
From Verif Require Import Base Num Map UReal World HessGrad Moments CheckMoments UReal2 World2 SpecObs SpecU2 SpecU2Run SpecCast SpecProb SpecMom
  Ieee SpecIeee SpecAcc2 AccFinal DemoAcc2.
Import ListNotations.
Local Open Scope R_scope.

(** ** C75 *)
Theorem C75_moments : forall eig (cs : list (call2 DN)) w, legal2 cs -> run2 eig w2_init cs = Ret w ->
  forall v n, (1 <= n <= 4)%nat -> let x := w2_var w v in
  exists d, u2_m x (Z.of_nat n) = Ret d /\ (finite d -> exists r a b,
    u2_m (exactly x) (Z.of_nat n) = Ret r /\ u2_m (sized 0 x) (Z.of_nat n) = Ret a /\ u2_m (sized tiny x) (Z.of_nat n) = Ret b /\
    approximates d r a b (depth n (n_ids x))).
Proof. exact C75_moments_proof. Qed.
Print Assumptions C75_moments.
Theorem C75_mean : forall eig (cs : list (call2 DN)) w, legal2 cs -> run2 eig w2_init cs = Ret w ->
  forall v p, let x := w2_var w v in
  exists d, u2_n p x = Ret d /\ (finite d -> exists r a b,
    u2_n p (exactly x) = Ret r /\ u2_n p (sized 0 x) = Ret a /\ u2_n p (sized tiny x) = Ret b /\
    approximates d r a b (depth_mean (n_ids x))).
Proof. exact C75_mean_proof. Qed.
Print Assumptions C75_mean.
Theorem C75_covariance : forall eig (cs : list (call2 DN)) w, legal2 cs -> run2 eig w2_init cs = Ret w ->
  forall v v', let x := w2_var w v in let y := w2_var w v' in
  exists d, u2_cov x y = Ret d /\ (finite d -> exists r a b,
    u2_cov (exactly x) (exactly y) = Ret r /\ u2_cov (sized 0 x) (sized 0 y) = Ret a /\ u2_cov (sized tiny x) (sized tiny y) = Ret b /\
    approximates d r a b (depth_cov (n_ids x) (n_ids y))).
Proof. exact C75_covariance_proof. Qed.
Print Assumptions C75_covariance.
Theorem C75_exact_moments : forall eig (cs : list (call2 DN)) w, legal2 cs -> run2 eig w2_init cs = Ret w ->
  forall v, let x := w2_var w v in
  forall (P : prob) (ids : list Z) (X : Z -> Om P -> R) (M : Z -> moms RN), NoDup ids ->
  independent P ids X (fun i => stdmom (M i)) -> (forall i, In i ids -> has_moments x i (M i)) ->
  involves_only (jet_of (exactly x)) ids ->
  let Y := value (jet_of (exactly x)) ids X in
  int P Y /\ u2_m (exactly x) 1 = Ret (Ex P Y - real_of (u2_first_order_n x)) /\
  forall n, (2 <= n <= 4)%nat -> int P (fun o => (Y o - Ex P Y) ^ n) /\ u2_m (exactly x) (Z.of_nat n) = Ret (Ex P (fun o => (Y o - Ex P Y) ^ n)).
Proof. exact C75_exact_moments_proof. Qed.
Print Assumptions C75_exact_moments.
Theorem C75_exact_covariance : forall eig (cs : list (call2 DN)) w, legal2 cs -> run2 eig w2_init cs = Ret w ->
  forall v v', let x := w2_var w v in let y := w2_var w v' in
  forall (P : prob) (ids : list Z) (X : Z -> Om P -> R) (M : Z -> moms RN), NoDup ids ->
  independent P ids X (fun i => stdmom (M i)) -> (forall i, In i ids -> has_moments x i (M i) /\ has_moments y i (M i)) ->
  involves_only (jet_of (exactly x)) ids -> involves_only (jet_of (exactly y)) ids ->
  let A := value (jet_of (exactly x)) ids X in let B := value (jet_of (exactly y)) ids X in
  int P (fun o => (A o - Ex P A) * (B o - Ex P B)) /\
  u2_cov (exactly x) (exactly y) = Ret (Ex P (fun o => (A o - Ex P A) * (B o - Ex P B))).
Proof. exact C75_exact_covariance_proof. Qed.
Print Assumptions C75_exact_covariance.
Theorem C75_no_overflow : forall eig (cs : list (call2 DN)) w, legal2 cs -> run2 eig w2_init cs = Ret w ->
  forall v, let x := w2_var w v in ordinary x ->
  (forall n, (1 <= n <= 4)%nat -> exists d r a, u2_m x (Z.of_nat n) = Ret d /\ finite d /\ u2_m (exactly x) (Z.of_nat n) = Ret r /\ u2_m (sized 0 x) (Z.of_nat n) = Ret a /\
    Rabs r <= a /\ Rabs (real_of d - r) <= 4 * INR (depth n (n_ids x)) * uround * a) /\
  (forall p, moderate (u2_first_order_n x) -> exists d r a, u2_n p x = Ret d /\ finite d /\ u2_n p (exactly x) = Ret r /\ u2_n p (sized 0 x) = Ret a /\
    Rabs r <= a /\ Rabs (real_of d - r) <= 4 * INR (depth_mean (n_ids x)) * uround * a) /\
  (forall v', let y := w2_var w v' in ordinary y -> exists d r a, u2_cov x y = Ret d /\ finite d /\ u2_cov (exactly x) (exactly y) = Ret r /\ u2_cov (sized 0 x) (sized 0 y) = Ret a /\
    Rabs r <= a /\ Rabs (real_of d - r) <= 4 * INR (depth_cov (n_ids x) (n_ids y)) * uround * a).
Proof. exact C75_no_overflow_proof. Qed.
Print Assumptions C75_no_overflow.
Theorem C75_linear_variance : forall eig (cs : list (call2 DN)) w, legal2 cs -> run2 eig w2_init cs = Ret w ->
  forall v, let x := w2_var w v in ordinary x -> (forall i j, j_h (jet_of (exactly x)) i j = 0) ->
  let r := fold_right (fun (kd : Z * diag DN) s => real_of (dgrad (snd kd)) ^ 2 + s) 0 (diagmap (u2hg x)) in
  u2_m (exactly x) 2 = Ret r /\
  exists d, u2_m x 2 = Ret d /\ finite d /\ Rabs (real_of d - r) <= 4 * INR (depth 2 (n_ids x)) * uround * r.
Proof. exact C75_linear_variance_proof. Qed.
Print Assumptions C75_linear_variance.
(** x = 3 +- 2, y = 5 +- 1 with the moments of exponential variables; z = x y x has second
    derivatives, s = x + y has none. *)
Example C75_case : legal2 acc_demo /\ run2 no_eig w2_init acc_demo = Ret acc_world /\
  ordinary (w2_var acc_world 3%nat) /\ n_ids (w2_var acc_world 3%nat) = 2%nat /\ depth 2 2 = 17%nat /\
  ordinary (w2_var acc_world 4%nat) /\ (forall i j, j_h (jet_of (exactly (w2_var acc_world 4%nat))) i j = 0).
Proof.
  split; [exact acc_demo_legal|]. split; [exact acc_demo_run|]. split; [exact z_ordinary|]. split; [vm_compute; reflexivity|]. split; [reflexivity|].
  split; [exact s_ordinary|exact s_linear].
Qed.
