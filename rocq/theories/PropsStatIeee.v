(** * PropsStatIeee: matrices of covariances and correlations on doubles (C81)

    Generated from tools/PropsStatIeee.in. *)

From Coq Require Import List ZArith Bool Reals Lra Lia.
From Flocq Require Import Core BinarySingleNaN.
From Verif Require Import Base Num Map UReal World Sums Stat Stat2 HessGrad Moments CheckMoments UReal2 World2 SpecObs SpecU2 SpecU2Run
  Ieee IeeeFacts IoAcc1 SpecIeee SpecIeee2 IeeeProofs5 SpecAcc2 SpecStatIeee DemoAcc2 StatAcc StatAcc2 StatAcc3.
Import ListNotations.
Local Open Scope R_scope.

(** ** C81 *)
Theorem C81_cov_matrix : forall w, dreachable w -> forall us : list nat,
  let xs := map (w_var w) us in let n := length us in
  exists V, cov_matrix xs = Ret V /\ length V = (n * n)%nat /\
  (forall i j, (i < n)%nat -> (j < n)%nat -> nth_error V (n * i + j) = nth_error V (n * j + i)) /\
  ((forall u, In u us -> bounded (w_var w u)) -> List.Forall finite V /\
   forall i j u v, nth_error us i = Some u -> nth_error us j = Some v ->
     let x := w_var w u in let y := w_var w v in let m := length (coefs x) in
     Rabs (entry n V i j - sum_prod (common x y)) <= ((1 + uround) ^ (m + 1) - 1) * (exact_dev x * exact_dev y) + INR m * pow2 (-1074)).
Proof. exact C81_cov_matrix_proof. Qed.
Print Assumptions C81_cov_matrix.
Theorem C81_positive_partial : forall w, dreachable w -> forall us : list nat,
  let xs := map (w_var w) us in let n := length us in
  (forall u, In u us -> bounded (w_var w u)) -> forall V, cov_matrix xs = Ret V ->
  forall m, (forall u, In u us -> (length (coefs (w_var w u)) <= m)%nat) -> forall a : nat -> R,
  - ((1 + uround) ^ (m + 1) - 1) * (rsum (seq 0 n) (fun i => Rabs (a i) * exact_dev (nth i xs u_default))) ^ 2
  - INR m * pow2 (-1074) * (rsum (seq 0 n) (fun i => Rabs (a i))) ^ 2 <= form n V a.
Proof. exact C81_positive_partial_proof. Qed.
Print Assumptions C81_positive_partial.
Theorem C81_positive_refuted : exists cs w, dlegal cs /\ run w_init cs = Ret w /\ exists us, let xs := map (w_var w) us in let n := length us in
  (forall u, In u us -> bounded (w_var w u)) /\ exists V, cov_matrix xs = Ret V /\ List.Forall finite V /\ exists a, form n V a < 0.
Proof. exact C81_positive_refuted_proof. Qed.
Print Assumptions C81_positive_refuted.
Theorem C81_corr_matrix : forall cs w, dlegal cs -> List.Forall (fun c => self_assign c = false) cs -> run w_init cs = Ret w ->
  forall us : list nat, let xs := map (w_var w) us in let n := length us in
  exists C, corr_matrix xs = Ret C /\ length C = (n * n)%nat /\
  (forall i j, (i < n)%nat -> (j < n)%nat -> nth_error C (n * i + j) = nth_error C (n * j + i)) /\
  ((forall u, In u us -> regular_dev (w_var w u)) -> List.Forall finite C /\
   forall i j u v, nth_error us i = Some u -> nth_error us j = Some v ->
     let x := w_var w u in let y := w_var w v in let m := Nat.max (length (coefs x)) (length (coefs y)) in
     let rho := sum_prod (common x y) / (exact_dev x * exact_dev y) in
     Rabs rho <= 1 /\ Rabs (entry n C i j - rho) <= 7 * (INR m + 3) * uround).
Proof. exact C81_corr_matrix_proof. Qed.
Print Assumptions C81_corr_matrix.
Theorem C81_corr2cov_partial : forall cs w, dlegal cs -> List.Forall (fun c => self_assign c = false) cs -> run w_init cs = Ret w ->
  forall us : list nat, let xs := map (w_var w) us in let n := length us in
  (forall u, In u us -> regular_dev (w_var w u)) ->
  exists C V W, corr_matrix xs = Ret C /\ cov_matrix xs = Ret V /\ corr2cov (map u_s xs) C = Ret W /\ length W = (n * n)%nat /\ List.Forall finite W /\
  forall i j u v, nth_error us i = Some u -> nth_error us j = Some v ->
    Rabs (entry n W i j - entry n V i j) <=
      3 * uround * Rabs (entry n V i j) + pow2 (-1074) * (1 + real_of (u_s (w_var w u)) * real_of (u_s (w_var w v))).
Proof. exact C81_corr2cov_partial_proof. Qed.
Print Assumptions C81_corr2cov_partial.
Theorem C81_corr2cov_refuted : exists cs w, dlegal cs /\ run w_init cs = Ret w /\ exists us, let xs := map (w_var w) us in
  (forall u, In u us -> bounded (w_var w u)) /\ exists C V W, corr_matrix xs = Ret C /\ cov_matrix xs = Ret V /\ corr2cov (map u_s xs) C = Ret W /\
  List.Forall finite V /\ exists k c r, nth_error C k = Some c /\ nth_error W k = Some r /\ is_nan c = true /\ is_nan r = true.
Proof. exact C81_corr2cov_refuted_proof. Qed.
Print Assumptions C81_corr2cov_refuted.
Theorem C81_second_order_matrix_partial : forall eig (cs : list (call2 DN)) w, legal2 cs -> run2 eig w2_init cs = Ret w ->
  forall us : list nat, let xs := map (w2_var w) us in let n := length us in (forall u, In u us -> ordinary (w2_var w u)) ->
  exists V, cov_matrix2 xs = Ret V /\ length V = (n * n)%nat /\ List.Forall finite V /\
  forall i j u v, nth_error us i = Some u -> nth_error us j = Some v -> let x := w2_var w u in let y := w2_var w v in
    exists r a a', u2_cov (exactly x) (exactly y) = Ret r /\ u2_cov (sized 0 x) (sized 0 y) = Ret a /\ u2_cov (sized 0 y) (sized 0 x) = Ret a' /\
      Rabs (entry n V i j - r) <= 4 * INR (depth_cov (n_ids x) (n_ids y)) * uround * a /\
      Rabs (entry n V i j - entry n V j i) <= 4 * INR (depth_cov (n_ids x) (n_ids y)) * uround * (a + a').
Proof. exact C81_second_order_matrix_partial_proof. Qed.
Print Assumptions C81_second_order_matrix_partial.
Theorem C81_second_order_symmetric_refuted : exists eig (cs : list (call2 DN)) w, legal2 cs /\ run2 eig w2_init cs = Ret w /\
  exists v v', let x := w2_var w v in let y := w2_var w v' in
  exists a b, u2_cov x y = Ret a /\ u2_cov y x = Ret b /\ finite a /\ finite b /\ real_of a <> real_of b /\
  exists V, cov_matrix2 [x; y] = Ret V /\ nth_error V 1 = Some a /\ nth_error V 2 = Some b.
Proof. exact C81_second_order_symmetric_refuted_proof. Qed.
Print Assumptions C81_second_order_symmetric_refuted.
(** x = 0 +- 67108865 and 3 x, on UReal; z = x y x and s = x + y of exponential variables, on UReal2. *)
Example C81_case : dlegal triple /\ List.Forall (fun c => self_assign c = false) triple /\ run w_init triple = Ret (after triple) /\
  (forall u, In u [0%nat; 2%nat] -> regular_dev (w_var (after triple) u)) /\
  legal2 acc_demo /\ run2 no_eig w2_init acc_demo = Ret acc_world /\ forall u, In u [3%nat; 4%nat] -> ordinary (w2_var acc_world u).
Proof.
  split; [exact triple_legal|]. split; [repeat constructor|]. split; [exact triple_run|]. split; [exact triple_regular|].
  split; [exact acc_demo_legal|]. split; [exact acc_demo_run|]. intros u [<-|[<-|[]]]; [exact z_ordinary|exact s_ordinary].
Qed.
