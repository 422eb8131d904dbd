(** * PropsStat2: the matrices of UReal2 variables (C73)

    Generated from tools/PropsStat2.in. *)

From Coq Require Import List ZArith Bool Reals Lra Lia.
From Verif Require Import Base Num Map UReal World HessGrad Moments CheckMoments UReal2 World2 Sums SpecObs SpecU2 SpecU2Run
  SpecProb SpecMom Stat Stat2 Stat2Proofs Demo Demo2 Demo3 Demo3Stat.
Import ListNotations.
Local Open Scope R_scope.

(** ** C73 *)
Theorem C73_matrices : forall (N : Num) (eig : list (list N) -> option (list N)),
  nltb (n0 : N) n0 = false -> forall w, reachable2 eig w -> forall us : list nat,
  let xs := map (w2_var w) us in let n := length us in
  exists V C, cov_matrix2 xs = Ret V /\ corr_matrix2 xs = Ret C /\
    length V = (n * n)%nat /\ length C = (n * n)%nat /\
    (forall i j u v, nth_error us i = Some u -> nth_error us j = Some v -> exists a b,
       nth_error V (n * i + j) = Some a /\ u2_cov (w2_var w u) (w2_var w v) = Ret a /\
       nth_error C (n * i + j) = Some b /\ u2_corr (w2_var w u) (w2_var w v) = Ret b) /\
    (forall out, (n * n <= length out)%nat ->
       cov_matrix2_it xs out = Ret (V ++ skipn (n * n) out) /\
       corr_matrix2_it xs out = Ret (C ++ skipn (n * n) out)) /\
    forall p, exists ms, nom_vector2 p xs = Ret ms /\ length ms = n /\
      forall i u, nth_error us i = Some u -> exists m, nth_error ms i = Some m /\ u2_n p (w2_var w u) = Ret m.
Proof. exact C73_matrices_proof. Qed.
Print Assumptions C73_matrices.
Theorem C73_positive : forall eig (cs : list (call2 RN)) (w : world2 RN),
  legal2 cs -> run2 eig w2_init cs = Ret w -> forall (us : list nat) V,
  cov_matrix2 (map (w2_var w) us) = Ret V ->
  let n := length us in
  (forall i j, (i < n)%nat -> (j < n)%nat -> nth (n * i + j) V 0 = nth (n * j + i) V 0) /\
  ((forall i s m, given eig w2_init cs i = Some (s, m) -> s <> 0 -> realizable m) ->
   forall a : nat -> R,
     0 <= rsum (seq 0 n) (fun i => rsum (seq 0 n) (fun j => a i * a j * nth (n * i + j) V 0))).
Proof. exact C73_positive_proof. Qed.
Print Assumptions C73_positive.
Theorem C73_corr2cov : forall eig (w : world2 RN), reachable2 eig w -> forall us : list nat,
  (forall u, In u us -> exists s, u2_s (w2_var w u) = Ret s /\ s <> 0) ->
  let xs := map (w2_var w) us in
  exists C V S, corr_matrix2 xs = Ret C /\ cov_matrix2 xs = Ret V /\ length S = length us /\
    (forall i u, nth_error us i = Some u -> exists s, nth_error S i = Some s /\ u2_s (w2_var w u) = Ret s) /\
    corr2cov S C = Ret V.
Proof. exact C73_corr2cov_proof. Qed.
Print Assumptions C73_corr2cov.
(** The history a = 0 +- 1; b = 0 +- 1; c = a + b with the moments of a fair coin, and the
    matrix of a and c. *)
Example C73_case : legal2 demo3 /\
  (forall i s m, given no_eig w2_init demo3 i = Some (s, m) -> s <> 0 -> realizable m) /\
  exists w, run2 no_eig w2_init demo3 = Ret w /\ reachable2 no_eig w /\
    cov_matrix2 (map (w2_var w) [0%nat; 2%nat]) = Ret [1; 1; 1; 2] /\
    forall u, In u [0%nat; 2%nat] -> exists s, u2_s (w2_var w u) = Ret s /\ s <> 0.
Proof.
  split; [exact demo3_legal|]. split; [exact demo3_realizable|].
  destruct demo3_stat as (w & E & V & S0 & S2). exists w. split; [exact E|].
  split; [exists demo3; split; [exact demo3_legal|exact E]|]. split; [exact V|].
  intros u [<-|[<-|[]]]; eexists; (split; [eassumption|]).
  - lra.
  - apply Rgt_not_eq. apply sqrt_lt_R0. lra.
Qed.
