(** * PropsStat: the properties of stat.hpp (C17, C18)

    Generated from tools/PropsStat.in. *)

From Coq Require Import List ZArith Bool Reals Lra Lia.
From Verif Require Import Base Num Map UReal World Sums SpecLin SpecObs Stat StatProofs Demo.
Import ListNotations.
Local Open Scope R_scope.

(** ** C17 *)
Theorem C17_cov_matrix_layout : forall (N : Num) (xs : list (ureal N)),
  exists V, cov_matrix xs = Ret V /\ length V = (length xs * length xs)%nat /\
    (forall i j x y, nth_error xs i = Some x -> nth_error xs j = Some y ->
       nth_error V (length xs * i + j) = Some (u_cov x y)).
Proof. exact C17_cov_matrix_layout_proof. Qed.
Print Assumptions C17_cov_matrix_layout.
Theorem C17_corr_matrix_layout : forall (N : Num) (xs : list (ureal N)),
  exists V, corr_matrix xs = Ret V /\ length V = (length xs * length xs)%nat /\
    (forall i j x y, nth_error xs i = Some x -> nth_error xs j = Some y ->
       nth_error V (length xs * i + j) = Some (u_corr x y)).
Proof. exact C17_corr_matrix_layout_proof. Qed.
Print Assumptions C17_corr_matrix_layout.
Theorem C17_iterator_versions : forall (N : Num) (xs : list (ureal N)) (out : list N),
  (length xs * length xs <= length out)%nat ->
  exists V C, cov_matrix xs = Ret V /\ corr_matrix xs = Ret C /\
    cov_matrix_it xs out = Ret (V ++ skipn (length xs * length xs) out) /\
    corr_matrix_it xs out = Ret (C ++ skipn (length xs * length xs) out).
Proof. exact C17_iterator_versions_proof. Qed.
Print Assumptions C17_iterator_versions.
Theorem C17_nom_vector : forall (N : Num) (xs : list (ureal N)), nom_vector xs = map u_n xs.
Proof. exact C17_nom_vector_proof. Qed.
Print Assumptions C17_nom_vector.
Theorem C17_symmetric_psd : forall w, reachable w -> forall (us : list nat) V,
  cov_matrix (map (w_var w) us) = Ret V ->
  let n := length us in
  (forall i j, (i < n)%nat -> (j < n)%nat -> nth (n * i + j) V 0 = nth (n * j + i) V 0) /\
  (forall a : nat -> R,
     0 <= rsum (seq 0 n) (fun i => rsum (seq 0 n) (fun j => a i * a j * nth (n * i + j) V 0))).
Proof. exact C17_symmetric_psd_proof. Qed.
Print Assumptions C17_symmetric_psd.
(** A covariance matrix with nonzero off-diagonal entries. *)
Example C17_case : exists w V, reachable w /\ cov_matrix (map (w_var w) [0%nat; 2%nat]) = Ret V /\
  length V = 4%nat /\ nth_error V 1 = Some 1.
Proof.
  destruct demo_world as (w & R' & E & H).
  destruct (C17_cov_matrix_layout RN (map (w_var w) [0%nat; 2%nat])) as (V & E1 & L & F).
  exists w, V. split; [exact R'|]. split; [exact E1|]. split; [exact L|].
  etransitivity; [exact (F 0%nat 1%nat (w_var w 0%nat) (w_var w 2%nat) eq_refl eq_refl)|].
  f_equal. tauto.
Qed.

(** ** C18 *)
Theorem C18_corr2cov : forall (N : Num) (sigma corr : list N),
  let n := length sigma in
  (corr2cov sigma corr = Throw InvalidArgument <-> length corr <> (n * n)%nat) /\
  (length corr = (n * n)%nat -> exists V, corr2cov sigma corr = Ret V /\ length V = (n * n)%nat /\
     forall i j si sj c, nth_error sigma i = Some si -> nth_error sigma j = Some sj ->
       nth_error corr (n * i + j) = Some c ->
       nth_error V (n * i + j) = Some (nmul (nmul si sj) c)).
Proof. exact C18_corr2cov_proof. Qed.
Print Assumptions C18_corr2cov.
Theorem C18_corr2cov_inverts : forall w, reachable w -> forall us : list nat,
  (forall u, In u us -> u_s (w_var w u) <> 0) ->
  let xs := map (w_var w) us in
  exists C V, corr_matrix xs = Ret C /\ cov_matrix xs = Ret V /\ corr2cov (map u_s xs) C = Ret V.
Proof. exact C18_corr2cov_inverts_proof. Qed.
Print Assumptions C18_corr2cov_inverts.
Example C18_case : exists w, reachable w /\ forall u, In u [0%nat; 1%nat] -> u_s (w_var w u) <> 0.
Proof.
  destruct demo_world as (w & R' & E & H). exists w. split; [exact R'|].
  intros u [<-|[<-|[]]]; lra.
Qed.
