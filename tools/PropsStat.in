(** * PropsStat: the properties of stat.hpp (C17, C18)

    Generated from tools/PropsStat.in. *)

From Coq Require Import List ZArith Bool Reals Lra Lia.
From Verif Require Import Base Num Map UReal World Sums SpecLin SpecObs Stat StatProofs Demo.
Import ListNotations.
Local Open Scope R_scope.

(** ** C17 *)
@C17_cov_matrix_layout
@C17_corr_matrix_layout
@C17_iterator_versions
@C17_nom_vector
@C17_symmetric_psd
(** A covariance matrix with nonzero off-diagonal entries. *)
Example C17_case : exists w V, reachable w /\ cov_matrix (map (w_var w) [0%nat; 2%nat]) = Ret V /\
  length V = 4%nat /\ nth_error V 1 = Some 1.
Proof.
  destruct demo_world as (w & R' & E & H).
  destruct (C17_cov_matrix_layout RN (map (w_var w) [0%nat; 2%nat])) as (V & E1 & L & F).
  exists w, V. split; [exact R'|]. split; [exact E1|]. split; [exact L|].
  etransitivity; [exact (F 0%nat 1%nat (w_var w 0%nat) (w_var w 2%nat) eq_refl eq_refl)|].
  f_equal. tauto.
Qed.

(** ** C18 *)
@C18_corr2cov
@C18_corr2cov_inverts
Example C18_case : exists w, reachable w /\ forall u, In u [0%nat; 1%nat] -> u_s (w_var w u) <> 0.
Proof.
  destruct demo_world as (w & R' & E & H). exists w. split; [exact R'|].
  intros u [<-|[<-|[]]]; lra.
Qed.
