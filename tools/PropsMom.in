(** * PropsMom: statistics of UReal2 (C28-C30, C32, C33, C49)

    Generated from tools/PropsMom.in. *)

From Coq Require Import List ZArith Bool Reals Lra Lia.
From Verif Require Import Base Num Map UReal World HessGrad Moments CheckMoments UReal2 World2 Sums SpecObs SpecU2 SpecU2Run
  SpecProb SpecMom SpecEst U2Proofs MomGiven MomDeg MomStats MomNew MomCum MomEst MomBilin Demo Demo2 Demo3.
Import ListNotations.
Local Open Scope R_scope.

(** A history a = 0 +- 1; b = 0 +- 1; c = a + b; d = 3 in which both constructions give
    the moments of a fair coin. *)
Example mom_case : legal2 demo3 /\
  (forall i s m, given no_eig w2_init demo3 i = Some (s, m) -> s <> 0 -> realizable m) /\
  exists w, run2 no_eig w2_init demo3 = Ret w /\ reachable2 no_eig w /\
    given no_eig w2_init demo3 1 = Some (1, pm1) /\ given no_eig w2_init demo3 2 = Some (1, pm1) /\
    j_g (jet_of (w2_var w 2%nat)) 1%Z = 1 /\ j_g (jet_of (w2_var w 2%nat)) 2%Z = 1.
Proof.
  split; [exact demo3_legal|]. split; [exact demo3_realizable|].
  destruct demo3_world as (w & E & _ & _ & E2 & _ & G1 & G2). exists w. split; [exact E|].
  split; [exists demo3; split; [exact demo3_legal|exact E]|]. split; [exact G1|]. split; [exact G2|].
  cbn [jet_of j_g]. rewrite E2. split; reflexivity.
Qed.

(** ** C28 *)
@C28_moments_of_the_polynomial
@C28_only_given_variables
@C28_model_exists
(** The two coins of the history above are independent variables to which the
    first theorem applies. *)
Example C28_case : exists w (P : prob) ids X M, run2 no_eig w2_init demo3 = Ret w /\ NoDup ids /\
  independent P ids X (fun i => stdmom (M i)) /\
  (forall i, In i ids -> exists s, s <> 0 /\ given no_eig w2_init demo3 i = Some (s, M i)) /\
  (forall v, involves_only (jet_of (w2_var w v)) ids) /\ In 1%Z ids /\ In 2%Z ids /\ v4 (M 1%Z) = 1.
Proof.
  destruct demo3_world as (w & E & _ & _ & _ & _ & G1 & G2).
  destruct (C28_model_exists no_eig demo3 w demo3_legal E demo3_realizable) as (P & ids & X & M & ND & IND & H & HI).
  assert (K : forall i, In i [1%Z; 2%Z] -> In i ids -> M i = pm1).
  { intros i Hi Hin. apply H in Hin as (s & _ & G). cbn in Hi. destruct Hi as [<-|[<-|[]]]; congruence. }
  assert (J : forall i, In i [1%Z; 2%Z] -> In i ids).
  { intros i Hi. assert (D : involves_only (jet_of (w2_var w 2%nat)) ids) by apply HI.
    destruct (in_dec Z.eq_dec i ids) as [|n]; [assumption|]. destruct (D i n) as [D1 _]. exfalso.
    destruct demo3_world as (w' & E' & _ & _ & E2 & _). assert (w' = w) by congruence. subst w'.
    cbn [jet_of j_g] in D1. rewrite E2 in D1. cbn in Hi. destruct Hi as [<-|[<-|[]]]; cbn in D1; lra. }
  exists w, P, ids, X, M. split; [exact E|]. split; [exact ND|]. split; [exact IND|].
  split; [intros i Hi; now apply H|]. split; [exact HI|]. split; [apply J; cbn; auto|]. split; [apply J; cbn; auto|].
  rewrite K; [reflexivity|cbn; auto|apply J; cbn; auto].
Qed.

(** ** C29 *)
@C29_covariance_of_the_polynomials
@C29_covariance_symmetric

@C29_bilinear
(** Hypotheses met by the history above: a + b, a and the number 3, which depends on nothing. *)
Example C29_case : exists w, reachable2 no_eig w /\ u2_cov (w2_var w 2%nat) (w2_var w 0%nat) = Ret 1 /\
  (forall i, ~ j_dep (jet_of (w2_var w 3%nat)) i) /\ u2_first_order_n (w2_var w 3%nat) = 3.
Proof.
  destruct demo3_world as (w & E & E0 & E1 & E2 & E3 & _). exists w.
  split; [exists demo3; split; [exact demo3_legal|exact E]|]. rewrite E3. cbn [jet_of j_dep].
  split; [|split; [cbn; intros i []|reflexivity]].
  unfold u2_cov. rewrite E0, E2. cbn. rewrite E0, E2. cbn. f_equal. lra.
Qed.

(** ** C30 *)
@C30_constructor_standardized
@C30_constructor_central
Example C30_case : 0 < 2 /\ snd (exec2 no_eig w2_init (ENewStd 0%nat (5 : RN) (2 : RN) gauss (-1))) = Ret tt /\
  snd (exec2 no_eig w2_init (ENew 0%nat (5 : RN) (mkCM RN (4 : RN) (mkM 0 48 0 960 0 26880)) (-1))) = Ret tt.
Proof.
  split; [lra|]. split.
  - cbn [exec2]. rewrite new_std_free by lra. reflexivity.
  - cbn [exec2]. unfold u2_new. assert (E : nltb (-1 : RN) n0 = true) by (apply Rltb_true; cbn; lra).
    rewrite E. reflexivity.
Qed.

(** ** C32 *)
@C32_mean_and_estimate
@C32_unbiased_estimate
(** The square of one measurement with a coin as error. *)
Example C32_case : (1 <= max_new)%nat /\ uncorrelated coin 1 (fun _ => toss) /\
  (forall v n, (v < 1)%nat -> exists x, snd (u2_new_std no_eig 0 (n : RN) (2 : RN) pm1 (-1 : RN)) = Ret x) /\
  qvars_below 1 (QMul (QVar 0) (QVar 0)) /\ (qdeg (QMul (QVar 0) (QVar 0)) <= 2)%nat /\
  qeval (QMul (QVar 0) (QVar 0)) (fun _ => 3) = 9.
Proof.
  split; [apply max_new_ge; cbn; lia|]. split; [exact coin_uncorrelated|].
  split; [intros v n _; rewrite new_std_free by lra; cbn; eauto|]. cbn. repeat split; try lia; lra.
Qed.

(** ** C33 *)
@C33_moments_valid
@C33_covariance_bound
(** Hypotheses met by the history above, where a + b has variance 2. *)
Example C33_case : (forall i s m, given no_eig w2_init demo3 i = Some (s, m) -> s <> 0 -> realizable m) /\
  exists w, run2 no_eig w2_init demo3 = Ret w /\ u2_m (w2_var w 2%nat) 2 = Ret 2 /\ 0 < 2.
Proof.
  split; [exact demo3_realizable|]. destruct demo3_world as (w & E & E0 & E1 & E2 & E3 & _). exists w.
  split; [exact E|]. split; [|lra]. unfold u2_m. rewrite E2. cbn. f_equal. lra.
Qed.

(** ** C49 *)
@C49_sum_of_independent
@C49_multiple
Example C49_case : exists w, reachable2 no_eig w /\
  (forall i, j_dep (jet_of (w2_var w 0%nat)) i -> j_dep (jet_of (w2_var w 1%nat)) i -> False) /\
  (forall i, ~ j_dep (jet_of (w2_var w 3%nat)) i) /\ u2_first_order_n (w2_var w 3%nat) = 3 /\
  j_dep (jet_of (w2_var w 2%nat)) 1%Z.
Proof.
  destruct demo3_world as (w & E & E0 & E1 & E2 & E3 & _). exists w.
  split; [exists demo3; split; [exact demo3_legal|exact E]|]. cbn [jet_of j_dep]. rewrite E0, E1, E2, E3. cbn.
  repeat split; try tauto. intros i [<-|[]] [H|[]]. discriminate.
Qed.
