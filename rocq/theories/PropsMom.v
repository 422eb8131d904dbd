(** * PropsMom: statistics of UReal2 (C28-C30, C32, C33, C49)

    Generated from tools/PropsMom.in. *)

From Coq Require Import List ZArith Bool Reals Lra Lia.
From Verif Require Import Base Num Map UReal World HessGrad Moments CheckMoments UReal2 World2 Sums SpecObs SpecU2 SpecU2Run
  SpecProb SpecMom SpecEst U2Proofs MomGiven MomDeg MomStats MomNew MomCum MomEst MomBilin Demo Demo2 Demo3.
Import ListNotations.
Local Open Scope R_scope.

(** A history a = 0 +- 1; b = 0 +- 1; c = a + b; d = 3 in which both constructions give
    the moments of a fair coin. *)
Example mom_case : legal2 demo3 /\
  (forall i s m, given no_eig w2_init demo3 i = Some (s, m) -> s <> 0 -> realizable m) /\
  exists w, run2 no_eig w2_init demo3 = Ret w /\ reachable2 no_eig w /\
    given no_eig w2_init demo3 1 = Some (1, pm1) /\ given no_eig w2_init demo3 2 = Some (1, pm1) /\
    j_g (jet_of (w2_var w 2%nat)) 1%Z = 1 /\ j_g (jet_of (w2_var w 2%nat)) 2%Z = 1.
Proof.
  split; [exact demo3_legal|]. split; [exact demo3_realizable|].
  destruct demo3_world as (w & E & _ & _ & E2 & _ & G1 & G2). exists w. split; [exact E|].
  split; [exists demo3; split; [exact demo3_legal|exact E]|]. split; [exact G1|]. split; [exact G2|].
  cbn [jet_of j_g]. rewrite E2. split; reflexivity.
Qed.

(** ** C28 *)
Theorem C28_moments_of_the_polynomial : forall eig (cs : list (call2 RN)) (w : world2 RN),
  legal2 cs -> run2 eig w2_init cs = Ret w ->
  forall (P : prob) (ids : list Z) (X : Z -> Om P -> R) (M : Z -> moms RN), NoDup ids ->
  independent P ids X (fun i => stdmom (M i)) ->
  (forall i, In i ids -> exists s, s <> 0 /\ given eig w2_init cs i = Some (s, M i)) ->
  forall v, let x := w2_var w v in
  involves_only (jet_of x) ids ->
  let Y := value (jet_of x) ids X in
  int P Y /\ u2_m x 1 = Ret (Ex P Y - u2_first_order_n x) /\
  forall n, (2 <= n <= 4)%nat ->
    int P (fun o => (Y o - Ex P Y) ^ n) /\
    u2_m x (Z.of_nat n) = Ret (Ex P (fun o => (Y o - Ex P Y) ^ n)).
Proof. exact C28_moments_of_the_polynomial_proof. Qed.
Print Assumptions C28_moments_of_the_polynomial.
Theorem C28_only_given_variables : forall eig (cs : list (call2 RN)) (w : world2 RN),
  legal2 cs -> run2 eig w2_init cs = Ret w -> forall ids,
  (forall i s m, given eig w2_init cs i = Some (s, m) -> s <> 0 -> In i ids) ->
  forall v, involves_only (jet_of (w2_var w v)) ids.
Proof. exact C28_only_given_variables_proof. Qed.
Print Assumptions C28_only_given_variables.
Theorem C28_model_exists : forall eig (cs : list (call2 RN)) (w : world2 RN),
  legal2 cs -> run2 eig w2_init cs = Ret w ->
  (forall i s m, given eig w2_init cs i = Some (s, m) -> s <> 0 -> realizable m) ->
  exists (P : prob) (ids : list Z) (X : Z -> Om P -> R) (M : Z -> moms RN), NoDup ids /\
    independent P ids X (fun i => stdmom (M i)) /\
    (forall i, In i ids <-> exists s, s <> 0 /\ given eig w2_init cs i = Some (s, M i)) /\
    forall v, involves_only (jet_of (w2_var w v)) ids.
Proof. exact C28_model_exists_proof. Qed.
Print Assumptions C28_model_exists.
(** The two coins of the history above are independent variables to which the
    first theorem applies. *)
Example C28_case : exists w (P : prob) ids X M, run2 no_eig w2_init demo3 = Ret w /\ NoDup ids /\
  independent P ids X (fun i => stdmom (M i)) /\
  (forall i, In i ids -> exists s, s <> 0 /\ given no_eig w2_init demo3 i = Some (s, M i)) /\
  (forall v, involves_only (jet_of (w2_var w v)) ids) /\ In 1%Z ids /\ In 2%Z ids /\ v4 (M 1%Z) = 1.
Proof.
  destruct demo3_world as (w & E & _ & _ & _ & _ & G1 & G2).
  destruct (C28_model_exists no_eig demo3 w demo3_legal E demo3_realizable) as (P & ids & X & M & ND & IND & H & HI).
  assert (K : forall i, In i [1%Z; 2%Z] -> In i ids -> M i = pm1).
  { intros i Hi Hin. apply H in Hin as (s & _ & G). cbn in Hi. destruct Hi as [<-|[<-|[]]]; congruence. }
  assert (J : forall i, In i [1%Z; 2%Z] -> In i ids).
  { intros i Hi. assert (D : involves_only (jet_of (w2_var w 2%nat)) ids) by apply HI.
    destruct (in_dec Z.eq_dec i ids) as [|n]; [assumption|]. destruct (D i n) as [D1 _]. exfalso.
    destruct demo3_world as (w' & E' & _ & _ & E2 & _). assert (w' = w) by congruence. subst w'.
    cbn [jet_of j_g] in D1. rewrite E2 in D1. cbn in Hi. destruct Hi as [<-|[<-|[]]]; cbn in D1; lra. }
  exists w, P, ids, X, M. split; [exact E|]. split; [exact ND|]. split; [exact IND|].
  split; [intros i Hi; now apply H|]. split; [exact HI|]. split; [apply J; cbn; auto|]. split; [apply J; cbn; auto|].
  rewrite K; [reflexivity|cbn; auto|apply J; cbn; auto].
Qed.

(** ** C29 *)
Theorem C29_covariance_of_the_polynomials : forall eig (cs : list (call2 RN)) (w : world2 RN),
  legal2 cs -> run2 eig w2_init cs = Ret w ->
  forall (P : prob) (ids : list Z) (X : Z -> Om P -> R) (M : Z -> moms RN), NoDup ids ->
  independent P ids X (fun i => stdmom (M i)) ->
  (forall i, In i ids -> exists s, s <> 0 /\ given eig w2_init cs i = Some (s, M i)) ->
  forall u v, let x := w2_var w u in let y := w2_var w v in
  involves_only (jet_of x) ids -> involves_only (jet_of y) ids ->
  let A := value (jet_of x) ids X in let B := value (jet_of y) ids X in
  int P (fun o => (A o - Ex P A) * (B o - Ex P B)) /\
  u2_cov x y = Ret (Ex P (fun o => (A o - Ex P A) * (B o - Ex P B))).
Proof. exact C29_covariance_of_the_polynomials_proof. Qed.
Print Assumptions C29_covariance_of_the_polynomials.
Theorem C29_covariance_symmetric : forall eig (w : world2 RN), reachable2 eig w -> forall u v,
  let x := w2_var w u in let y := w2_var w v in
  (exists c, u2_cov x y = Ret c /\ u2_cov y x = Ret c) /\ u2_cov x x = u2_var x /\
  (exists r, u2_var x = Ret r /\ u2_s x = Ret (sqrt r)) /\
  exists c sx sy, u2_cov x y = Ret c /\ u2_s x = Ret sx /\ u2_s y = Ret sy /\ u2_corr x y = Ret (c / (sx * sy)).
Proof. exact C29_covariance_symmetric_proof. Qed.
Print Assumptions C29_covariance_symmetric.

Theorem C29_bilinear : forall eig (w : world2 RN), reachable2 eig w -> forall u v t,
  let x := w2_var w u in let y := w2_var w v in let q := w2_var w t in
  exists s d m c1 c2, u2_add x y = Ret s /\ u2_sub x y = Ret d /\ u2_neg x = Ret m /\
    u2_cov x q = Ret c1 /\ u2_cov y q = Ret c2 /\
    u2_cov s q = Ret (c1 + c2) /\ u2_cov q s = Ret (c1 + c2) /\
    u2_cov d q = Ret (c1 - c2) /\ u2_cov q d = Ret (c1 - c2) /\
    u2_cov m q = Ret (- c1) /\ u2_cov q m = Ret (- c1) /\
    ((forall i, ~ j_dep (jet_of y) i) ->
     exists p, u2_mul x y = Ret p /\ u2_cov p q = Ret (u2_first_order_n y * c1) /\ u2_cov q p = Ret (u2_first_order_n y * c1)).
Proof. exact C29_bilinear_proof. Qed.
Print Assumptions C29_bilinear.
(** Hypotheses met by the history above: a + b, a and the number 3, which depends on nothing. *)
Example C29_case : exists w, reachable2 no_eig w /\ u2_cov (w2_var w 2%nat) (w2_var w 0%nat) = Ret 1 /\
  (forall i, ~ j_dep (jet_of (w2_var w 3%nat)) i) /\ u2_first_order_n (w2_var w 3%nat) = 3.
Proof.
  destruct demo3_world as (w & E & E0 & E1 & E2 & E3 & _). exists w.
  split; [exists demo3; split; [exact demo3_legal|exact E]|]. rewrite E3. cbn [jet_of j_dep].
  split; [|split; [cbn; intros i []|reflexivity]].
  unfold u2_cov. rewrite E0, E2. cbn. rewrite E0, E2. cbn. f_equal. lra.
Qed.

(** ** C30 *)
Theorem C30_constructor_standardized : forall eig (w : world2 RN) v n s (m : moms RN) thr,
  snd (exec2 eig w (ENewStd v n s m thr)) = Ret tt -> 0 < s ->
  let x := w2_var (fst (exec2 eig w (ENewStd v n s m thr))) v in
  u2_first_order_n x = n /\ (forall p, u2_n p x = Ret n) /\ u2_s x = Ret s /\
  u2_m x 1 = Ret 0 /\ u2_m x 2 = Ret (s ^ 2) /\ u2_m x 3 = Ret (v3 m * s ^ 3) /\ u2_m x 4 = Ret (v4 m * s ^ 4) /\
  u2_skew x = Ret (v3 m) /\ u2_kurt x = Ret (v4 m).
Proof. exact C30_constructor_standardized_proof. Qed.
Print Assumptions C30_constructor_standardized.
Theorem C30_constructor_central : forall eig (w : world2 RN) v n (c : cmoms RN) thr,
  snd (exec2 eig w (ENew v n c thr)) = Ret tt -> 0 < c2nd c ->
  let x := w2_var (fst (exec2 eig w (ENew v n c thr))) v in
  u2_first_order_n x = n /\ (forall p, u2_n p x = Ret n) /\ u2_s x = Ret (sqrt (c2nd c)) /\
  u2_m x 1 = Ret 0 /\ u2_m x 2 = Ret (c2nd c) /\ u2_m x 3 = Ret (v3 (cnext c)) /\ u2_m x 4 = Ret (v4 (cnext c)) /\
  u2_skew x = Ret (v3 (cnext c) / sqrt (c2nd c) ^ 3) /\ u2_kurt x = Ret (v4 (cnext c) / c2nd c ^ 2).
Proof. exact C30_constructor_central_proof. Qed.
Print Assumptions C30_constructor_central.
Example C30_case : 0 < 2 /\ snd (exec2 no_eig w2_init (ENewStd 0%nat (5 : RN) (2 : RN) gauss (-1))) = Ret tt /\
  snd (exec2 no_eig w2_init (ENew 0%nat (5 : RN) (mkCM RN (4 : RN) (mkM 0 48 0 960 0 26880)) (-1))) = Ret tt.
Proof.
  split; [lra|]. split.
  - cbn [exec2]. rewrite new_std_free by lra. reflexivity.
  - cbn [exec2]. unfold u2_new. assert (E : nltb (-1 : RN) n0 = true) by (apply Rltb_true; cbn; lra).
    rewrite E. reflexivity.
Qed.

(** ** C32 *)
Theorem C32_mean_and_estimate : forall eig (cs : list (call2 RN)) (w : world2 RN),
  legal2 cs -> run2 eig w2_init cs = Ret w ->
  forall (P : prob) (ids : list Z) (X : Z -> Om P -> R) (M : Z -> moms RN), NoDup ids ->
  independent P ids X (fun i => stdmom (M i)) ->
  (forall i, In i ids -> exists s, s <> 0 /\ given eig w2_init cs i = Some (s, M i)) ->
  forall v, let x := w2_var w v in
  involves_only (jet_of x) ids ->
  let Y := value (jet_of x) ids X in
  exists m1, u2_m x 1 = Ret m1 /\
    u2_n PropMean x = Ret (u2_first_order_n x + m1) /\ u2_n PropMean x = Ret (Ex P Y) /\
    u2_n PropEst x = Ret (u2_first_order_n x - m1).
Proof. exact C32_mean_and_estimate_proof. Qed.
Print Assumptions C32_mean_and_estimate.
Theorem C32_unbiased_estimate : forall eig (k : nat) (t s : nat -> R) (m : nat -> moms RN) (thr : nat -> R)
    (P : prob) (X : nat -> Om P -> R) (e : qexp),
  (k <= max_new)%nat -> uncorrelated P k X ->
  (forall v n, (v < k)%nat -> exists x, snd (u2_new_std eig 0 (n : RN) (s v : RN) (m v) (thr v : RN)) = Ret x) ->
  qvars_below k e -> (qdeg e <= 2)%nat ->
  exists est : Om P -> R,
    (forall o, exists w z,
       run2 eig w2_init (measure k (fun v => t v + s v * X v o) s m thr) = Ret w /\
       qcalc (w2_var w) e = Ret z /\ u2_n PropEst z = Ret (est o)) /\
    int P est /\ Ex P est = qeval e t.
Proof. exact C32_unbiased_estimate_proof. Qed.
Print Assumptions C32_unbiased_estimate.
(** The square of one measurement with a coin as error. *)
Example C32_case : (1 <= max_new)%nat /\ uncorrelated coin 1 (fun _ => toss) /\
  (forall v n, (v < 1)%nat -> exists x, snd (u2_new_std no_eig 0 (n : RN) (2 : RN) pm1 (-1 : RN)) = Ret x) /\
  qvars_below 1 (QMul (QVar 0) (QVar 0)) /\ (qdeg (QMul (QVar 0) (QVar 0)) <= 2)%nat /\
  qeval (QMul (QVar 0) (QVar 0)) (fun _ => 3) = 9.
Proof.
  split; [apply max_new_ge; cbn; lia|]. split; [exact coin_uncorrelated|].
  split; [intros v n _; rewrite new_std_free by lra; cbn; eauto|]. cbn. repeat split; try lia; lra.
Qed.

(** ** C33 *)
Theorem C33_moments_valid : forall eig (cs : list (call2 RN)) (w : world2 RN),
  legal2 cs -> run2 eig w2_init cs = Ret w ->
  (forall i s m, given eig w2_init cs i = Some (s, m) -> s <> 0 -> realizable m) ->
  forall v, let x := w2_var w v in exists m2 m3 m4,
    u2_m x 2 = Ret m2 /\ u2_m x 3 = Ret m3 /\ u2_m x 4 = Ret m4 /\
    0 <= m2 /\ m2 ^ 3 + m3 ^ 2 <= m4 * m2 /\
    (0 < m2 -> exists sk ku, u2_skew x = Ret sk /\ u2_kurt x = Ret ku /\ 1 + sk ^ 2 <= ku).
Proof. exact C33_moments_valid_proof. Qed.
Print Assumptions C33_moments_valid.
Theorem C33_covariance_bound : forall eig (cs : list (call2 RN)) (w : world2 RN),
  legal2 cs -> run2 eig w2_init cs = Ret w ->
  (forall i s m, given eig w2_init cs i = Some (s, m) -> s <> 0 -> realizable m) ->
  forall u v, let x := w2_var w u in let y := w2_var w v in exists c sx sy,
    u2_cov x y = Ret c /\ u2_s x = Ret sx /\ u2_s y = Ret sy /\ Rabs c <= sx * sy /\
    (sx <> 0 -> sy <> 0 -> exists r, u2_corr x y = Ret r /\ -1 <= r <= 1).
Proof. exact C33_covariance_bound_proof. Qed.
Print Assumptions C33_covariance_bound.
(** Hypotheses met by the history above, where a + b has variance 2. *)
Example C33_case : (forall i s m, given no_eig w2_init demo3 i = Some (s, m) -> s <> 0 -> realizable m) /\
  exists w, run2 no_eig w2_init demo3 = Ret w /\ u2_m (w2_var w 2%nat) 2 = Ret 2 /\ 0 < 2.
Proof.
  split; [exact demo3_realizable|]. destruct demo3_world as (w & E & E0 & E1 & E2 & E3 & _). exists w.
  split; [exact E|]. split; [|lra]. unfold u2_m. rewrite E2. cbn. f_equal. lra.
Qed.

(** ** C49 *)
Theorem C49_sum_of_independent : forall eig (w : world2 RN), reachable2 eig w -> forall u v,
  let x := w2_var w u in let y := w2_var w v in
  (forall i, j_dep (jet_of x) i -> j_dep (jet_of y) i -> False) ->
  exists z, u2_add x y = Ret z /\
  exists a1 a2 a3 a4 b1 b2 b3 b4,
    (u2_m x 1 = Ret a1 /\ u2_m x 2 = Ret a2 /\ u2_m x 3 = Ret a3 /\ u2_m x 4 = Ret a4) /\
    (u2_m y 1 = Ret b1 /\ u2_m y 2 = Ret b2 /\ u2_m y 3 = Ret b3 /\ u2_m y 4 = Ret b4) /\
    exists c1 c2 c3 c4,
    (u2_m z 1 = Ret c1 /\ u2_m z 2 = Ret c2 /\ u2_m z 3 = Ret c3 /\ u2_m z 4 = Ret c4) /\
    c1 = a1 + b1 /\ c2 = a2 + b2 /\ c3 = a3 + b3 /\
    c4 - 3 * c2 ^ 2 = (a4 - 3 * a2 ^ 2) + (b4 - 3 * b2 ^ 2).
Proof. exact C49_sum_of_independent_proof. Qed.
Print Assumptions C49_sum_of_independent.
Theorem C49_multiple : forall eig (w : world2 RN), reachable2 eig w -> forall u v,
  let x := w2_var w u in let y := w2_var w v in
  (forall i, ~ j_dep (jet_of y) i) -> forall n, (1 <= n <= 4)%nat ->
  exists m z1 z2 z3, u2_m x (Z.of_nat n) = Ret m /\
    u2_mul x y = Ret z1 /\ u2_m z1 (Z.of_nat n) = Ret (u2_first_order_n y ^ n * m) /\
    u2_mul y x = Ret z2 /\ u2_m z2 (Z.of_nat n) = Ret (u2_first_order_n y ^ n * m) /\
    u2_neg x = Ret z3 /\ u2_m z3 (Z.of_nat n) = Ret ((-1) ^ n * m).
Proof. exact C49_multiple_proof. Qed.
Print Assumptions C49_multiple.
Example C49_case : exists w, reachable2 no_eig w /\
  (forall i, j_dep (jet_of (w2_var w 0%nat)) i -> j_dep (jet_of (w2_var w 1%nat)) i -> False) /\
  (forall i, ~ j_dep (jet_of (w2_var w 3%nat)) i) /\ u2_first_order_n (w2_var w 3%nat) = 3 /\
  j_dep (jet_of (w2_var w 2%nat)) 1%Z.
Proof.
  destruct demo3_world as (w & E & E0 & E1 & E2 & E3 & _). exists w.
  split; [exists demo3; split; [exact demo3_legal|exact E]|]. cbn [jet_of j_dep]. rewrite E0, E1, E2, E3. cbn.
  repeat split; try tauto. intros i [<-|[]] [H|[]]. discriminate.
Qed.
