(** * DemoDistr: an accurate eigenvalue solver on doubles exists *)

From Coq Require Import List ZArith Bool Reals Lra Lia IndefiniteDescription Classical_Prop.
From Flocq Require Import Core BinarySingleNaN.
From Verif Require Import Base Num UReal HessGrad CheckMoments UReal2 Distr Sums SpecProb SpecHankel Spectral Ieee IeeeFacts SpecIeee IeeeProofs3 IeeeProofs4 IeeeCov
  SpecMathIeee SpecDistrIeee MathAcc5 IoAcc1 DistrAcc2.
Import ListNotations.
Local Open Scope R_scope.

Lemma triangle_inj mu nu : lower_triangle mu = lower_triangle nu -> forall k, (k <= 8)%nat -> mu k = nu k.
Proof.
  unfold lower_triangle. cbn [seq map Nat.add]. intros E k Hk. injection E. intros. do 9 (destruct k as [|k]; [assumption|]). lia.
Qed.
Lemma eig_bound M lam size : eigenvalues M lam -> (forall i j, (i < 5)%nat -> (j < 5)%nat -> Rabs (M i j) <= size) ->
  forall k, (k < 5)%nat -> Rabs (nth k lam 0) <= 5 * size.
Proof.
  intros EV B k Hk. destruct (eig_unit M lam EV k Hk) as (v & S1 & E).
  assert (Z : coercive 0 (fun _ _ => 0)) by (intro w; unfold mform, five, rsum; cbn; lra).
  assert (L := coercive_perturb 0 size _ M ltac:(intros i j Hi Hj; rewrite Rminus_0_r; auto) Z v).
  assert (H := coercive_perturb 0 size _ (fun i j => - M i j) ltac:(intros i j Hi Hj; rewrite Rminus_0_r, Rabs_Ropp; auto) Z v).
  rewrite S1 in L, H. assert (N : mform (fun i j => - M i j) v = - mform M v) by (unfold mform, five, rsum; cbn; ring). rewrite N in H.
  rewrite <- E. apply Rabs_le. lra.
Qed.

(** Like [solver_exists] in Demo4.v: the axiom of choice is only used to show that the hypothesis can be met. *)
Lemma solver_close_exists : exists eig, solver_close (pow2 (-50)) eig.
Proof.
  assert (C : forall l : list (list double), exists v, forall mu size, l = lower_triangle mu -> mu 0%nat = dofZ 1 ->
     (forall k, (k <= 8)%nat -> finite (mu k) /\ Rabs (real_of (mu k)) <= size) -> size <= pow2 1000 ->
     exists exact, length v = 5%nat /\ eigenvalues (hmat (fun k => real_of (mu k))) exact /\
      forall i, (i < 5)%nat -> finite (nth i v (dofZ 0)) /\ Rabs (real_of (nth i v (dofZ 0)) - nth i exact 0) <= pow2 (-50) * size).
  { intro l. destruct (classic (exists mu, l = lower_triangle mu)) as [(nu & ->)|N].
    2:{ exists []. intros mu size E. exfalso. eauto. }
    destruct (eigenvalues_exist (hmat (fun k => real_of (nu k)))) as (t & Ht); [intros i j; unfold hmat; now rewrite Nat.add_comm|].
    exists (map R2B t). intros mu size E E1 B Bs. exists t.
    assert (EM : eigenvalues (hmat (fun k => real_of (mu k))) t).
    { destruct Ht as (L & Q & A1 & A2 & A3). split; [exact L|]. exists Q. split; [exact A1|]. split; [exact A2|]. intros k i Hk Hi. rewrite <- (A3 k i Hk Hi).
      apply rsum_ext. intros j Hj. apply in_seq in Hj. f_equal. unfold hmat. f_equal. symmetry. apply (triangle_inj _ _ E). lia. }
    assert (L := proj1 EM). split; [rewrite map_length; exact L|]. split; [exact EM|]. intros i Hi.
    assert (T := eig_bound _ _ size EM ltac:(intros a b Ha Hb; unfold hmat; apply B; lia) i Hi).
    assert (S1 : 1 <= size). { destruct (B 0%nat ltac:(lia)) as [_ H]. rewrite E1, (proj2 (dofZ_exact 1 ltac:(lia))), Rabs_R1 in H. exact H. }
    rewrite (nth_indep _ (dofZ 0) (R2B 0)) by (rewrite map_length; lia). rewrite map_nth. set (r := nth i t 0) in *.
    destruct (R2B_correct r) as [F ER].
    { apply fits. eapply Rle_trans; [exact T|]. apply Rle_trans with (pow2 3 * pow2 1000); [change (pow2 3) with 8; lra|rewrite <- pow2_add; apply pow2_le; lia]. }
    split; [exact F|]. rewrite ER. destruct (nearest_pm r) as (e & s & He & Hs & ->).
    replace (r * (1 + e) + s - r) with (e * r + s) by ring. eapply Rle_trans; [apply Rabs_triang|]. rewrite Rabs_mult.
    assert (U : pow2 (-50) = 8 * ur) by (unfold uround; change (-50)%Z with (3 + -53)%Z; rewrite pow2_add; reflexivity). assert (U0 := ur_small).
    assert (P : pow2 (-1075) <= ur) by (apply pow2_le; lia).
    assert (M : Rabs e * Rabs r <= ur * (5 * size)) by (apply Rmult_le_compat; auto using Rabs_pos).
    rewrite U. nra. }
  exists (fun l => Some (proj1_sig (constructive_indefinite_description _ (C l)))). intros mu size E1 B Bs.
  assert (Hv := proj2_sig (constructive_indefinite_description _ (C (lower_triangle mu)))). cbv beta in Hv.
  destruct (Hv mu size eq_refl E1 B Bs) as (t & L & EV & A). eexists. exists t. split; [reflexivity|]. auto.
Qed.
Lemma uniform_case : exists eig, solver_close (pow2 (-50)) eig /\ pow2 (-50) <= pow2 (-32) /\
  exists x, d_uniform (N := DN) eig 0 (dofZ 0) (dofZ 1) = (1%Z, Ret x).
Proof.
  destruct solver_close_exists as [eig H]. assert (L : pow2 (-50) <= pow2 (-32)) by (apply pow2_le; lia).
  exists eig. split; [exact H|]. split; [exact L|].
  destruct (C77_accepted_proof (pow2 (-50)) eig 0%Z L H) as (_ & _ & A). 
  destruct (dofZ_exact 0 ltac:(lia)) as [F0 E0]. destruct (dofZ_exact 1 ltac:(lia)) as [F1 E1].
  assert (P : pow2 0 <= pow2 1020) by (apply pow2_le; lia). change (pow2 0) with 1 in P.
  destruct (A (dofZ 0) (dofZ 1) F0 F1) as [x Ex]; [rewrite E0, Rabs_R0; lra|rewrite E1, Rabs_R1; lra|rewrite E0, E1; lra|].
  exists x. exact Ex.
Qed.
