(** * Demo4: a correct eigenvalue solver exists *)

From Coq Require Import List ZArith Bool Reals Lra Lia IndefiniteDescription Classical_Prop.
From Verif Require Import Base Num HessGrad Moments CheckMoments Sums SpecProb SpecHankel Spectral.
Import ListNotations.
Local Open Scope R_scope.

Lemma lower_inj mu nu : lower mu = lower nu -> forall k, (k <= 8)%nat -> mu k = nu k.
Proof. unfold lower. intros [=]. intros k Hk. do 9 (destruct k as [|k]; [assumption|]). lia. Qed.

(** The only use of the axiom of choice ([constructive_indefinite_description]) in the
    development: it is not used by any theorem, only to show that the hypothesis
    [solver_correct] can be met. *)
Lemma solver_exists : exists eig, solver_correct eig.
Proof.
  assert (C : forall l : list (list R), exists v, forall mu, l = lower mu -> eigenvalues (hmat mu) v).
  { intro l. destruct (classic (exists mu, l = lower mu)) as [(nu & ->)|N].
    - destruct (eigenvalues_exist (hmat nu)) as (v & Hv); [intros i j; unfold hmat; now rewrite Nat.add_comm|]. exists v. intros mu E.
      destruct Hv as (L & Q & A & B & C). split; [exact L|]. exists Q. split; [exact A|]. split; [exact B|]. intros k i Hk Hi. rewrite <- (C k i Hk Hi).
      apply rsum_ext. intros j Hj. apply in_seq in Hj. f_equal. unfold hmat. symmetry. apply (lower_inj _ _ E). lia.
    - exists []. intros mu E. exfalso. eauto. }
  exists (fun l => Some (proj1_sig (constructive_indefinite_description _ (C l)))). intro mu. eexists. split; [reflexivity|].
  destruct (constructive_indefinite_description _ (C (lower mu))) as [v Hv]. cbn. now apply Hv.
Qed.
