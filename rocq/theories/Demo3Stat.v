(** * Demo3Stat: the covariance matrix of two variables of Demo3 *)

From Coq Require Import List ZArith Bool Reals Lra Lia.
From Verif Require Import Base Num Map UReal World HessGrad Moments CheckMoments UReal2 World2 Sums SpecObs SpecU2 SpecU2Run SpecMom Stat Stat2 Demo Demo2 Demo3.
Import ListNotations.
Local Open Scope R_scope.

Lemma demo3_stat : exists w, run2 no_eig w2_init demo3 = Ret w /\
  cov_matrix2 (map (w2_var w) [0%nat; 2%nat]) = Ret [1; 1; 1; 2] /\
  u2_s (w2_var w 0%nat) = Ret 1 /\ u2_s (w2_var w 2%nat) = Ret (sqrt 2).
Proof.
  destruct demo3_world as (w & E & E0 & _ & E2 & _). exists w. split; [exact E|].
  assert (M : forall x h, u2hg x = h -> x = mkU2 (N := RN) h (u2mu x)) by (intros [h0 m] h <-; reflexivity).
  assert (C00 : u2_cov (w2_var w 0%nat) (w2_var w 0%nat) = Ret (1 : RN)).
  { rewrite (M _ _ E0). cbn -[Rltb Reqb Rleb Rplus Rminus Rmult Rdiv IZR]. f_equal. lra. }
  assert (C02 : u2_cov (w2_var w 0%nat) (w2_var w 2%nat) = Ret (1 : RN)).
  { rewrite (M _ _ E0), (M _ _ E2). cbn -[Rltb Reqb Rleb Rplus Rminus Rmult Rdiv IZR]. f_equal. lra. }
  assert (C20 : u2_cov (w2_var w 2%nat) (w2_var w 0%nat) = Ret (1 : RN)).
  { rewrite (M _ _ E0), (M _ _ E2). cbn -[Rltb Reqb Rleb Rplus Rminus Rmult Rdiv IZR]. f_equal. lra. }
  assert (C22 : u2_cov (w2_var w 2%nat) (w2_var w 2%nat) = Ret (2 : RN)).
  { rewrite (M _ _ E2). cbn -[Rltb Reqb Rleb Rplus Rminus Rmult Rdiv IZR]. f_equal. lra. }
  split.
  - unfold cov_matrix2, oouter_vec, oouter_it. cbn [map length oouter_rows oouter_row Nat.mul Nat.add repeat].
    rewrite C00, C02, C20, C22. reflexivity.
  - split.
    + rewrite (M _ _ E0). cbn -[Rltb Reqb Rleb Rplus Rminus Rmult Rdiv IZR sqrt]. f_equal.
      transitivity (sqrt 1); [f_equal; lra|apply sqrt_1].
    + rewrite (M _ _ E2). cbn -[Rltb Reqb Rleb Rplus Rminus Rmult Rdiv IZR sqrt]. f_equal. f_equal. lra.
Qed.
