(** * Demo2Mixed: values with recorded mixed derivatives (for C27) *)

From Coq Require Import List ZArith Bool Reals Lra Lia.
From Verif Require Import Base Num Map UReal World HessGrad Moments CheckMoments UReal2 World2 SpecObs
  URealProofs U2Proofs Demo SpecU2 SpecU2Run SpecU2Mixed Demo2.
Import ListNotations.
Local Open Scope R_scope.

(** a, b, c = 0 +- 1; p = a b; q = p + a c *)
Definition demo3 : list (call2 RN) :=
  [ENewStd 0%nat 0 1 gauss (-1); ENewStd 1%nat 0 1 gauss (-1); ENewStd 2%nat 0 1 gauss (-1);
   EMul 3%nat 0%nat 1%nat; EMul 4%nat 0%nat 2%nat; EAdd 5%nat 3%nat 4%nat].
Lemma demo3_legal : legal2 demo3.
Proof.
  split; [repeat constructor|]. split; [|apply max_new_ge; cbn; lia].
  repeat constructor; cbn; intro H; apply Rltb_false in H; exfalso; lra.
Qed.
Lemma wrap3 : wrap32 (2 + 1) = 3%Z. Proof. reflexivity. Qed.
Lemma half1 : neqb (ndiv (nofZ 1) (nofZ 2) : RN) n0 = false.
Proof. apply Reqb_false. cbn. lra. Qed.

Lemma demo3_world : exists w, run2 no_eig w2_init demo3 = Ret w /\
  map fst (diagmap (u2hg (w2_var w 3%nat))) = [1; 2]%Z /\ map fst (trimap (u2hg (w2_var w 3%nat))) = [(1, 2)]%Z /\
  map fst (diagmap (u2hg (w2_var w 5%nat))) = [1; 2; 3]%Z /\ map fst (trimap (u2hg (w2_var w 5%nat))) = [(1, 2); (1, 3)]%Z.
Proof.
  unfold demo3. cbn [run2 exec2]. rewrite new_std_free by lra.
  cbn [assign2 run2 exec2 w2_last set_last w2_w w_last w2_init w_init w2_var]. rewrite wrap1.
  rewrite new_std_free by lra.
  cbn [assign2 run2 exec2 w2_last set_last w2_w w_last w2_init w_init w2_var]. rewrite wrap2.
  rewrite new_std_free by lra.
  cbn [assign2 run2 exec2 w2_last set_last w2_w w_last w2_init w_init w2_var]. rewrite wrap3.
  unfold upd2 at 1. cbn [Nat.eqb]. unfold u2_mul, u2_binary. rewrite !half0, !half1.
  cbn -[Rltb Reqb Rleb Rplus Rmult Rdiv IZR u2_add].
  unfold u2_add, u2_binary. rewrite !half0.
  cbn -[Rltb Reqb Rleb Rplus Rmult Rdiv IZR].
  eexists. split; [reflexivity|]. repeat split.
Qed.
Lemma demo3_reachable : exists w, reachable2 no_eig w /\
  map fst (diagmap (u2hg (w2_var w 3%nat))) = [1; 2]%Z /\ map fst (trimap (u2hg (w2_var w 3%nat))) = [(1, 2)]%Z /\
  map fst (diagmap (u2hg (w2_var w 5%nat))) = [1; 2; 3]%Z /\ map fst (trimap (u2hg (w2_var w 5%nat))) = [(1, 2); (1, 3)]%Z.
Proof. destruct demo3_world as (w & E & H). exists w. split; [exists demo3; split; [exact demo3_legal|exact E]|exact H]. Qed.
