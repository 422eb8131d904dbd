(** * Demo2: a concrete history with UReal2 *)

From Coq Require Import List ZArith Bool Reals Lra Lia Sorted.
From Verif Require Import Base Num Map UReal World HessGrad Moments CheckMoments UReal2 World2 Sums SpecLin SpecObs
  URealFacts URealR URealProofs HessProofs U2Facts U2World SpecU2 U2Values U2Ret SpecU2Run U2Proofs Demo.
Import ListNotations.
Local Open Scope R_scope.

(** standardized moments of the normal distribution *)
Definition gauss : moms RN := mkM 0 3 0 15 0 105.
Definition no_eig : list (list RN) -> option (list RN) := fun _ => None.

Lemma new_std_free (eig : list (list RN) -> option (list RN)) last n s m thr : 0 <= s -> thr < 0 ->
  u2_new_std eig last n s m thr =
    (wrap32 (last + 1), Ret (mkU2 (mkHG [(wrap32 (last + 1), mkD s n0 (Some m))] []) n)).
Proof.
  intros Hs Ht. unfold u2_new_std. change (nltb s n0) with (Rltb s 0). change (nltb thr n0) with (Rltb thr 0).
  apply Rltb_false in Hs. apply Rltb_true in Ht. rewrite Hs, Ht. reflexivity.
Qed.

Lemma half0 : neqb (ndiv (nofZ 0) (nofZ 2) : RN) n0 = true.
Proof. apply Reqb_true. cbn. lra. Qed.
Lemma half2 : neqb (ndiv (nofZ 2) (nofZ 2) : RN) n0 = false.
Proof. apply Reqb_false. cbn. lra. Qed.

(** a = 0 +- 1, b = 0 +- 1, c = a + b *)
Definition demo2 : list (call2 RN) := [ENewStd 0%nat 0 1 gauss (-1); ENewStd 1%nat 0 1 gauss (-1); EAdd 2%nat 0%nat 1%nat].
Lemma demo2_legal : legal2 demo2.
Proof.
  split; [repeat constructor|]. split; [|apply max_new_ge; cbn; lia].
  repeat constructor; cbn; intro H; apply Rltb_false in H; exfalso; lra.
Qed.

Lemma wrap1 : wrap32 (0 + 1) = 1%Z. Proof. reflexivity. Qed.
Lemma wrap2 : wrap32 (1 + 1) = 2%Z. Proof. reflexivity. Qed.
Lemma demo2_world : exists w, run2 no_eig w2_init demo2 = Ret w /\
  u2hg (w2_var w 0%nat) = mkHG [(1%Z, mkD 1 0 (Some gauss))] [] /\
  u2hg (w2_var w 1%nat) = mkHG [(2%Z, mkD 1 0 (Some gauss))] [] /\
  u2hg (w2_var w 2%nat) = mkHG [(1%Z, mkD 1 0 (Some gauss)); (2%Z, mkD 1 0 (Some gauss))] [] /\
  u2mu (w2_var w 0%nat) = 0 /\ u2mu (w2_var w 1%nat) = 0 /\ u2mu (w2_var w 2%nat) = 0 /\ w2_last w = 2%Z.
Proof.
  unfold demo2. cbn [run2 exec2]. rewrite new_std_free by lra.
  cbn [assign2 run2 exec2 w2_last set_last w2_w w_last w2_init w_init w2_var]. rewrite wrap1.
  rewrite new_std_free by lra.
  cbn [assign2 run2 exec2 w2_last set_last w2_w w_last w2_init w_init w2_var]. rewrite wrap2.
  unfold upd2. cbn [Nat.eqb]. unfold u2_add, u2_binary. rewrite !half0.
  cbn -[Rltb Reqb Rleb Rplus Rmult Rdiv IZR].
  eexists. split; [reflexivity|]. cbn -[Rltb Reqb Rleb Rplus Rmult Rdiv IZR].
  split; [reflexivity|]. split; [reflexivity|]. split; [|split; [reflexivity|]; split; [reflexivity|]; split; [|reflexivity]].
  - unfold hg_diag, mupd. cbn -[Rplus Rmult Rdiv IZR]. repeat f_equal; lra.
  - lra.
Qed.
Lemma demo2_reachable : exists w, reachable2 no_eig w /\
  u2hg (w2_var w 0%nat) = mkHG [(1%Z, mkD 1 0 (Some gauss))] [] /\
  u2hg (w2_var w 1%nat) = mkHG [(2%Z, mkD 1 0 (Some gauss))] [] /\
  u2hg (w2_var w 2%nat) = mkHG [(1%Z, mkD 1 0 (Some gauss)); (2%Z, mkD 1 0 (Some gauss))] [] /\
  u2mu (w2_var w 0%nat) = 0 /\ u2mu (w2_var w 1%nat) = 0 /\ u2mu (w2_var w 2%nat) = 0 /\ w2_last w = 2%Z.
Proof. destruct demo2_world as (w & E & H). exists w. split; [exists demo2; split; [exact demo2_legal|exact E]|exact H]. Qed.

(** (a + b)^2: the mixed second derivative is missing. *)
Lemma C27_mixed_derivatives_refuted_proof : exists eig (w : world2 RN) (u : nat) f f1 f2,
  reachable2 eig w /\
  forall z, u2_unary (w2_var w u) f f1 f2 = Ret z ->
    j_h (jet_unary (jet_of (w2_var w u)) f f1 f2) 1%Z 2%Z = 1 /\ j_h (jet_of z) 1%Z 2%Z = 0.
Proof.
  destruct demo2_reachable as (w & R & _ & _ & E & _). exists no_eig, w, 2%nat, 0, 0, 2.
  split; [exact R|]. intros z Ez. split.
  - cbn [jet_unary j_h jet_of j_g]. rewrite E. cbn. lra.
  - unfold u2_unary in Ez. rewrite E in Ez. change 2 with (nofZ 2 : RN) in Ez. rewrite half2 in Ez.
    cbn -[Rltb Reqb Rleb Rplus Rmult Rdiv IZR] in Ez. injection Ez as <-. reflexivity.
Qed.
