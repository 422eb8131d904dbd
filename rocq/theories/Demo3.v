(** * Demo3: a concrete history with realizable moments *)

From Coq Require Import List ZArith Bool Reals Lra Lia.
From Verif Require Import Base Num Map UReal World HessGrad Moments CheckMoments UReal2 World2 Sums SpecObs
  URealFacts URealR URealProofs HessProofs U2Facts U2World SpecU2 U2Values U2Ret SpecU2Run U2Proofs SpecProb SpecMom SpecEst Demo Demo2.
Import ListNotations.
Local Open Scope R_scope.

(** A fair coin with values +1 and -1. *)
Definition coin_expect : expect.
Proof.
  apply (mkExpect bool (fun _ => True) (fun f => (f true + f false) / 2)).
  - intros f g H _. split; [exact I|]. now rewrite !H.
  - intro c. split; [exact I|]. field.
  - intros f g _ _. split; [exact I|]. field.
  - intros c f _. split; [exact I|]. field.
Defined.
Definition coin : prob.
Proof.
  apply (mkProb coin_expect). cbn. intros f _ H. assert (H1 := H true). assert (H2 := H false). lra.
Defined.
Definition toss (o : bool) : R := if o then 1 else -1.
Definition pm1 : moms RN := mkM 0 1 0 1 0 1.

Lemma pm1_realizable : realizable pm1.
Proof.
  exists coin, toss. intros k Hk. split; [exact I|].
  do 9 (destruct k as [|k]; [cbn; unfold toss; field|]). lia.
Qed.

(** a = 0 +- 1, b = 0 +- 1, c = a + b, d = 3 *)
Definition demo3 : list (call2 RN) :=
  [ENewStd 0%nat 0 1 pm1 (-1); ENewStd 1%nat 0 1 pm1 (-1); EAdd 2%nat 0%nat 1%nat; EConst 3%nat 3].
Lemma demo3_legal : legal2 demo3.
Proof.
  split; [repeat constructor|]. split; [|apply max_new_ge; cbn; lia].
  repeat constructor; cbn; intro H; apply Rltb_false in H; exfalso; lra.
Qed.
Lemma demo3_world : exists w, run2 no_eig w2_init demo3 = Ret w /\
  u2hg (w2_var w 0%nat) = mkHG [(1%Z, mkD 1 0 (Some pm1))] [] /\
  u2hg (w2_var w 1%nat) = mkHG [(2%Z, mkD 1 0 (Some pm1))] [] /\
  u2hg (w2_var w 2%nat) = mkHG [(1%Z, mkD 1 0 (Some pm1)); (2%Z, mkD 1 0 (Some pm1))] [] /\
  w2_var w 3%nat = u2_const (3 : RN) /\
  given no_eig w2_init demo3 1 = Some (1, pm1) /\ given no_eig w2_init demo3 2 = Some (1, pm1).
Proof.
  unfold demo3. cbn [run2 exec2 given made]. rewrite new_std_free by lra.
  cbn [assign2 run2 exec2 w2_last set_last w2_w w_last w2_init w_init w2_var given made]. rewrite wrap1. rewrite ?Z.eqb_refl.
  rewrite new_std_free by lra.
  cbn [assign2 run2 exec2 w2_last set_last w2_w w_last w2_init w_init w2_var given made]. rewrite wrap2.
  unfold upd2. cbn [Nat.eqb]. unfold u2_add, u2_binary. rewrite !half0.
  cbn -[Rltb Reqb Rleb Rplus Rmult Rdiv IZR].
  eexists. split; [reflexivity|]. cbn -[Rltb Reqb Rleb Rplus Rmult Rdiv IZR].
  split; [reflexivity|]. split; [reflexivity|]. split; [|split; [reflexivity|]; split; reflexivity].
  unfold hg_diag, mupd. cbn -[Rplus Rmult Rdiv IZR]. repeat f_equal; lra.
Qed.

Lemma given_in eig (cs : list (call2 RN)) : forall w i sm, given eig w cs i = Some sm -> exists c, In c cs /\ made c = Some sm.
Proof.
  induction cs as [|c cs IH]; intros w i sm H; [discriminate|]. cbn [given] in H. destruct (exec2 eig w c) as [w' o].
  destruct (made c) as [sm'|] eqn:E; [|destruct (IH _ _ _ H) as (c' & Hc & M); exists c'; split; [now right|exact M]].
  destruct o as [u|e| |]; try (destruct (IH _ _ _ H) as (c' & Hc & M); exists c'; split; [now right|exact M]).
  destruct (Z.eqb (w2_last w') i).
  - injection H as <-. exists c. split; [now left|exact E].
  - destruct (IH _ _ _ H) as (c' & Hc & M); exists c'; split; [now right|exact M].
Qed.
Lemma demo3_realizable i s m : given no_eig w2_init demo3 i = Some (s, m) -> s <> 0 -> realizable m.
Proof.
  intros H _. apply given_in in H as (c & Hc & M). cbn in Hc.
  repeat (destruct Hc as [<-|Hc]; [cbn in M; try discriminate; injection M as <- <-; exact pm1_realizable|]). destruct Hc.
Qed.

Lemma coin_uncorrelated : uncorrelated coin 1 (fun _ => toss).
Proof.
  split.
  - intros v Hv. split; [exact I|]. cbn. lra.
  - intros u v Hu Hv. split; [exact I|]. assert (u = v) by lia. subst. rewrite Nat.eqb_refl. cbn. lra.
Qed.
