(** * StreamDemo: a UReal2 with a negative variance, used to show that hypotheses can be met *)

From Coq Require Import List ZArith Bool Reals Ascii String Lra Lia.
From Verif Require Import Base Num Map UReal World HessGrad Moments CheckMoments UReal2 World2 SpecObs SpecU2Run Io SpecIo
  Stream SpecStream StreamProofs Demo Demo2 Demo3.
Import ListNotations.
Local Open Scope R_scope.

(** a = 0 +- 1 with a fourth moment of 0, which no variable has and which is not checked if the threshold is negative; b = a * a *)
Definition no_moments : moms RN := mkM 0 0 0 0 0 0.
Definition impossible : list (call2 RN) := [ENewStd 0%nat 0 1 no_moments (-1); EMul 1%nat 0%nat 0%nat].
Lemma half_nonzero : Reqb (1 / 2) 0 = false.
Proof. unfold Reqb. destruct (Req_EM_T (1 / 2) 0); [lra|reflexivity]. Qed.
Lemma negative_variance : exists w, run2 no_eig w2_init impossible = Ret w /\ reachable2 no_eig w /\ u2_var (w2_var w 1%nat) = Ret (-1).
Proof.
  assert (L : legal2 impossible).
  { split; [repeat constructor|]. split; [|apply max_new_ge; cbn; lia].
    repeat constructor; cbn; intro H; apply Rltb_false in H; exfalso; lra. }
  assert (E : exists w, run2 no_eig w2_init impossible = Ret w /\ u2_var (w2_var w 1%nat) = Ret (-1)).
  { unfold impossible. cbn [run2 exec2]. rewrite new_std_free by lra.
    cbn [assign2 run2 exec2 w2_last set_last w2_w w_last w2_init w_init w2_var]. rewrite wrap1.
    unfold upd2. cbn [Nat.eqb]. unfold u2_mul, u2_binary.
    cbn -[Rltb Reqb Rleb Rplus Rmult Rdiv IZR].
    rewrite half_nonzero. cbn -[Rltb Reqb Rleb Rplus Rmult Rdiv IZR].
    eexists. split; [reflexivity|]. cbn -[Rltb Reqb Rleb Rplus Rmult Rdiv IZR]. f_equal. lra. }
  destruct E as (w & E & V). exists w. split; [exact E|]. split; [exists impossible; auto|exact V].
Qed.

(** A chain with settings, a string and variables. *)
Lemma stream_case : exists w, reachable w /\ u_s (w_var w 0%nat) <> 0 /\ u_s (w_var w 1%nat) <> 0 /\
  os_good cout = true /\ os_width cout = 0%Z /\ continues (os_fill cout) = false /\
  (forall n, ~ In (IWidth n) [IPrecision 3; IVar 0%nat; IText (lit ", "); IVar 1%nat]) /\
  chain w cout [IWidth 10; IAdjust AdjLeft; IPrecision 3; IVar 0%nat; IText (lit ", "); IShowpos true; IVar 1%nat]
  = Ret (mkOs (lit "1" ++ plus_minus ++ lit "12   , 1" ++ plus_minus ++ lit "12") true 0 " "%char AdjLeft 3 0 true).
Proof.
  destruct alike_world as (w & Rw & N0 & S0 & N1 & S1). exists w. split; [exact Rw|]. rewrite S0, S1.
  do 2 (split; [lra|]). do 3 (split; [reflexivity|]). split; [intros n Hn; cbn in Hn; intuition discriminate|].
  assert (P0 : forall os, print_ureal os (w_var w 0%nat) = Ret (insert_string os (lit "1" ++ plus_minus ++ lit "12"))).
  { intro os. unfold print_ureal. rewrite N0, S0, (format_12 (96 / 10) 10) by (lra || auto). reflexivity. }
  assert (P1 : forall os, print_ureal os (w_var w 1%nat) = Ret (insert_string os (lit "1" ++ plus_minus ++ lit "12"))).
  { intro os. unfold print_ureal. rewrite N1, S1, (format_12 (12 / 10) 1) by (lra || auto). reflexivity. }
  cbn [chain put cout bind]. rewrite P0. cbn -[print_ureal]. rewrite P1. reflexivity.
Qed.
