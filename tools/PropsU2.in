(** * PropsU2: the storage of UReal2 and its propagation (C01, C25-C27, C34-C36)

    Generated from tools/PropsU2.in. *)

From Coq Require Import List ZArith Bool Reals Lra Lia Sorted.
From Verif Require Import Base Num Map UReal World HessGrad Moments CheckMoments UReal2 World2 Sums SpecLin SpecObs
  U2Facts SpecU2 SpecU2Run SpecU2Mixed SpecU2Mixed2 U2Proofs U2Proofs2 U2Mixed U2Mixed2 AssignProofs3 UReal2Self AssignSelf AssignTri World2Assign SpecAssign2 AssignWf Demo Demo2 Demo2Mixed.
Import ListNotations.
Local Open Scope R_scope.

(** ** C01, both classes *)
@C01_ids_unique_both_classes
(** A UReal and then a UReal2, with other calls in between. *)
Example C01_both_case :
  (nltb (n0 : RN) n0 = false) /\
  legal2 (N := RN) ([EConst 0%nat 1] ++ E1 (CNew 0%nat 1 2) :: [ENeg 1%nat 0%nat] ++ [ENewStd 2%nat 1 2 gauss (-1)]).
Proof.
  split; [exact Rltb_00|].
  split; [repeat constructor|]. split; [|apply max_new_ge; cbn; lia].
  repeat constructor; cbn; intro H; apply Rltb_false in H; exfalso; lra.
Qed.

(** ** C25 *)
@C25_storage_invariants
@C25_iterators
@C25_queries_return
(** The history a = 0 +- 1; b = 0 +- 1; c = a + b. *)
Example C25_case : nltb (n0 : RN) n0 = false /\ legal2 demo2 /\
  exists w, reachable2 no_eig w /\ length (diagmap (u2hg (w2_var w 2%nat))) = 2%nat.
Proof.
  split; [exact Rltb_00|]. split; [exact demo2_legal|].
  destruct demo2_reachable as (w & HR & _ & _ & E & _). exists w. split; [exact HR|]. now rewrite E.
Qed.

(** ** C26 *)
@C26_neg_add_sub_mul
@C26_no_pure_second_derivative
(** In the same state, (a + b) * b has a mixed derivative. *)
Example C26_case : exists w, reachable2 no_eig w /\
  j_h (jet_mul (jet_of (w2_var w 2%nat)) (jet_of (w2_var w 1%nat))) 1%Z 2%Z = 1 / 2.
Proof.
  destruct demo2_reachable as (w & HR & _ & E1 & E2 & _ & M1 & M2 & _). exists w. split; [exact HR|].
  cbn [jet_mul j_h j_g j_mean jet_of]. rewrite E1, E2, M1, M2. cbn. lra.
Qed.

(** ** C27 *)
(** Missing from the full statement: mixed second derivatives when a pure second
    derivative of the function is nonzero and the operand depends on several variables.
    The library drops them, see the refutation. *)
@C27_second_order_chain_rule_partial
@C27_mixed_derivatives_refuted
Example C27_case : exists w, reachable2 no_eig w /\ single (jet_of (w2_var w 0%nat)) /\ j_g (jet_of (w2_var w 0%nat)) 1%Z = 1.
Proof.
  destruct demo2_reachable as (w & HR & E0 & _). exists w. split; [exact HR|]. split.
  - intros i j. cbn [jet_of j_dep]. rewrite E0. cbn. intuition congruence.
  - cbn [jet_of j_g]. now rewrite E0.
Qed.

(** Exactly which mixed second derivatives a function of one argument with non-zero
    second derivative leaves: at most those of a variable and its successor. *)
@C27_mixed_exact_partial
Example C27_mixed_case : exists w, reachable2 no_eig w /\
  let p := w2_var w 3%nat in let q := w2_var w 5%nat in
  (follows (jet_of p) 1%Z 2%Z /\ recorded p 1%Z 2%Z /\ (forall k, recorded p 1%Z k -> k = 2%Z)) /\
  (follows (jet_of q) 1%Z 2%Z /\ recorded q 1%Z 3%Z) /\ ~ follows (jet_of q) 1%Z 3%Z /\ (forall k, ~ recorded q 2%Z k).
Proof.
  destruct demo3_reachable as (w & HR & D3 & T3 & D5 & T5). exists w. split; [exact HR|]. cbv zeta.
  unfold follows, recorded. cbn [jet_of j_dep]. rewrite D3, T3, D5, T5. cbn.
  split; [|split; [|split]].
  - split; [|split; [now left|intros k [H|[]]; congruence]]. repeat split; auto. intros k Hk; lia.
  - split; [|now auto]. repeat split; auto. intros k Hk; lia.
  - intros (_ & _ & _ & H). apply (H 2%Z); [auto|lia].
  - intros k [H|[H|[]]]; congruence.
Qed.

(** What functions of two arguments leave, in every case: the term of each argument is the one
    that functions of one argument leave, but it is lost if the other argument has more
    recorded mixed derivatives with the same first variable. *)
@C27_mixed_two_arguments_partial
(** p = a b, q = a b + a c: in p / q the mixed derivative of p is lost. *)
Example C27_two_arguments_case : exists w, reachable2 no_eig w /\
  let p := w2_var w 3%nat in let q := w2_var w 5%nat in passes 0 p 1%Z 2%Z 1 /\ passes 1 q 1%Z 2%Z 2.
Proof.
  destruct demo3_reachable as (w & HR & D3 & T3 & D5 & T5). exists w. split; [exact HR|]. cbv zeta. split.
  - split; [|congruence]. intros _. split; [reflexivity|]. unfold recorded. rewrite T3. intro H. destruct H. now left.
  - split; [intro H; exfalso; lra|]. intros _. unfold row_length, follows. cbn [jet_of j_dep]. rewrite D5, T5. split; [reflexivity|]. intro H. exfalso. apply H.
    cbn. repeat split; auto. intros k Hk. lia.
Qed.

(** A function with non-zero second derivative of a value computed with sums and
    differences has no mixed second derivatives at all; they should be the products of
    the first derivatives. *)
@C27_function_of_a_sum_partial
Example C27_sum_case : List.Forall sums_only demo2 /\ legal2 demo2 /\ exists w, run2 no_eig w2_init demo2 = Ret w /\
  j_g (jet_of (w2_var w 2%nat)) 1%Z * j_g (jet_of (w2_var w 2%nat)) 2%Z = 1.
Proof.
  split; [repeat constructor|]. split; [exact demo2_legal|].
  destruct demo2_world as (w & E & _ & _ & E2 & _). exists w. split; [exact E|].
  cbn [jet_of j_g]. rewrite E2. cbn. lra.
Qed.

(** ** C34 *)
@C34_isindep_indepid
@C34_grad
@C34_hess
Example C34_case : exists w, reachable2 no_eig w /\
  let a := jet_of (w2_var w 0%nat) in let b := jet_of (w2_var w 1%nat) in let c := jet_of (w2_var w 2%nat) in
  j_dep a 1%Z /\ (forall k, j_dep a k -> k = 1%Z) /\ j_g a 1%Z <> 0 /\
  j_dep b 2%Z /\ (forall k, j_dep b k -> k = 2%Z) /\ j_g b 2%Z <> 0 /\
  ~ (exists i, j_dep c i /\ forall k, j_dep c k -> k = i).
Proof.
  destruct demo2_reachable as (w & HR & E0 & E1 & E2 & _). exists w. split; [exact HR|].
  cbn [jet_of j_dep j_g]. rewrite E0, E1, E2. cbn. repeat split; try (now left); try lra; try (intros k [H|H]; lia).
  intros (i & _ & H). assert (1 = i)%Z by (apply H; auto). assert (2 = i)%Z by (apply H; auto). lia.
Qed.

(** ** C35 *)
@C35_binary_assign_refuted
(** The call always returns; the derivatives it stores, for any x and y. *)
@C35_gradient_and_diagonal
(** The gradient it stores is the right one only if all first derivatives of x are zero. *)
@C35_never_right
(** binary_assign(x, x, ...): the gradient is multiplied by (1 + fx) (1 + fy) instead of fx + fy. *)
@C35_same_object
(** The mixed second derivatives, when the pure second derivative with respect to x is zero, and the one with respect
    to y is zero or y depends on one variable (sums, differences, products, quotients by a variable).  Missing: the
    other functions, for which the loop over x also stops at pairs it has itself just created. *)
@C35_mixed_partial
(** For the same functions, all that is stored: what second-order propagation gives with other derivatives. *)
@C35_stored_partial
(** The same for binary_assign(x, x, ...), when both pure second derivatives are zero. *)
@C35_same_object_stored_partial
@C35_storage_kept
(** a = 0 +- 1; b = 0 +- 1; c = a + b; binary_assign(c, a, ...) and binary_assign(c, c, ...) for the product; d = 2 +- 1. *)
Example C35_storage_case : legal3 (map F2 demo2 ++
  [FAssign 2%nat 0%nat (fun a b => a * b) (fun _ b => b) (fun a _ => a) (fun _ _ => 0) (fun _ _ => 0) (fun _ _ => 1);
   FAssign 2%nat 2%nat (fun a b => a * b) (fun _ b => b) (fun a _ => a) (fun _ _ => 0) (fun _ _ => 0) (fun _ _ => 1);
   F2 (ENewStd 3%nat 2 1 gauss (-1))]).
Proof.
  split; [repeat constructor|]. split; [|apply max_new_ge; cbn; lia].
  repeat constructor; cbn; intro H; apply Rltb_false in H; exfalso; lra.
Qed.
Example C35_case : exists w : world2 RN, reachable2 no_eig w /\ j_g (jet_of (w2_var w 0%nat)) 1%Z = 1 /\ j_g (jet_of (w2_var w 1%nat)) 2%Z = 1.
Proof.
  destruct demo2_reachable as (w & HR & E0 & E1 & _). exists w. split; [exact HR|].
  unfold jet_of. cbn [j_g]. rewrite E0, E1. cbn. split; reflexivity.
Qed.
Example C35_mixed_case : exists w : world2 RN, reachable2 no_eig w /\ single (jet_of (w2_var w 1%nat)) /\ j_g (jet_of (w2_var w 1%nat)) 2%Z = 1.
Proof.
  destruct demo2_reachable as (w & HR & E0 & E1 & _). exists w. split; [exact HR|].
  unfold single, jet_of. cbn [j_g j_dep]. rewrite E1. split; [|reflexivity].
  cbn. intros i j [<-|[]] [<-|[]]. reflexivity.
Qed.

(** ** C36 *)
@C36_agrees_with_UReal
Example C36_case : legal2 demo2 /\ List.Forall only2 demo2 /\ accepted no_eig w2_init demo2.
Proof.
  split; [exact demo2_legal|]. split; [repeat constructor|].
  unfold demo2. cbn [accepted exec2]. rewrite new_std_free by lra. cbn [assign2 fst snd].
  split; [reflexivity|]. split; [|].
  { cbn [exec2]. rewrite new_std_free by lra. reflexivity. }
  cbn [exec2]. rewrite new_std_free by lra. cbn [assign2 fst snd]. split; [|exact I].
  cbn [exec2]. unfold u2_add, u2_binary. rewrite !half0.
  cbn -[Rltb Reqb Rleb Rplus Rmult Rdiv IZR]. reflexivity.
Qed.
