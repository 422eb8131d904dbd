(** * PropsOrder: the order of unrelated calls (C59)

    Generated from tools/PropsOrder.in. *)

From Coq Require Import List ZArith Reals Bool Lra Lia.
From Verif Require Import Base Num Map UReal World SpecObs HessGrad Moments CheckMoments UReal2 World2 SpecU2Run Ieee SpecIeee
  SpecOrder OrderProofs OrderProofs2 OrderProofs3 Demo2 OrderDemo OrderDemo2.
Import ListNotations.
Local Open Scope R_scope.

(** ** C59: for UReal the results do not depend on the order of unrelated calls. *)
Theorem C59_order_of_calls : forall cs cs' : list (call RN), legal cs -> reordered unrelated cs cs' ->
  legal cs' /\ exists w w' p, run w_init cs = Ret w /\ run w_init cs' = Ret w' /\ renaming (w_last w) p /\
    w_last w = w_last w' /\
    forall u v, let x := w_var w u in let y := w_var w v in let x' := w_var w' u in let y' := w_var w' v in
      u_n x' = u_n x /\ u_s x' = u_s x /\ u_var x' = u_var x /\
      u_cov x' y' = u_cov x y /\ u_corr x' y' = u_corr x y /\ u_isindep x' = u_isindep x /\
      exists i, u_indepid x = Ret i /\ u_indepid x' = Ret (p i).
Proof. exact C59_order_of_calls_proof. Qed.
Print Assumptions C59_order_of_calls.
Example C59_case : legal ord1 /\ reordered unrelated ord1 ord1' /\ ord1 <> ord1'.
Proof. split; [exact ord1_legal|]. split; [exact ord1_reordered|]. intro H. discriminate H. Qed.
(** For UReal2 neither, as long as no pure second derivative is taken of a value that
    depends on more than one variable.  Otherwise they do. *)
Theorem C59_UReal2_partial : forall eig (cs cs' : list (call2 RN)), legal2 cs -> covered_run eig w2_init cs ->
  reordered unrelated2 cs cs' ->
  legal2 cs' /\ covered_run eig w2_init cs' /\
  exists w w' p, run2 eig w2_init cs = Ret w /\ run2 eig w2_init cs' = Ret w' /\ renaming (w2_last w) p /\
    w2_last w = w2_last w' /\
    forall t u v, let z := w2_var w t in let x := w2_var w u in let y := w2_var w v in
      let z' := w2_var w' t in let x' := w2_var w' u in let y' := w2_var w' v in
      u2_first_order_n x' = u2_first_order_n x /\ (forall n, u2_m x' n = u2_m x n) /\
      (forall prop, u2_n prop x' = u2_n prop x) /\ u2_s x' = u2_s x /\ u2_skew x' = u2_skew x /\ u2_kurt x' = u2_kurt x /\
      u2_var x' = u2_var x /\ u2_cov x' y' = u2_cov x y /\ u2_corr x' y' = u2_corr x y /\
      u2_grad x' y' = u2_grad x y /\ u2_hess z' x' y' = u2_hess z x y /\ u2_isindep x' = u2_isindep x /\
      exists i, u2_indepid x = Ret i /\ u2_indepid x' = Ret (p i).
Proof. exact C59_UReal2_partial_proof. Qed.
Print Assumptions C59_UReal2_partial.
Theorem C59_UReal2_refuted : exists eig (cs cs' : list (call2 RN)) w w' (t u v : nat),
  legal2 cs /\ legal2 cs' /\ reordered unrelated2 cs cs' /\ run2 eig w2_init cs = Ret w /\ run2 eig w2_init cs' = Ret w' /\
  u2_hess (w2_var w t) (w2_var w u) (w2_var w v) = Ret 1 /\ u2_hess (w2_var w' t) (w2_var w' u) (w2_var w' v) = Ret 0 /\
  u2_var (w2_var w t) = Ret 4 /\ u2_var (w2_var w' t) = Ret 3.
Proof. exact C59_UReal2_refuted_proof. Qed.
Print Assumptions C59_UReal2_refuted.
Example C59_UReal2_case : legal2 ord3 /\ covered_run no_eig w2_init ord3 /\ reordered unrelated2 ord3 ord3' /\ ord3 <> ord3'.
Proof. split; [exact ord3_legal|]. split; [exact ord3_covered|]. split; [exact ord3_reordered|]. intro H. discriminate H. Qed.
(** With rounding the sum of the squared deviations depends on the order of creation. *)
Theorem C59_doubles_refuted : exists (cs cs' : list (call DN)) w w', dlegal cs /\ dlegal cs' /\ reordered unrelated cs cs' /\
  run w_init cs = Ret w /\ run w_init cs' = Ret w' /\
  exists v, finite (u_var (w_var w v)) /\ finite (u_var (w_var w' v)) /\ u_var (w_var w v) <> u_var (w_var w' v).
Proof. exact C59_doubles_refuted_proof. Qed.
Print Assumptions C59_doubles_refuted.
