(** * PropsProg: accuracy of polynomial programs on UReal2<double> (C76)

    Generated from tools/PropsProg.in. *)

From Coq Require Import List ZArith Bool Reals Lra Lia.
From Flocq Require Import Core BinarySingleNaN.
From Verif Require Import Base Num Map UReal World HessGrad Moments CheckMoments UReal2 World2 SpecObs SpecU2 SpecU2Run SpecCast
  Ieee SpecIeee SpecAcc2 SpecAcc3 PolyAcc3 DemoAcc2.
Import ListNotations.
Local Open Scope R_scope.

(** ** C76 *)
@C76_derivatives
@C76_queries
(** x = 3 +- 2, y = 5 +- 1, z = (x y) x: eight roundings, and s = x + y: two. *)
Example C76_case : legal2 acc_demo /\ List.Forall polynomial acc_demo /\ run2 no_eig w2_init acc_demo = Ret acc_world /\
  rounds acc_demo 3 = 8%nat /\ rounds acc_demo 4 = 2%nat /\
  finite (u2mu (w2_var acc_world 3%nat)) /\ finite (hess_at (w2_var acc_world 3%nat) 1 2) /\ n_ids (w2_var acc_world 3%nat) = 2%nat.
Proof.
  split; [exact acc_demo_legal|]. split; [repeat constructor|]. split; [exact acc_demo_run|]. repeat split; vm_compute; reflexivity.
Qed.
