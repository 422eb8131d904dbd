(** * PropsOrder: the order of unrelated calls (C59)

    Generated from tools/PropsOrder.in. *)

From Coq Require Import List ZArith Reals Bool Lra Lia.
From Verif Require Import Base Num Map UReal World SpecObs HessGrad Moments CheckMoments UReal2 World2 SpecU2Run Ieee SpecIeee
  SpecOrder OrderProofs OrderProofs2 OrderProofs3 Demo2 OrderDemo OrderDemo2.
Import ListNotations.
Local Open Scope R_scope.

(** ** C59: for UReal the results do not depend on the order of unrelated calls. *)
@C59_order_of_calls
Example C59_case : legal ord1 /\ reordered unrelated ord1 ord1' /\ ord1 <> ord1'.
Proof. split; [exact ord1_legal|]. split; [exact ord1_reordered|]. intro H. discriminate H. Qed.
(** For UReal2 neither, as long as no pure second derivative is taken of a value that
    depends on more than one variable.  Otherwise they do. *)
@C59_UReal2_partial
@C59_UReal2_refuted
Example C59_UReal2_case : legal2 ord3 /\ covered_run no_eig w2_init ord3 /\ reordered unrelated2 ord3 ord3' /\ ord3 <> ord3'.
Proof. split; [exact ord3_legal|]. split; [exact ord3_covered|]. split; [exact ord3_reordered|]. intro H. discriminate H. Qed.
(** With rounding the sum of the squared deviations depends on the order of creation. *)
@C59_doubles_refuted
