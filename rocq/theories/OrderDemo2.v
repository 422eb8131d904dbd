(** * OrderDemo2: with numbers of type double the order shows *)

From Coq Require Import List ZArith Reals Bool Lra Lia SpecFloat.
From Flocq Require Import Core BinarySingleNaN.
From Verif Require Import Base Num Map UReal World SpecObs HessGrad UReal2 World2 Ieee SpecIeee IeeeProofs5 SpecOrder.
Import ListNotations.
Local Open Scope R_scope.

(** deviations 1, e and e with e = 17/16 2^-27 *)
Definition n_a : call DN := CNew 0%nat (d 0) (d 1).
Definition n_b : call DN := CNew 1%nat (d 0) (half 17 31).
Definition n_c : call DN := CNew 2%nat (d 0) (half 17 31).
Definition sum3 : list (call DN) := [CAdd 3%nat 0%nat 1%nat; CAdd 4%nat 3%nat 2%nat].
Lemma C59_doubles_refuted_proof : exists (cs cs' : list (call DN)) w w', dlegal cs /\ dlegal cs' /\ reordered unrelated cs cs' /\
  run w_init cs = Ret w /\ run w_init cs' = Ret w' /\
  exists v, finite (u_var (w_var w v)) /\ finite (u_var (w_var w' v)) /\ u_var (w_var w v) <> u_var (w_var w' v).
Proof.
  exists ([n_a; n_b; n_c] ++ sum3), ([n_b; n_c; n_a] ++ sum3), (after ([n_a; n_b; n_c] ++ sum3)), (after ([n_b; n_c; n_a] ++ sum3)).
  split. { apply dlegal_small; [repeat constructor|cbn; lia]. }
  split. { apply dlegal_small; [repeat constructor|cbn; lia]. }
  split.
  { apply (reord_trans _ _ ([n_b; n_a; n_c] ++ sum3)).
    - apply (reord_swap unrelated [] n_a n_b (n_c :: sum3)). unfold unrelated. cbn. lia.
    - apply (reord_swap unrelated [n_b] n_a n_c sum3). unfold unrelated. cbn. lia. }
  split; [ran|]. split; [ran|]. exists 4%nat.
  split; [vm_compute; reflexivity|]. split; [vm_compute; reflexivity|].
  apply neq_SF; vm_compute; discriminate.
Qed.
