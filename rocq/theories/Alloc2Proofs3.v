(** * Alloc2Proofs3: failed calls that leave no trace *)

From Coq Require Import List ZArith Bool Sorted Arith Lia.
From Verif Require Import Base Num Map UReal World SpecOrder HessGrad Moments CheckMoments UReal2 World2 HessProofs U2Facts
  SpecObs U2World SpecU2 SpecU2Run U2Proofs Alloc SpecAlloc AllocProofs Alloc2 SpecAlloc2 Alloc2Proofs Alloc2Proofs2.
Import ListNotations.

Lemma exec2_same {N : Num} eig (w w' : world2 N) c : same2 w w' ->
  snd (exec2 eig w c) = snd (exec2 eig w' c) /\ same2 (fst (exec2 eig w c)) (fst (exec2 eig w' c)).
Proof.
  destruct w as [w1 g], w' as [w1' g']. intros [E H]. cbn in E, H. subst w1'.
  destruct (exec2_local eig w1 g' g c) as (A & B & C); [auto|]. split; [exact A|]. split; [exact B|].
  intro u. destruct (C u) as [-> |(-> & -> & _)]; auto.
Qed.

Lemma run_done {N : Num} eig (L : libs N) cs : forall w wq w', same2 wq w -> fails_well eig L w cs -> run2_a eig L w cs = Ret w' ->
  exists wq', run2 eig wq (done_calls eig L w cs) = Ret wq' /\ same2 wq' w'.
Proof.
  induction cs as [|[c k] cs IH]; intros w wq w' S F E; cbn [done_calls fails_well run2_a] in *.
  - injection E as <-. exists wq. split; [reflexivity|exact S].
  - destruct F as [F1 F2]. destruct (exec2_a eig L k w c) as [w1 [o|]] eqn:X; cbn [fst snd] in *.
    + destruct (exec2_a_some eig L k w c w1 o X) as (Eo & S1). destruct (exec2_same eig wq w c S) as (Eo' & S2).
      rewrite Eo in Eo'. assert (S3 : same2 (fst (exec2 eig wq c)) w1).
      { destruct S1 as [A B], S2 as [A' B']. split; [congruence|]. intro u. now rewrite B'. }
      cbn [run2]. destruct (exec2 eig wq c) as [wq1 oq]. cbn [fst snd] in *. subst oq.
      destruct o as [t|e| |]; try discriminate E; exact (IH w1 wq1 w' S3 F2 E).
    + specialize (F1 eq_refl). apply exec2_a_none in X. assert (S3 : same2 w w1).
      { destruct c; try discriminate F1; try (subst w1; split; reflexivity). cbn [all_or_nothing] in F1. destruct X as [X Xv].
        apply exec_a_none in X as (_ & _ & X). split; [|intro; now rewrite Xv]. symmetry. apply X. now destruct (in_place c). }
      apply (IH w1 wq w'); [|exact F2|exact E]. destruct S as [A B], S3 as [A' B']. split; [congruence|]. intro u. now rewrite B.
Qed.

Lemma C80_as_if_not_called_proof : forall (N : Num) (eig : list (list N) -> option (list N)) (L : libs N) (cs : list (call2 N * nat)) w w',
  fails_well eig L w cs -> run2_a eig L w cs = Ret w' ->
  exists w'', run2 eig w (done_calls eig L w cs) = Ret w'' /\ w2_last w'' = w2_last w' /\
    (forall u, w_var (w2_w w'') u = w_var (w2_w w') u) /\ (forall u, w2_var w'' u = w2_var w' u).
Proof.
  intros N eig L cs w w' F E. destruct (run_done eig L cs w w w') as (w'' & E' & A & B); [split; reflexivity|exact F|exact E|].
  exists w''. split; [exact E'|]. unfold w2_last. rewrite A. split; [reflexivity|]. split; [reflexivity|exact B].
Qed.
