(** * PropsMove: std::move and std::swap (C74)

    Generated from tools/PropsMove.in. *)

From Coq Require Import List ZArith Bool Reals Lra Lia.
From Verif Require Import Base Num Map UReal World HessGrad Moments CheckMoments UReal2 World2 SpecOrder SpecObs SpecU2 SpecU2Run
  Move SpecMove MoveProofs.
Import ListNotations.
Local Open Scope R_scope.

(** ** C74 *)
@C74_moves_are_copies
@C74_swap
@C74_no_undefined_behaviour
@C74_moved_from
@C74_moved_from_consistent_refuted
(** a = 1 +- 1; b = std::move(a); b += b; std::swap(b, c) through t; d = std::move(c);
    c = 2 +- 1, whatever is left in the moved containers: only a, t are gone at the end. *)
Example C74_case : forall r1 r2 r3 r4 r5 : list (Z * R),
  let es := [VCall (E1 (CNew 0 1 1)); VMove1 1 0 r1; VCall (E1 (CAddA 1 1))] ++ swap1 (N := RN) 1 2 9 r2 r3 r4 ++
            [VMove1 3 2 r5; VCall (E1 (CNew 2 2 1))] in
  let eig := fun _ => None in
  clean eig w2_init nothing_gone es /\ legal2 (map copied es) /\
  (forall u, gone1 (gone_end eig w2_init nothing_gone es) u <-> (u = 0 \/ u = 9)%nat) /\
  (r1 = [] -> r2 = [] -> r3 = [] -> r4 = [] -> r5 = [] -> List.Forall empties es).
Proof.
  intros r1 r2 r3 r4 r5 es eig. unfold es.
  assert (E : forall (w : world2 RN) v n, snd (exec2 eig w (E1 (CNew v n 1))) = Ret tt).
  { intros w v n. cbn [exec2 exec]. unfold u_new. cbn [usdev]. replace (nltb (n := RN) 1 n0) with false; [reflexivity|].
    symmetry. apply Rltb_false. cbn. lra. }
  assert (A : forall (w : world2 RN) v x, snd (exec2 eig w (E1 (CAddA v x))) = Ret tt) by reflexivity.
  split; [|split; [|split]].
  - cbn [app swap1 clean copied]. unfold looks_ok. cbn [copied reads In gone_after]. rewrite !A, !E. cbn [gone1 gone2 writes nothing_gone].
    repeat split; intros u Hu; intuition lia.
  - split; [repeat constructor|]. split; [repeat constructor|]. apply max_new_Z. cbn. lia.
  - cbn [app swap1 gone_end copied gone_after]. rewrite !A, !E. cbn [gone1 gone2 writes nothing_gone]. intro u. intuition lia.
  - intros -> -> -> -> ->. repeat constructor.
Qed.
