(** * PropsMove: std::move and std::swap (C74)

    Generated from tools/PropsMove.in. *)

From Coq Require Import List ZArith Bool Reals Lra Lia.
From Verif Require Import Base Num Map UReal World HessGrad Moments CheckMoments UReal2 World2 SpecOrder SpecObs SpecU2 SpecU2Run
  Move SpecMove MoveProofs.
Import ListNotations.
Local Open Scope R_scope.

(** ** C74 *)
Theorem C74_moves_are_copies : forall (N : Num) (eig : list (list N) -> option (list N)) (es : list (event N)),
  clean eig w2_init nothing_gone es ->
  same_but (gone_end eig w2_init nothing_gone es) (mrun eig w2_init es) (run2 eig w2_init (map copied es)).
Proof. exact C74_moves_are_copies_proof. Qed.
Print Assumptions C74_moves_are_copies.
Theorem C74_swap : forall (N : Num) (eig : list (list N) -> option (list N)) (w : world2 N) (v x t : nat),
  t <> v -> t <> x ->
  (forall r1 r2 r3, exists w', mrun eig w (swap1 v x t r1 r2 r3) = Ret w' /\
     w_var (w2_w w') v = w_var (w2_w w) x /\ w_var (w2_w w') x = w_var (w2_w w) v /\
     (forall u, u <> v -> u <> x -> u <> t -> w_var (w2_w w') u = w_var (w2_w w) u) /\
     w2_last w' = w2_last w /\ w2_var w' = w2_var w) /\
  (forall r1 r2 r3, exists w', mrun eig w (swap2 v x t r1 r2 r3) = Ret w' /\
     w2_var w' v = w2_var w x /\ w2_var w' x = w2_var w v /\
     (forall u, u <> v -> u <> x -> u <> t -> w2_var w' u = w2_var w u) /\ w2_w w' = w2_w w).
Proof. exact C74_swap_proof. Qed.
Print Assumptions C74_swap.
Theorem C74_no_undefined_behaviour : forall (N : Num) (eig : list (list N) -> option (list N)),
  nltb (n0 : N) n0 = false -> forall es : list (event N), legal2 (map copied es) -> List.Forall empties es ->
  exists w, mrun eig w2_init es = Ret w /\
    (forall u v, let x := w_var (w2_w w) u in let y := w_var (w2_w w) v in
       (exists b, u_isindep x = Ret b) /\ (exists i, u_indepid x = Ret i) /\
       ((exists r, u_grad y x = Ret r) \/ u_grad y x = Throw InvalidArgument) /\
       (forall mu dx dy, exists z, u_binary x y mu dx dy = Ret z)) /\
    (forall u v t, let x := w2_var w u in let y := w2_var w v in let z := w2_var w t in
       (forall n, (1 <= n <= 4)%Z -> exists m, u2_m x n = Ret m) /\
       (exists c, u2_cov x y = Ret c) /\ (exists i, u2_indepid x = Ret i) /\
       (forall p, exists b, u2_all p x = Ret b) /\
       ((exists g, u2_grad z x = Ret g) \/ u2_grad z x = Throw InvalidArgument) /\
       ((exists g, u2_hess z x y = Ret g) \/ u2_hess z x y = Throw InvalidArgument) /\
       (forall f f1 f2, exists r, u2_unary x f f1 f2 = Ret r) /\
       (forall f fx fy fxx fyy fxy, exists r, u2_binary x y f fx fy fxx fyy fxy = Ret r)).
Proof. exact C74_no_undefined_behaviour_proof. Qed.
Print Assumptions C74_no_undefined_behaviour.
Theorem C74_moved_from : forall eig (es : list (event RN)), legal2 (map copied es) -> List.Forall empties es ->
  forall w, mrun eig w2_init es = Ret w -> forall v x, exists w1 w2,
  mexec eig w (VMove1 v x []) = (w1, Ret tt) /\ mexec eig w (VMove2 v x [] []) = (w2, Ret tt) /\
  (let a := w_var (w2_w w) x in let a' := w_var (w2_w w1) x in
   u_n a' = u_n a /\
   (a' = a \/
    u_isindep a' = Ret true /\ u_indepid a' = Ret 0%Z /\
    (forall b, u_cov a' b = 0%R /\ u_cov b a' = 0%R) /\ (u_s a' = 0%R \/ u_s a' = u_s a))) /\
  w2_var w2 x = u2_const (u2mu (w2_var w x)).
Proof. exact C74_moved_from_proof. Qed.
Print Assumptions C74_moved_from.
Theorem C74_moved_from_consistent_refuted : exists (es : list (event RN)) w x,
  legal2 (map copied es) /\ List.Forall empties es /\ mrun (fun _ => None) w2_init es = Ret w /\
  (u_s (w_var (w2_w w) x) * u_s (w_var (w2_w w) x) = 2)%R /\ u_cov (w_var (w2_w w) x) (w_var (w2_w w) x) = 0%R.
Proof. exact C74_moved_from_consistent_refuted_proof. Qed.
Print Assumptions C74_moved_from_consistent_refuted.
(** a = 1 +- 1; b = std::move(a); b += b; std::swap(b, c) through t; d = std::move(c);
    c = 2 +- 1, whatever is left in the moved containers: only a, t are gone at the end. *)
Example C74_case : forall r1 r2 r3 r4 r5 : list (Z * R),
  let es := [VCall (E1 (CNew 0 1 1)); VMove1 1 0 r1; VCall (E1 (CAddA 1 1))] ++ swap1 (N := RN) 1 2 9 r2 r3 r4 ++
            [VMove1 3 2 r5; VCall (E1 (CNew 2 2 1))] in
  let eig := fun _ => None in
  clean eig w2_init nothing_gone es /\ legal2 (map copied es) /\
  (forall u, gone1 (gone_end eig w2_init nothing_gone es) u <-> (u = 0 \/ u = 9)%nat) /\
  (r1 = [] -> r2 = [] -> r3 = [] -> r4 = [] -> r5 = [] -> List.Forall empties es).
Proof.
  intros r1 r2 r3 r4 r5 es eig. unfold es.
  assert (E : forall (w : world2 RN) v n, snd (exec2 eig w (E1 (CNew v n 1))) = Ret tt).
  { intros w v n. cbn [exec2 exec]. unfold u_new. cbn [usdev]. replace (nltb (n := RN) 1 n0) with false; [reflexivity|].
    symmetry. apply Rltb_false. cbn. lra. }
  assert (A : forall (w : world2 RN) v x, snd (exec2 eig w (E1 (CAddA v x))) = Ret tt) by reflexivity.
  split; [|split; [|split]].
  - cbn [app swap1 clean copied]. unfold looks_ok. cbn [copied reads In gone_after]. rewrite !A, !E. cbn [gone1 gone2 writes nothing_gone].
    repeat split; intros u Hu; intuition lia.
  - split; [repeat constructor|]. split; [repeat constructor|]. apply max_new_Z. cbn. lia.
  - cbn [app swap1 gone_end copied gone_after]. rewrite !A, !E. cbn [gone1 gone2 writes nothing_gone]. intro u. intuition lia.
  - intros -> -> -> -> ->. repeat constructor.
Qed.
