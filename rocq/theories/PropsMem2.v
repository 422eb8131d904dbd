(** * PropsMem2: the memory used by UReal2 (C88)

    Generated from tools/PropsMem2.in. *)

From Coq Require Import List ZArith Reals Bool Lra Lia.
From Verif Require Import Base Num Map UReal World HessGrad Moments CheckMoments UReal2 World2 SpecU2 SpecU2Run SpecU2Mixed SpecOrder
  Alloc SpecAlloc Alloc2 SpecAlloc2 SpecMem2 Mem2Proofs Demo2 Demo2Mixed Mem2Demo.
Import ListNotations.
Local Open Scope R_scope.

(** ** C88: which pairs the result of a function has a mixed derivative recorded for.  A function whose second derivative
    with respect to an operand is zero keeps the pairs of the operand; one whose second derivative is not zero keeps at
    most one pair for each variable, the one with the following variable; the mixed derivative of the function adds a pair
    for each variable of one operand and different variable of the other. *)
Theorem C88_recorded_pairs : forall eig (w : world2 RN), reachable2 eig w -> forall u v : nat,
  let x := w2_var w u in let y := w2_var w v in
  (forall f f1 f2 z, u2_unary x f f1 f2 = Ret z -> forall i j, recorded z i j <-> keeps f2 x i j) /\
  (forall f fx fy fxx fyy fxy z, u2_binary x y f fx fy fxx fyy fxy = Ret z -> forall i j,
     recorded z i j <-> keeps fxx x i j \/ keeps fyy y i j \/ (fxy <> 0%R /\ crossed x y i j)).
Proof. exact C88_recorded_pairs_proof. Qed.
Print Assumptions C88_recorded_pairs.
(** A call that computes a UReal2 allocates a node for each variable the result depends on and one for each recorded
    pair, at most n(n+1)/2 in all; a constructor that throws allocates nothing; [v = x] allocates the nodes that [v] does not have. *)
Theorem C88_allocations : forall eig (L : libs RN) cs c w, legal2 (cs ++ [c]) -> run2 eig w2_init cs = Ret w ->
  (computes2 c = true -> snd (exec2 eig w c) = Ret tt ->
   exists d p, size_of (w2_var (fst (exec2 eig w c)) (writes2 c)) d p /\ (p <= d * (d - 1) / 2)%nat /\ allocates2 eig L w c (d + p)) /\
  (computes2 c = true -> snd (exec2 eig w c) <> Ret tt -> allocates2 eig L w c 0) /\
  (forall v x d p d' p', c = ECopy v x -> v <> x -> reuses (lib_diag L) -> reuses (lib_tri L) ->
   size_of (w2_var w v) d p -> size_of (w2_var w x) d' p' -> allocates2 eig L w c ((d' - d) + (p' - p))).
Proof. exact C88_allocations_proof. Qed.
Print Assumptions C88_allocations.
(** Programs that only construct, copy, negate, add and subtract record no pair: the memory is linear. *)
Theorem C88_sums : forall eig cs (w : world2 RN), legal2 cs -> List.Forall sums_only cs -> run2 eig w2_init cs = Ret w ->
  forall v, exists d, size_of (w2_var w v) d 0 /\ (d <= count_new2 cs)%nat.
Proof. exact C88_sums_proof. Qed.
Print Assumptions C88_sums.
(** Programs that only construct, copy, negate and multiply record all pairs: the memory is quadratic. *)
Theorem C88_products : forall eig cs (w : world2 RN), legal2 cs -> List.Forall products_only cs -> run2 eig w2_init cs = Ret w ->
  forall v, exists d, size_of (w2_var w v) d (d * (d - 1) / 2) /\ (d <= count_new2 cs)%nat.
Proof. exact C88_products_proof. Qed.
Print Assumptions C88_products.
Example C88_case : exists w, run2 no_eig w2_init demo3 = Ret w /\ reachable2 no_eig w /\
  size_of (w2_var w 5%nat) 3 2 /\ size_of (w2_var w 6%nat) 0 0 /\
  reuses (lib_diag (libstdcxx RN)) /\ reuses (lib_tri (libstdcxx RN)) /\
  legal2 (demo3 ++ [EMul 6%nat 3%nat 5%nat]) /\ allocates2 no_eig (libstdcxx RN) w (EMul 6%nat 3%nat 5%nat) 6 /\
  allocates2 no_eig (libstdcxx RN) w (EUnary 6%nat 5%nat (fun _ => 1) (fun _ => 1) (fun _ => 1))%R 4 /\
  allocates2 no_eig (libstdcxx RN) w (ECopy 6%nat 5%nat) 5 /\
  (legal2 demo2 /\ List.Forall sums_only demo2) /\ (legal2 (firstn 5 demo3) /\ List.Forall products_only (firstn 5 demo3)).
Proof. exact mem2_case. Qed.
