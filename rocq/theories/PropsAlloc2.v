(** * PropsAlloc2: calls on UReal2 that run out of memory (C80)

    Generated from tools/PropsAlloc2.in. *)

From Coq Require Import List ZArith Reals Bool Lra Lia.
From Verif Require Import Base Num Map UReal World SpecObs SpecOrder HessGrad Moments CheckMoments UReal2 World2 SpecU2 SpecU2Run U2Proofs
  Alloc SpecAlloc Alloc2 SpecAlloc2 Alloc2Proofs Alloc2Proofs2 Alloc2Proofs3 Demo Demo2 AllocDemo2.
Import ListNotations.
Local Open Scope R_scope.

(** ** C80: a call that succeeds does what it always does, and succeeds if there is memory for the derivatives. *)
Theorem C80_enough_memory : forall (N : Num) (eig : list (list N) -> option (list N)) (L : libs N) (w : world2 N) (c : call2 N),
  nltb (n0 : N) n0 = false -> good_libs L -> reachable2 eig w ->
  (forall k w' o, exec2_a eig L k w c = (w', Some o) ->
     snd (exec2 eig w c) = o /\ w2_last w' = w2_last (fst (exec2 eig w c)) /\
     (forall u, w_var (w2_w w') u = w_var (w2_w (fst (exec2 eig w c))) u) /\
     (forall u, w2_var w' u = w2_var (fst (exec2 eig w c)) u)) /\
  exists n, (forall k, (n <= k)%nat -> snd (exec2_a eig L k w c) <> None) /\
    match c with E1 _ => True | _ => (n <= 1 + room (operands w c))%nat end.
Proof. exact C80_enough_memory_proof. Qed.
Print Assumptions C80_enough_memory.
(** A call that fails leaves all variables alone, except the left hand side of [v = x], and except what C68 says of UReal. *)
Theorem C80_failed_call_no_effect : forall (N : Num) (eig : list (list N) -> option (list N)) (L : libs N) k (w w' : world2 N) (c : call2 N),
  exec2_a eig L k w c = (w', None) ->
  match c with
  | E1 c => exec_a (lib_sigma L) k (w2_w w) c = (w2_w w', None) /\ (forall u, w2_var w' u = w2_var w u)
  | _ =>
      (forall u, w_var (w2_w w') u = w_var (w2_w w) u) /\
      (forall u, w2_var w' u = w2_var w u \/ u = writes2 c /\ exists x, c = ECopy u x /\ u <> x /\
         u2_first_order_n (w2_var w' u) = u2_first_order_n (w2_var w u)) /\
      (w2_last w' = w2_last w \/ is_new2 c = true /\ w2_last w' = w2_last (fst (exec2 eig w c)))
  end.
Proof. exact C80_failed_call_no_effect_proof. Qed.
Print Assumptions C80_failed_call_no_effect.
(** If the calls that fail are neither assignments in place nor constructions, the program is in the state it would be in without them. *)
Theorem C80_as_if_not_called : forall (N : Num) (eig : list (list N) -> option (list N)) (L : libs N) (cs : list (call2 N * nat)) w w',
  fails_well eig L w cs -> run2_a eig L w cs = Ret w' ->
  exists w'', run2 eig w (done_calls eig L w cs) = Ret w'' /\ w2_last w'' = w2_last w' /\
    (forall u, w_var (w2_w w'') u = w_var (w2_w w') u) /\ (forall u, w2_var w'' u = w2_var w' u).
Proof. exact C80_as_if_not_called_proof. Qed.
Print Assumptions C80_as_if_not_called.
(** Missing from the full statement (after any failures the program can go on): what a failed [v = x] left in v must not be used. *)
Theorem C80_no_undefined_behaviour_partial : forall (N : Num) (eig : list (list N) -> option (list N)) (L : libs N) (cs : list (call2 N * nat)),
  nltb (n0 : N) n0 = false -> good_libs L -> legal2 (map fst cs) -> careful eig L none_broken w2_init cs ->
  exists w, run2_a eig L w2_init cs = Ret w /\
    forall u v, broken_by eig L none_broken w2_init cs u = false -> broken_by eig L none_broken w2_init cs v = false ->
    let x := w2_var w u in let y := w2_var w v in
    (forall n, (1 <= n <= 4)%Z -> exists m, u2_m x n = Ret m) /\
    (exists c, u2_cov x y = Ret c) /\
    (forall p, exists b, u2_all p x = Ret b) /\
    (forall f f1 f2, exists r, u2_unary x f f1 f2 = Ret r) /\
    (forall f fx fy fxx fyy fxy, exists r, u2_binary x y f fx fy fxx fyy fxy = Ret r).
Proof. exact C80_no_undefined_behaviour_partial_proof. Qed.
Print Assumptions C80_no_undefined_behaviour_partial.
(** With the std::map of libstdc++ and with that of libc++, using it runs into an assertion; or it has the old mean
    and the new derivatives. *)
Theorem C80_failed_assignment_refuted : forall L : libs RN, L = libstdcxx RN \/ L = libcxx RN ->
  good_libs L /\ exists (eig : list (list RN) -> option (list RN)) (cs : list (call2 RN)) (w : world2 RN),
  legal2 cs /\ run2 eig w2_init cs = Ret w /\
  (exists w', exec2_a eig L 0 w (ECopy 2%nat 7%nat) = (w', None) /\
     u2_m (w2_var w' 2%nat) 3 = Assert /\ u2_cov (w2_var w' 2%nat) (w2_var w' 0%nat) = Assert /\
     u2_all (fun _ => true) (w2_var w' 2%nat) = Assert) /\
  (exists w', exec2_a eig L 2 w (ECopy 8%nat 2%nat) = (w', None) /\
     u2_first_order_n (w2_var w 8%nat) = 0 /\ u2_first_order_n (w2_var w 2%nat) = 1 /\ u2_first_order_n (w2_var w' 8%nat) = 0 /\
     u2_cov (w2_var w 8%nat) (w2_var w 0%nat) = Ret 0 /\ u2_cov (w2_var w' 8%nat) (w2_var w' 0%nat) = Ret 1 /\
     u2_hess (w2_var w 2%nat) (w2_var w 0%nat) (w2_var w 1%nat) = Ret 1 /\ u2_hess (w2_var w' 8%nat) (w2_var w 0%nat) (w2_var w 1%nat) = Ret 0).
Proof. exact C80_failed_assignment_refuted_proof. Qed.
Print Assumptions C80_failed_assignment_refuted.
Example C80_case : nltb (n0 : RN) n0 = false /\ good_libs (libstdcxx RN) /\ good_libs (libcxx RN) /\
  legal2 (map fst adem3) /\ careful no_eig (libstdcxx RN) none_broken w2_init adem3 /\
  snd (exec2_a no_eig (libstdcxx RN) 0 adem3_w (ECopy 1%nat 0%nat)) = None /\
  broken_by no_eig (libstdcxx RN) none_broken w2_init (firstn 3 adem3) 1%nat = true /\
  broken_by no_eig (libstdcxx RN) none_broken w2_init adem3 1%nat = false /\
  room 3 = 6%nat.
Proof.
  split; [exact Rltb_00|]. split; [apply libs_good; now left|]. split; [apply libs_good; now right|].
  split; [exact adem3_legal|]. destruct adem3_careful as (A & B & C & D). exact (conj A (conj B (conj C (conj D eq_refl)))).
Qed.
(** A history in which a negation fails and leaves no trace. *)
Example C80_not_called_case :
  let cs := [(ENewStd 0%nat 1 1 gauss (-1), 1%nat); (ENeg 2%nat 0%nat, 0%nat); (EConst 3%nat 2, 0%nat)] in
  fails_well no_eig (libstdcxx RN) w2_init cs /\
  done_calls no_eig (libstdcxx RN) w2_init cs = [ENewStd 0%nat 1 1 gauss (-1); EConst 3%nat 2].
Proof. exact adem4_fails. Qed.
