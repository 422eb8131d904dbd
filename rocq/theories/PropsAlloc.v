(** * PropsAlloc: calls that run out of memory (C68)

    Generated from tools/PropsAlloc.in. *)

From Coq Require Import List ZArith Reals Bool Lra Lia.
From Verif Require Import Base Num Map UReal World SpecLin SpecObs SpecOrder Alloc SpecAlloc AllocProofs AllocProofs2 Demo AllocDemo.
Import ListNotations.
Local Open Scope R_scope.

(** ** C68: a call that succeeds does what it always does, and succeeds if there is enough memory. *)
Theorem C68_enough_memory : forall (N : Num) (L : map_lib N) (w : world N) (c : call N), good_map_lib L ->
  (forall k w' o, exec_a L k w c = (w', Some o) -> exec w c = (w', o)) /\
  exists n, forall k, (n <= k)%nat -> exec_a L k w c = (fst (exec w c), Some (snd (exec w c))).
Proof. exact C68_enough_memory_proof. Qed.
Print Assumptions C68_enough_memory.
(** A call that fails leaves all variables alone, except the left hand side of [v = x] and of the compound
    assignments. *)
Theorem C68_failed_call_no_effect : forall (N : Num) (L : map_lib N) k (w w' : world N) (c : call N),
  exec_a L k w c = (w', None) ->
  w_last w' = w_last w /\ (forall u, u <> writes c -> w_var w' u = w_var w u) /\
  (in_place c = false -> forall u, w_var w' u = w_var w u).
Proof. exact C68_failed_call_no_effect_proof. Qed.
Print Assumptions C68_failed_call_no_effect.
(** After any number of failed calls nothing is undefined. *)
Theorem C68_no_undefined_behaviour : forall (N : Num), nltb (n0 : N) n0 = false ->
  forall (L : map_lib N) (cs : list (call N * nat)), good_map_lib L ->
  List.Forall nary_ok (map fst cs) -> (count_new (map fst cs) <= max_new)%nat ->
  exists w, run_a L w_init cs = Ret w /\
    (forall v, exists b, u_isindep (w_var w v) = Ret b) /\
    (forall v, exists i, u_indepid (w_var w v) = Ret i) /\
    (forall u v mu dx dy, exists z, u_binary (w_var w u) (w_var w v) mu dx dy = Ret z).
Proof. exact C68_no_undefined_behaviour_proof. Qed.
Print Assumptions C68_no_undefined_behaviour.
(** What a failed compound assignment leaves: the mean, and the coefficients with respect to a part of the
    variables, are those before and after the call. *)
Theorem C68_failed_compound_partial : forall L k cs w v x f ft fx w', legal cs -> run w_init cs = Ret w ->
  exec_a L k w (CAssign v x f ft fx) = (w', None) ->
  v <> x /\
  let g := s_var (spec_run s_init cs) in
  let dt := ft (l_mean (g v)) (l_mean (g x)) in let dx := fx (l_mean (g v)) (l_mean (g x)) in
  ((forall u, w_var w' u = w_var w u) \/
   exists j, l_dep (g x) j /\ ~ l_dep (g v) j /\
     let a' := lin_binary (g v) (lin_before j (g x)) (l_mean (g v)) dt dx in
     u_n (w_var w' v) = u_n (w_var w v) /\
     (forall t, t <> v -> u_cov (w_var w' v) (w_var w' t) = lin_cov (w_last w) a' (g t)) /\
     u_cov (w_var w' v) (w_var w' v) = lin_var (w_last w) a' /\
     (u_s (w_var w' v) = u_s (w_var w v) \/ u_s (w_var w' v) = lin_sdev (w_last w) a')).
Proof. exact C68_failed_compound_partial_proof. Qed.
Print Assumptions C68_failed_compound_partial.
(** Adding or subtracting a variable that depends on one independent variable only either succeeds or has no effect. *)
Theorem C68_failed_add_partial : forall L k w w' v x, reachable w -> u_isindep (w_var w x) = Ret true ->
  exec_a L k w (CAddA v x) = (w', None) \/ exec_a L k w (CSubA v x) = (w', None) -> same_obs w' w.
Proof. exact C68_failed_add_partial_proof. Qed.
Print Assumptions C68_failed_add_partial.
(** In general the left hand side is left with a deviation that is not the one of its coefficients. *)
Theorem C68_failed_assignment_refuted : forall L, good_map_lib L -> exists cs w, legal cs /\ run w_init cs = Ret w /\
  (exists w', exec_a L 1 w (CAddA 3%nat 2%nat) = (w', None) /\
     u_n (w_var w' 3%nat) = 0 /\ u_s (w_var w' 3%nat) = 0 /\ u_cov (w_var w' 3%nat) (w_var w' 3%nat) = 1 /\
     u_cov (w_var w' 3%nat) (w_var w' 0%nat) = 1 /\ u_cov (w_var w 3%nat) (w_var w 0%nat) = 0) /\
  (exists w', exec_a L 1 w (CMulA 4%nat 1%nat) = (w', None) /\
     u_n (w_var w' 4%nat) = 2 /\ u_s (w_var w' 4%nat) = 1 /\ u_cov (w_var w' 4%nat) (w_var w' 4%nat) = 25) /\
  (exists w', exec_a L 0 w (CCopy 3%nat 2%nat) = (w', None) /\
     u_n (w_var w' 3%nat) = 6 /\ u_n (w_var w 3%nat) = 0).
Proof. exact C68_failed_assignment_refuted_proof. Qed.
Print Assumptions C68_failed_assignment_refuted.
Example C68_case : good_map_lib (reusing_lib RN) /\ legal adem /\ exists w, run w_init adem = Ret w /\
  u_isindep (w_var w 4%nat) = Ret true /\
  (exists w', exec_a (reusing_lib RN) 0 w (CAddA 2%nat 4%nat) = (w', None)) /\
  (exists w', exec_a (reusing_lib RN) 1 w (CAddA 2%nat 4%nat) = (w', Some (Ret tt))) /\
  (exists w', exec_a (reusing_lib RN) 2 w (CMul 2%nat 2%nat 4%nat) = (w', None)) /\
  (exists w', exec_a (reusing_lib RN) 1 w (CAssign 3%nat 2%nat Rplus (fun _ _ => 1) (fun _ _ => 1)) = (w', None)).
Proof.
  split; [apply reusing_lib_good|]. split; [exact adem_legal|].
  destruct adem_run as (w & E & _ & H). exists w. split; [exact E|].
  cbn [exec_a]. unfold u_mul. rewrite !H. split; [reflexivity|].
  assert (D : Reqb 1 1 = true) by (destruct (Reqb_spec 1 1); [reflexivity|lra]).
  cbn -[IZR]. rewrite !D. cbn -[IZR]. repeat split; eexists; reflexivity.
Qed.
