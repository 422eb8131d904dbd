(** * MemDemo: a concrete case for the statements about memory *)

From Coq Require Import List ZArith Bool Reals Lra Lia.
From Verif Require Import Base Num Map UReal World Sums SpecLin SpecObs SpecOrder URealProofs Alloc SpecAlloc AllocProofs Demo AllocDemo
  SpecMem MemProofs.
Import ListNotations.
Local Open Scope R_scope.

(** x = UReal(1, 1); y = exp(x); z = -y; t = z *)
Definition mdem : list (call RN) :=
  [CNew 0%nat 1 1; CUnary 1%nat 0%nat exp exp; CNeg 2%nat 1%nat; CCopy 3%nat 2%nat; CS 3%nat].
Lemma mdem_legal : legal mdem.
Proof.
  split; [repeat constructor|]. split; [|apply max_new_ge; cbn; lia].
  unfold mdem. cbn. decide_signs. cbn. repeat split; exact I.
Qed.
Lemma snoc_legal c : nary_ok c -> is_new c = false -> match c with CDiv _ _ _ | CDivA _ _ => False | _ => True end -> legal (adem ++ [c]).
Proof.
  intros Hn Hc Hd. split; [apply Forall_app; split; [repeat constructor|constructor; auto]|].
  split; [|apply max_new_ge; unfold count_new; rewrite filter_app, app_length; cbn [filter]; rewrite Hc; cbn; lia].
  unfold adem. cbn [app divisions_ok]. cbn. decide_signs. cbn. repeat split; destruct c; tauto.
Qed.
Lemma adem_deps : (forall i, l_dep (s_var (spec_run s_init adem) 2%nat) i <-> i = 1%Z \/ i = 2%Z) /\
  (forall i, l_dep (s_var (spec_run s_init adem) 4%nat) i <-> i = 3%Z).
Proof. unfold adem. cbn. decide_signs. cbn. split; intro i; tauto. Qed.
Lemma adem_free : heap_free adem 0%nat = true /\ heap_free adem 2%nat = false /\ heap_free adem 3%nat = true /\ heap_free adem 4%nat = true.
Proof. unfold heap_free, adem. cbn. decide_signs. cbn. auto. Qed.
Lemma spec_snoc cs c : spec_run s_init (cs ++ [c]) = spec_exec (spec_run s_init cs) c.
Proof. unfold spec_run. apply fold_left_app. Qed.
Lemma free_snoc cs c : heap_free (cs ++ [c]) = heap_free_after (heap_free cs) c.
Proof. unfold heap_free. rewrite fold_left_app. reflexivity. Qed.

Lemma mem_case : good_map_lib (reusing_lib RN) /\ legal (adem ++ [CAddA 2%nat 4%nat]) /\
  heap_free adem 0%nat = true /\ heap_free adem 2%nat = false /\ held adem 2%nat 2 /\ held adem 4%nat 0 /\
  held (adem ++ [CAddA 2%nat 4%nat]) 2%nat 3 /\
  (exists w, run w_init adem = Ret w /\ allocates (reusing_lib RN) w (CAddA 2%nat 4%nat) 1 /\
     allocates (reusing_lib RN) w (CMul 3%nat 2%nat 4%nat) 3 /\ allocates (reusing_lib RN) w (CCopy 3%nat 2%nat) 2) /\
  legal mdem /\ List.Forall (fun c => one_operand c = true) mdem.
Proof.
  destruct adem_free as (F0 & F2 & F3 & F4). destruct adem_deps as (D2 & D4).
  assert (H2 : held adem 2%nat 2).
  { unfold held. rewrite F2. exists [1%Z; 2%Z]. split; [repeat constructor; cbn; lia|]. split; [reflexivity|].
    intro i. rewrite D2. cbn. intuition. }
  assert (H4 : held adem 4%nat 0) by (unfold held; rewrite F4; reflexivity).
  assert (U : forall c v, heap_free (adem ++ [c]) v = false ->
    (forall i, l_dep (s_var (spec_run s_init (adem ++ [c])) v) i <-> l_dep (s_var (spec_run s_init adem) 2%nat) i \/ l_dep (s_var (spec_run s_init adem) 4%nat) i) ->
    held (adem ++ [c]) v 3).
  { intros c v F H. unfold held. rewrite F. exists [1%Z; 2%Z; 3%Z]. split; [repeat constructor; cbn; lia|]. split; [reflexivity|].
    intro i. rewrite H, D2, D4. cbn. intuition. }
  assert (H3 : held (adem ++ [CAddA 2%nat 4%nat]) 2%nat 3).
  { apply U; [rewrite free_snoc; reflexivity|]. intro i. rewrite spec_snoc. reflexivity. }
  assert (H5 : held (adem ++ [CMul 3%nat 2%nat 4%nat]) 3%nat 3).
  { apply U; [rewrite free_snoc; reflexivity|]. intro i. rewrite spec_snoc. reflexivity. }
  split; [apply reusing_lib_good|]. split; [apply snoc_legal; cbn; auto|].
  do 5 (split; [assumption|]). split; [|split; [exact mdem_legal|repeat constructor]].
  destruct adem_run as (w & E & _). exists w. split; [exact E|]. split; [|split].
  - assert (Lg : legal (adem ++ [CAddA 2%nat 4%nat])) by (apply snoc_legal; cbn; auto).
    destruct (C85_allocations_proof (reusing_lib RN) adem _ w Lg E) as (_ & _ & A).
    exact (proj2 (A eq_refl eq_refl 2%nat 3%nat H2 H3)).
  - assert (Lg : legal (adem ++ [CMul 3%nat 2%nat 4%nat])) by (apply snoc_legal; cbn; auto).
    destruct (C85_allocations_proof (reusing_lib RN) adem _ w Lg E) as (_ & A & _).
    exact (A eq_refl eq_refl 3%nat H5).
  - destruct (C85_memory_held_proof (reusing_lib RN) adem w 2%nat (reusing_lib_good _) adem_legal E) as (n & Hn & _ & A & _).
    rewrite (held_inj _ _ _ _ Hn H2) in A. apply A; [lia|exact F3].
Qed.
