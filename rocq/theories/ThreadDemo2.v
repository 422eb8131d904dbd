(** * ThreadDemo2: threads that use variables of both types, examples *)

From Coq Require Import List ZArith Bool Reals Lra Lia Relation_Operators.
From Verif Require Import Base Num Map UReal World HessGrad Moments CheckMoments UReal2 World2 SpecLin SpecObs SpecOrder SpecU2Run URealR U2Proofs Demo Demo2 OrderDemo
  ThreadCalls ThreadCalls2 ThreadCalls2Proofs ThreadCalls2Proofs2 ThreadCalls2Proofs3 SpecThreads SpecThreads2.
Import ListNotations.
Local Open Scope R_scope.

(** x = UReal2; one thread creates b, the other c; then x b + c is computed. *)
Definition td_pre : list (call2 RN) := [ENewStd 0%nat 0 1 gauss (-1)].
Definition td_threads : list (list (call2 RN)) := [[ENewStd 1%nat 0 1 gauss (-1)]; [ENewStd 2%nat 0 1 gauss (-1)]].
Definition td_post : list (call2 RN) :=
  [EMul 3%nat 0%nat 1%nat; EAdd 4%nat 3%nat 2%nat; EUnary 5%nat 4%nat (fun x => x + x * x) (fun x => 1 + 2 * x) (fun _ => 2)].

Lemma td_separate : separate2 td_threads.
Proof.
  split; [|split; [intros t' a b []|exact I]]. intros t' a b [<-|[]] [<-|[]] [<-|[]]. cbn. lia.
Qed.
Lemma run2_split eig (cs1 cs2 : list (call2 RN)) : forall w w2, run2 eig w (cs1 ++ cs2) = Ret w2 ->
  exists w1, run2 eig w cs1 = Ret w1 /\ run2 eig w1 cs2 = Ret w2.
Proof.
  induction cs1 as [|c cs1 IH]; intros w w2 E; cbn [app run2] in *; [now exists w|].
  destruct (exec2 eig w c) as [w' [| | |]]; try discriminate; apply IH; exact E.
Qed.
Lemma same_var (w w' : world2 RN) v : same_state w w' -> w2_var w v = w2_var w' v.
Proof. intros (_ & _ & H). apply H. Qed.

(** An execution of the threads followed by the rest of the program. *)
Lemma td_exec h w2 : interleaving td_threads h -> run2 no_eig w2_init (td_pre ++ h ++ td_post) = Ret w2 ->
  exists w c w1, run2 no_eig w2_init td_pre = Ret w /\ csteps2 no_eig (start2 w td_threads) c /\ finished2 c /\
    run2 no_eig (with_counter (cf2_last c) (cf2_mem c)) td_post = Ret w1 /\ forall v, w2_var w1 v = w2_var w2 v.
Proof.
  intros I E. destruct (run2_split _ _ _ _ _ E) as (w & E1 & E'). destruct (run2_split _ _ _ _ _ E') as (w3 & E2 & E3).
  destruct (C79_every_order_happens_proof RN no_eig w td_threads h w3 I E2) as (c & S & F & G).
  destruct (run2_same no_eig td_post w3 _ w2 (same_state_sym _ _ G) E3) as (w1 & E4 & G').
  exists w, c, w1. split; [exact E1|]. split; [exact S|]. split; [exact F|]. split; [exact E4|]. intro v. symmetry. now apply same_var.
Qed.

Lemma C79_several_creators_refuted_proof : exists eig (pre post : list (call2 RN)) ts w c c' w1 w1' v,
  legal2 (pre ++ concat ts ++ post) /\ run2 eig w2_init pre = Ret w /\ separate2 ts /\
  csteps2 eig (start2 w ts) c /\ finished2 c /\ csteps2 eig (start2 w ts) c' /\ finished2 c' /\
  run2 eig (with_counter (cf2_last c) (cf2_mem c)) post = Ret w1 /\
  run2 eig (with_counter (cf2_last c') (cf2_mem c')) post = Ret w1' /\
  u2_var (w2_var w1 v) = Ret 4 /\ u2_var (w2_var w1' v) = Ret 3.
Proof.
  destruct ord2_run as (wa & Ea & _ & _ & A5). destruct ord2_run' as (wb & Eb & _ & _ & B5).
  assert (Ia : interleaving td_threads [ENewStd 1%nat 0 1 gauss (-1); ENewStd 2%nat 0 1 gauss (-1)]).
  { apply (il_next [] (ENewStd 1%nat 0 1 gauss (-1)) [] [[ENewStd 2%nat 0 1 gauss (-1)]]).
    apply (il_next [[]] (ENewStd 2%nat 0 1 gauss (-1)) [] []). apply il_done. intros t [<-|[<-|[]]]; reflexivity. }
  assert (Ib : interleaving td_threads [ENewStd 2%nat 0 1 gauss (-1); ENewStd 1%nat 0 1 gauss (-1)]).
  { apply (il_next [[ENewStd 1%nat 0 1 gauss (-1)]] (ENewStd 2%nat 0 1 gauss (-1)) [] []).
    apply (il_next [] (ENewStd 1%nat 0 1 gauss (-1)) [] [[]]). apply il_done. intros t [<-|[<-|[]]]; reflexivity. }
  destruct (td_exec _ wa Ia Ea) as (w & c & w1 & E1 & S1 & F1 & R1 & V1).
  destruct (td_exec _ wb Ib Eb) as (w' & c' & w1' & E2 & S2 & F2 & R2 & V2).
  rewrite E1 in E2. injection E2 as <-.
  exists no_eig, td_pre, td_post, td_threads, w, c, c', w1, w1', 5%nat.
  split; [exact (mk3_legal 0 1 2)|]. split; [exact E1|]. split; [exact td_separate|]. split; [exact S1|]. split; [exact F1|].
  split; [exact S2|]. split; [exact F2|]. split; [exact R1|]. split; [exact R2|]. rewrite V1, V2, A5, B5. split.
  - unfold u2_var, u2_m, update_mom. cbn -[Rplus Rmult Rdiv Ropp Rminus IZR]. f_equal. unfold gauss. cbn. lra.
  - unfold u2_var, u2_m, update_mom. cbn -[Rplus Rmult Rdiv Ropp Rminus IZR]. f_equal. unfold gauss. cbn. lra.
Qed.

(** Both threads read x, of type UReal2, and y, of type UReal; the first one creates
    variables of both types. *)
Definition td_start : list (call2 RN) := [ENewStd 0%nat 0 1 gauss (-1); E1 (CNew 0%nat 3 1)].
Definition td_use : list (list (call2 RN)) :=
  [[ENewStd 1%nat 0 1 gauss (-1); EMul 2%nat 0%nat 1%nat; E1 (CNew 1%nat 1 1); E1 (CMul 2%nat 0%nat 1%nat); E1 (CS 2%nat)];
   [ECopy 10%nat 0%nat; EDiv 10%nat 10%nat 0%nat; E1 (CCopy 10%nat 0%nat); E1 (CAddA 10%nat 0%nat)]].
Lemma td_use_separate : separate2 td_use.
Proof.
  split; [|split; [intros t' a b []|exact I]]. intros t' a b [<-|[]] Ha Hb. cbn in Ha, Hb.
  destruct Ha as [<-|[<-|[<-|[<-|[<-|[]]]]]]; destruct Hb as [<-|[<-|[<-|[<-|[]]]]]; cbn; try exact I; unfold unrelated; cbn; lia.
Qed.
Lemma td_use_creates : one_creates td_use.
Proof.
  split; [|split; [intros t' a b []|exact I]]. intros t' a b [<-|[]] Ha Hb. right. cbn in Hb.
  destruct Hb as [<-|[<-|[<-|[<-|[]]]]]; reflexivity.
Qed.
Lemma td_use_legal : legal2 (td_start ++ concat td_use).
Proof.
  split; [repeat constructor|]. split; [|apply max_new_ge; cbn; lia].
  repeat constructor; cbn; intro H; apply Rltb_false in H; exfalso; lra.
Qed.
Lemma td_use_case : exists w c, legal2 (td_start ++ concat td_use) /\ run2 no_eig w2_init td_start = Ret w /\ separate2 td_use /\
  one_creates td_use /\ csteps2 no_eig (start2 w td_use) c /\ finished2 c.
Proof.
  assert (L : legal2 (td_start ++ concat td_use)) by exact td_use_legal.
  destruct L as (L1 & L2 & L3). destruct (U2World.gen_run2_init Rltb_00 no_eig _ L1 L2 L3) as (_ & w2 & E & _).
  destruct (run2_split _ _ _ _ _ E) as (w & E1 & _). exists w.
  assert (H : forall k (c : conf2 RN), (conf_cost2 c <= k)%nat -> exists c', csteps2 no_eig c c' /\ finished2 c').
  { induction k as [|k IH]; intros c Hk; destruct (conf2_progress no_eig c) as [F|(c' & S)].
    - exists c. split; [apply rt1n_refl|exact F].
    - apply cstep2_cost in S. lia.
    - exists c. split; [apply rt1n_refl|exact F].
    - pose proof (cstep2_cost _ _ _ S). destruct (IH c') as (c2 & S2 & F2); [lia|].
      exists c2. split; [eapply rt1n_trans; eassumption|exact F2]. }
  destruct (H _ (start2 w td_use) (le_n _)) as (c & S & F). exists c.
  split; [exact td_use_legal|]. split; [exact E1|]. split; [exact td_use_separate|]. split; [exact td_use_creates|]. split; assumption.
Qed.

(** The condition is needed: a thread that assigns what another one copies races with it. *)
Lemma C79_shared_assignment_races_proof : forall (N : Num) (eig : list (list N) -> option (list N)) (w : world2 N) u v n,
  exists c, csteps2 eig (start2 w [[EConst v n]; [ECopy u v]]) c /\ race2 c.
Proof.
  intros N eig w u v n. set (s := mkThr2 [ECopy u v] Idle2 : thr2 N). set (s' := mkThr2 [] (Reading2 (ECopy u v) (w2_last w) (cells2 v ++ []) mem_empty) : thr2 N).
  set (x := mem_of (fst (exec2 eig (with_counter (w2_last w) mem_empty) (EConst v n)))).
  set (t' := mkThr2 [] (Writing2 (EConst v n) x (cells2 v))).
  exists (mkConf2 (w2_last w) (mem_of w) [t'; s']). split.
  - unfold start2. cbn [map]. fold s.
    eapply rt1n_trans; [eapply (cs2_intro eig _ _ [_; s] 0); [reflexivity|apply ts2_begin]|]. cbn [set_nth2].
    eapply rt1n_trans; [eapply (cs2_intro eig _ _ [_; s] 0); [reflexivity|apply ts2_compute]|]. cbn [set_nth2].
    eapply rt1n_trans; [eapply (cs2_intro eig _ _ [t'; s] 1); [reflexivity|apply ts2_begin]|]. apply rt1n_refl.
  - exists 0%nat, 1%nat, t', s', (C2 v Fdiag). split; [discriminate|]. split; [reflexivity|]. split; [reflexivity|].
    split; [now left|]. left. now left.
Qed.
