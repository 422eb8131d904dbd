(** * ThreadCalls2Proofs3: the schedules and the order of the calls *)

From Coq Require Import List ZArith Bool Lia Relation_Operators Permutation.
From Verif Require Import Base Num Map UReal World HessGrad Moments CheckMoments UReal2 World2 SpecOrder ThreadCalls ThreadCalls2 ThreadCalls2Proofs ThreadCalls2Proofs2
  U2World SpecU2Run SpecThreads SpecThreads2.
Import ListNotations.

Section Gen.
  Context {N : Num}.
  Variable eig : list (list N) -> option (list N).

  (** ** Equal states *)
  Definition eqm (m m' : mem N) : Prop := forall k, same_cell k m m'.
  Lemma same_state_eqm (w w' : world2 N) : same_state w w' <-> w2_last w = w2_last w' /\ eqm (mem_of w) (mem_of w').
  Proof.
    split.
    - intros (A & B & C). split; [exact A|]. intros [v f|v f]; cbn; [rewrite B|rewrite C]; now destruct f.
    - intros (A & B). split; [exact A|]. split; intro v.
      + exact (same_cells1 (mem_of w) (mem_of w') v (fun f => B (C1 v f))).
      + exact (same_cells2 (mem_of w) (mem_of w') v (fun f => B (C2 v f))).
  Qed.
  Lemma eqm_sym m m' : eqm m m' -> eqm m' m.
  Proof. intros H k. apply same_cell_sym, H. Qed.
  Lemma eqm_trans m m' m'' : eqm m m' -> eqm m' m'' -> eqm m m''.
  Proof. intros H K k. eapply same_cell_trans; [apply H|apply K]. Qed.
  Lemma same_state_refl (w : world2 N) : same_state w w.
  Proof. repeat split; reflexivity. Qed.
  Lemma same_state_sym (w w' : world2 N) : same_state w w' -> same_state w' w.
  Proof. intros (A & B & C). repeat split; [|intro v..]; symmetry; auto. Qed.
  Lemma same_state_trans (w w' w'' : world2 N) : same_state w w' -> same_state w' w'' -> same_state w w''.
  Proof. intros (A & B & C) (A' & B' & C'). split; [congruence|]. split; intro v; [rewrite B|rewrite C]; auto. Qed.

  (** The value given to the assigned variable depends on what is read. *)
  Lemma exec2_mem l (m g : mem N) c k : (forall k, In (var_of k) (readsv c) \/ var_of k = targetv c -> same_cell k m g) ->
    var_of k = targetv c -> same_cell k (mem_of (fst (exec2 eig (with_counter l m) c))) (mem_of (fst (exec2 eig (with_counter l g) c))).
  Proof.
    intros H T. assert (H' : forall k, In (var_of k) (readsv c) -> same_cell k m g) by (intros k' Hk'; apply H; now left).
    destruct (in_dec cell_dec k (cells_written c m (snd (exec2 eig (with_counter l m) c)))) as [I|NI].
    - now apply exec2_written.
    - eapply same_cell_trans; [|exact (exec2_unwritten eig l m g c k H' T NI)].
      eapply same_cell_trans; [|apply H; now right].
      apply same_cell_sym. apply (exec2_unwritten eig l m m c k); [intros; apply same_cell_refl|exact T|exact NI].
  Qed.
  Lemma exec2_same (w w' : world2 N) c : same_state w w' ->
    same_state (fst (exec2 eig w c)) (fst (exec2 eig w' c)) /\ snd (exec2 eig w c) = snd (exec2 eig w' c).
  Proof.
    intro H. apply same_state_eqm in H as (L & E). split.
    - apply same_state_eqm. split; [rewrite !exec2_counter; now rewrite L|]. intro k.
      destruct (var_dec (var_of k) (targetv c)) as [T|T].
      + rewrite <- (with_counter_mem w), <- (with_counter_mem w'), L. apply exec2_mem; [intros; apply E|exact T].
      + eapply same_cell_trans; [now apply exec2_keeps|]. eapply same_cell_trans; [apply E|]. apply same_cell_sym. now apply exec2_keeps.
    - rewrite <- (with_counter_mem w), <- (with_counter_mem w'), L. apply exec2_outcome. intros; apply E.
  Qed.
  Lemma seq2_same cs : forall w w' : world2 N, same_state w w' -> same_state (seq2 eig w cs) (seq2 eig w' cs).
  Proof. induction cs as [|c cs IH]; intros w w' H; cbn; [exact H|]. apply IH, exec2_same, H. Qed.
  Lemma run2_same cs : forall w w' w1 : world2 N, same_state w w' -> run2 eig w cs = Ret w1 ->
    exists w1', run2 eig w' cs = Ret w1' /\ same_state w1 w1'.
  Proof.
    induction cs as [|c cs IH]; intros w w' w1 H E; cbn [run2] in *; [injection E as <-; now exists w'|].
    destruct (exec2_same w w' c H) as (A & B). destruct (exec2 eig w c) as [x o], (exec2 eig w' c) as [x' o']. cbn [fst snd] in *. subst o'.
    destruct o; try discriminate; exact (IH x x' w1 A E).
  Qed.

  (** ** A call done without interruptions *)
  Lemma steps_trans c c1 c2 : csteps2 eig c c1 -> csteps2 eig c1 c2 -> csteps2 (N := N) eig c c2.
  Proof.
    intros H K. induction H as [|x y z S _ IH]; [exact K|]. eapply rt1n_trans; [exact S|apply IH; exact K].
  Qed.

  Section OneCall.
    Variables (l : Z) (ts1 ts2 : list (thr2 N)) (cs : list (call2 N)) (c : call2 N).
    Definition at_thread (t : thr2 N) : list (thr2 N) := ts1 ++ t :: ts2.
    Lemma nth_at t : nth_error (at_thread t) (length ts1) = Some t.
    Proof. unfold at_thread. rewrite nth_error_app2, Nat.sub_diag by lia. reflexivity. Qed.
    Lemma set_at t t' : set_nth2 (length ts1) t' (at_thread t) = at_thread t'.
    Proof. unfold at_thread. induction ts1 as [|a s IH]; cbn; [reflexivity|]. now rewrite IH. Qed.
    Lemma step_at l1 m1 t l2 m2 t' : tstep2 eig l1 m1 t l2 m2 t' ->
      cstep2 eig (mkConf2 l1 m1 (at_thread t)) (mkConf2 l2 m2 (at_thread t')).
    Proof. intro S. rewrite <- (set_at t t'). eapply cs2_intro; [apply nth_at|exact S]. Qed.

    Lemma reads_at l1 (m : mem N) rd : forall buf, exists buf',
      csteps2 eig (mkConf2 l1 m (at_thread (mkThr2 cs (Reading2 c l rd buf)))) (mkConf2 l1 m (at_thread (mkThr2 cs (Reading2 c l [] buf')))) /\
      (forall k, In k rd \/ same_cell k buf m -> same_cell k buf' m).
    Proof.
      induction rd as [|k rd IH]; intro buf; [exists buf; split; [apply rt1n_refl|intros k [[]|H]; exact H]|].
      destruct (IH (copy_cell k m buf)) as (b & S & B). exists b. split.
      - eapply rt1n_trans; [apply step_at, (ts2_read eig l1 m cs c l [] k rd buf)|exact S].
      - intros k' H. apply B. destruct (cell_dec k k') as [<-|Nk]; [right; apply copy_same|].
        destruct H as [[H|H]|H]; [contradiction|now left|right]. eapply same_cell_trans; [apply copy_other; exact Nk|exact H].
    Qed.
    Lemma writes_at l1 (x : mem N) wr : forall m, exists m',
      csteps2 eig (mkConf2 l1 m (at_thread (mkThr2 cs (Writing2 c x wr)))) (mkConf2 l1 m' (at_thread (mkThr2 cs Idle2))) /\
      (forall k, In k wr \/ same_cell k m x -> same_cell k m' x) /\ (forall k, ~ In k wr -> same_cell k m' m).
    Proof.
      induction wr as [|k wr IH]; intro m.
      - exists m. split; [|split; [intros k [[]|H]; exact H|intros; apply same_cell_refl]].
        eapply rt1n_trans; [apply step_at, ts2_end|apply rt1n_refl].
      - destruct (IH (copy_cell k x m)) as (m' & S & B & C). exists m'. split; [|split].
        + eapply rt1n_trans; [apply step_at, (ts2_write eig l1 m cs c x [] k wr)|exact S].
        + intros k' H. apply B. destruct (cell_dec k k') as [<-|Nk]; [right; apply copy_same|].
          destruct H as [[H|H]|H]; [contradiction|now left|right]. eapply same_cell_trans; [apply copy_other; exact Nk|exact H].
        + intros k' Hk. eapply same_cell_trans; [apply C; intro Y; apply Hk; now right|]. apply copy_other. intros <-. apply Hk. now left.
    Qed.
  End OneCall.

  Lemma call_at l (m : mem N) ts1 ts2 c cs : exists m',
    csteps2 eig (mkConf2 l m (at_thread ts1 ts2 (mkThr2 (c :: cs) Idle2))) (mkConf2 (counter_after eig l c) m' (at_thread ts1 ts2 (mkThr2 cs Idle2))) /\
    eqm m' (mem_of (fst (exec2 eig (with_counter l m) c))).
  Proof.
    destruct (reads_at l ts1 ts2 cs c (counter_after eig l c) m (cells_read c) mem_empty) as (buf & S1 & B).
    assert (R : forall k, In (var_of k) (readsv c) -> same_cell k buf m) by (intros k Hk; apply B; left; now apply in_cells_read).
    set (x := mem_of (fst (exec2 eig (with_counter l buf) c))). set (wr := cells_written c buf (snd (exec2 eig (with_counter l buf) c))).
    destruct (writes_at ts1 ts2 cs c (counter_after eig l c) x wr m) as (m' & S2 & D & E).
    exists m'. split.
    - eapply rt1n_trans; [apply step_at, ts2_begin|]. eapply steps_trans; [exact S1|].
      eapply rt1n_trans; [apply step_at, ts2_compute|]. exact S2.
    - intro k. destruct (in_dec cell_dec k wr) as [I|NI].
      + eapply same_cell_trans; [apply D; now left|]. now apply exec2_written.
      + eapply same_cell_trans; [now apply E|]. destruct (var_dec (var_of k) (targetv c)) as [T|T].
        * now apply (exec2_unwritten eig l buf m c k R T).
        * apply same_cell_sym. exact (exec2_keeps eig (with_counter l m) c k T).
  Qed.

  (** ** Every interleaving happens *)
  Lemma every_interleaving ts h : interleaving ts h -> forall l (m : mem N), exists c,
    csteps2 eig (mkConf2 l m (map (fun cs => mkThr2 cs Idle2) ts)) c /\ finished2 c /\
    same_state (with_counter (cf2_last c) (cf2_mem c)) (seq2 eig (with_counter l m) h).
  Proof.
    intro I. induction I as [ts H|ts1 a t ts2 h I IH]; intros l m.
    - eexists. split; [apply rt1n_refl|]. split; [|apply same_state_refl].
      unfold finished2. cbn [cf2_thr]. apply Forall_forall. intros x Hx. apply in_map_iff in Hx as (s & <- & Hs). now rewrite (H s Hs).
    - destruct (call_at l m (map (fun cs => mkThr2 cs Idle2) ts1) (map (fun cs => mkThr2 cs Idle2) ts2) a t) as (m' & S & E).
      destruct (IH (counter_after eig l a) m') as (c & Sc & F & G). exists c. split; [|split; [exact F|]].
      + rewrite map_app in *. cbn [map] in *. eapply steps_trans; [exact S|exact Sc].
      + eapply same_state_trans; [exact G|]. unfold seq2. cbn [fold_left]. apply seq2_same. apply same_state_eqm.
        split; [|exact E]. cbn. now rewrite exec2_counter.
  Qed.

  (** ** Calls that can be exchanged *)
  Lemma exec2_any_counter l l' (m : mem N) c k : is_new2 c = false ->
    same_cell k (mem_of (fst (exec2 eig (with_counter l m) c))) (mem_of (fst (exec2 eig (with_counter l' m) c))).
  Proof.
    intro H.
    assert (A : forall v o, same_cell k (mem_of (fst (assign2 (with_counter l m) v o))) (mem_of (fst (assign2 (with_counter l' m) v o)))).
    { intros v o. destruct o; destruct k as [? []|? []]; reflexivity. }
    assert (B : forall v o, same_cell k (mkMem (w_var (fst (assign_result (mkW l (mem1 m)) v o))) (mem2 m))
                                        (mkMem (w_var (fst (assign_result (mkW l' (mem1 m)) v o))) (mem2 m))).
    { intros v o. destruct o; destruct k as [? []|? []]; reflexivity. }
    destruct c as [c| | | | | | | | | | | |]; cbn [is_new2] in H; try discriminate H; cbn [exec2 with_counter w2_var]; try apply A.
    destruct c; cbn [is_new] in H; try discriminate H; cbn [exec with_counter w2_w w_var w_last];
      try (destruct k as [? []|? []]; reflexivity);
      match goal with |- context [assign_result ?w ?v ?o] => specialize (B v o) end;
      match goal with |- context [assign_result (mkW l ?g) ?v ?o] =>
        destruct (assign_result (mkW l g) v o), (assign_result (mkW l' g) v o); exact B end.
  Qed.
  Lemma counter_not_new l (c : call2 N) : is_new2 c = false -> counter_after eig l c = l.
  Proof. destruct c; cbn; try discriminate; auto. now intros ->. Qed.

  Lemma exec2_swaps (w : world2 N) a b : unrelatedv a b -> is_new2 a = false \/ is_new2 b = false ->
    same_state (fst (exec2 eig (fst (exec2 eig w a)) b)) (fst (exec2 eig (fst (exec2 eig w b)) a)).
  Proof.
    intros U HN.
    assert (HALF : forall a b, unrelatedv a b -> is_new2 a = false \/ is_new2 b = false -> forall k, var_of k = targetv a ->
      same_cell k (mem_of (fst (exec2 eig (fst (exec2 eig w a)) b))) (mem_of (fst (exec2 eig (fst (exec2 eig w b)) a)))).
    { clear a b U HN. intros a b (U1 & U2 & U3) HN k T.
      eapply same_cell_trans; [apply exec2_keeps; congruence|].
      set (wb := fst (exec2 eig w b)).
      apply (same_cell_trans k _ (mem_of (fst (exec2 eig (with_counter (w2_last w) (mem_of wb)) a)))).
      - rewrite <- (with_counter_mem w) at 1. apply exec2_mem; [|exact T]. intros k' Hk'. apply same_cell_sym. unfold wb.
        apply exec2_keeps. intro E. rewrite E in Hk'. destruct Hk' as [Y|Y]; [contradiction|congruence].
      - rewrite <- (with_counter_mem wb) at 2. destruct HN as [HN|HN]; [now apply exec2_any_counter|].
        unfold wb at 2. rewrite exec2_counter, counter_not_new by exact HN. apply same_cell_refl. }
    apply same_state_eqm. split.
    - rewrite !exec2_counter. destruct HN as [HN|HN].
      + now rewrite !(counter_not_new _ a HN).
      + now rewrite !(counter_not_new _ b HN).
    - intro k. destruct (var_dec (var_of k) (targetv a)) as [Ta|Ta]; [now apply HALF|].
      destruct (var_dec (var_of k) (targetv b)) as [Tb|Tb].
      + apply same_cell_sym. apply HALF; [now apply unrelatedv_sym|tauto|exact Tb].
      + eapply same_cell_trans; [now apply exec2_keeps|]. eapply same_cell_trans; [now apply exec2_keeps|].
        apply same_cell_sym. eapply same_cell_trans; [now apply exec2_keeps|]. now apply exec2_keeps.
  Qed.
  Lemma seq2_front p a : (forall b, In b p -> unrelatedv b a /\ (is_new2 b = false \/ is_new2 a = false)) -> forall (w : world2 N) q,
    same_state (seq2 eig w (p ++ a :: q)) (seq2 eig w (a :: p ++ q)).
  Proof.
    induction p as [|b p IH]; intros H w q; [apply same_state_refl|]. cbn [app]. unfold seq2. cbn [fold_left].
    eapply same_state_trans; [apply (IH (fun x Hx => H x (or_intror Hx)))|]. unfold seq2. cbn [fold_left].
    apply seq2_same. apply exec2_swaps; apply (H b (or_introl eq_refl)).
  Qed.

  Lemma split_pairs (ts1 : list (list (call2 N))) : forall t ts2, separate2 (ts1 ++ t :: ts2) -> one_creates (ts1 ++ t :: ts2) ->
    forall b a, In b (concat ts1) -> In a t -> unrelatedv b a /\ (is_new2 b = false \/ is_new2 a = false).
  Proof.
    induction ts1 as [|s ts1 IH]; intros t ts2 S O b a Hb Ha; [destruct Hb|].
    destruct S as [S1 S2], O as [O1 O2]. cbn in Hb. apply in_app_iff in Hb as [Hb|Hb]; [|exact (IH t ts2 S2 O2 b a Hb Ha)].
    assert (Y : In t (ts1 ++ t :: ts2)) by (apply in_app_iff; right; now left).
    split; [apply unrelated2_v; now apply (S1 t)|now apply (O1 t)].
  Qed.
  Lemma separate_shrink (ts1 : list (list (call2 N))) a t ts2 : separate2 (ts1 ++ (a :: t) :: ts2) -> separate2 (ts1 ++ t :: ts2).
  Proof.
    induction ts1 as [|s ts1 IH]; cbn [app separate2].
    - intros [A B]. split; [|exact B]. intros t' x y Ht Hx. apply (A t' x y Ht). now right.
    - intros [A B]. split; [|now apply IH]. intros t' x y Ht Hx Hy. apply in_app_iff in Ht as [Ht|[<-|Ht]].
      + apply (A t' x y); auto. apply in_app_iff. now left.
      + apply (A (a :: t) x y); auto; [apply in_app_iff; right; now left|now right].
      + apply (A t' x y); auto. apply in_app_iff. right. now right.
  Qed.
  Lemma creates_shrink (ts1 : list (list (call2 N))) a t ts2 : one_creates (ts1 ++ (a :: t) :: ts2) -> one_creates (ts1 ++ t :: ts2).
  Proof.
    induction ts1 as [|s ts1 IH]; cbn [app one_creates].
    - intros [A B]. split; [|exact B]. intros t' x y Ht Hx. apply (A t' x y Ht). now right.
    - intros [A B]. split; [|now apply IH]. intros t' x y Ht Hx Hy. apply in_app_iff in Ht as [Ht|[<-|Ht]].
      + apply (A t' x y); auto. apply in_app_iff. now left.
      + apply (A (a :: t) x y); auto; [apply in_app_iff; right; now left|now right].
      + apply (A t' x y); auto. apply in_app_iff. right. now right.
  Qed.

  Lemma interleaving_concat ts h : interleaving ts h -> separate2 ts -> one_creates ts -> forall w : world2 N,
    same_state (seq2 eig w h) (seq2 eig w (concat ts)).
  Proof.
    intro I. induction I as [ts H|ts1 a t ts2 h I IH]; intros S O w.
    - replace (concat ts) with (@nil (call2 N)); [apply same_state_refl|]. symmetry. induction ts as [|t ts IHt]; [reflexivity|].
      cbn. rewrite (H t (or_introl eq_refl)). apply IHt; [intros x Hx; apply H; now right|apply S|apply O].
    - unfold seq2 at 1. cbn [fold_left].
      eapply same_state_trans; [apply (IH (separate_shrink _ _ _ _ S) (creates_shrink _ _ _ _ O))|].
      rewrite !concat_app. cbn [concat app]. apply same_state_sym.
      apply (seq2_front (concat ts1) a (fun b Hb => split_pairs ts1 (a :: t) ts2 S O b a Hb (or_introl eq_refl)) w (t ++ concat ts2)).
  Qed.

  Lemma interleaving_perm {A : Type} (ts : list (list A)) h : interleaving ts h -> Permutation h (concat ts).
  Proof.
    intro I. induction I as [ts H|ts1 a t ts2 h I IH].
    - replace (concat ts) with (@nil A); [constructor|]. symmetry. induction ts as [|t ts IHt]; [reflexivity|].
      cbn. rewrite (H t (or_introl eq_refl)). apply IHt. intros x Hx. apply H. now right.
    - rewrite concat_app in *. cbn [concat app] in *. apply Permutation_cons_app. exact IH.
  Qed.
  Lemma legal2_perm (cs cs' : list (call2 N)) : Permutation cs cs' -> legal2 cs' -> legal2 cs.
  Proof.
    intros P (A & B & C). split; [|split].
    - rewrite Forall_forall in *. intros x Hx. apply A. eapply Permutation_in; eassumption.
    - rewrite Forall_forall in *. intros x Hx. apply B. eapply Permutation_in; eassumption.
    - replace (count_new2 cs) with (count_new2 cs'); [exact C|]. clear -P. unfold count_new2. induction P; cbn; try congruence.
      + destruct (is_new2 x); cbn; congruence.
      + destruct (is_new2 x), (is_new2 y); reflexivity.
  Qed.

  (** ** Every schedule ends *)
  Definition cost2 (c : call2 N) : nat := length (cells_read c) + 7.
  Definition now_cost2 (a : activity2 N) : nat :=
    match a with Idle2 => 0 | Reading2 _ _ rd _ => length rd + 6 | Writing2 _ _ wr => length wr + 1 end.
  Definition thr_cost2 (t : thr2 N) : nat := list_sum (map cost2 (t2_todo t)) + now_cost2 (t2_now t).
  Definition conf_cost2 (c : conf2 N) : nat := list_sum (map thr_cost2 (cf2_thr c)).

  Lemma cells_written_length (c : call2 N) buf o : length (cells_written c buf o) <= 4.
  Proof.
    destruct c as [c| | | | | | | | | | | |]; cbn [cells_written]; try (destruct o; cbn; lia).
    rewrite map_length. unfold write_fields, all_fields. destruct o; cbn; try lia.
    destruct c; cbn; try lia; destruct (0 <=? uid (mem1 buf v))%Z; cbn; try lia; destruct (nltb (usdev (mem1 buf v)) n0); cbn; lia.
  Qed.
  Lemma tstep2_cost l m t l' m' t' : tstep2 eig l m t l' m' t' -> thr_cost2 t' < thr_cost2 t.
  Proof.
    intro S. destruct S; unfold thr_cost2; cbn [t2_todo t2_now now_cost2 map list_sum fold_right].
    - unfold cost2. cbn [list_sum fold_right]. lia.
    - rewrite !app_length. cbn [length]. lia.
    - pose proof (cells_written_length c buf (snd (exec2 eig (with_counter l0 buf) c))). cbn [length]. lia.
    - rewrite !app_length. cbn [length]. lia.
    - cbn [length]. lia.
  Qed.
  Lemma cstep2_cost c c' : cstep2 eig c c' -> conf_cost2 c' < conf_cost2 c.
  Proof.
    intros [l m ts i t l' m' t' Hi S]. unfold conf_cost2. cbn [cf2_thr]. apply tstep2_cost in S.
    destruct (nth2_split i t ts Hi) as (p & q & -> & E). rewrite E, !map_app, !list_sum_app. cbn [map list_sum fold_right]. lia.
  Qed.
  Lemma steps2_cost k : forall c c' : conf2 N, steps_n (cstep2 eig) k c c' -> k <= conf_cost2 c.
  Proof.
    induction k as [|k IH]; intros c c' H; [lia|]. inversion H as [|k' a b d S R]; subst.
    apply cstep2_cost in S. apply IH in R. lia.
  Qed.
  Lemma thr2_progress l m (t : thr2 N) : t = mkThr2 [] Idle2 \/ exists l' m' t', tstep2 eig l m t l' m' t'.
  Proof.
    destruct t as [todo [|c l0 [|k rd] buf|c x [|k wr]]].
    - destruct todo as [|c cs]; [now left|right]. do 3 eexists. apply ts2_begin.
    - right. do 3 eexists. apply ts2_compute.
    - right. do 3 eexists. apply (ts2_read eig l m todo c l0 [] k rd buf).
    - right. do 3 eexists. apply ts2_end.
    - right. do 3 eexists. apply (ts2_write eig l m todo c x [] k wr).
  Qed.
  Lemma conf2_progress (c : conf2 N) : finished2 c \/ exists c', cstep2 eig c c'.
  Proof.
    destruct c as [l m ts]. unfold finished2. cbn [cf2_thr].
    assert (H : List.Forall (fun t => t = mkThr2 [] Idle2) ts \/
      exists i t l' m' t', nth_error ts i = Some t /\ tstep2 eig l m t l' m' t').
    { induction ts as [|t ts IH]; [left; constructor|].
      destruct (thr2_progress l m t) as [E|(l' & m' & t' & S)].
      - destruct IH as [F|(i & s & l' & m' & s' & Hi & S)]; [left; constructor; assumption|].
        right. exists (Datatypes.S i), s, l', m', s'. split; assumption.
      - right. exists 0%nat, t, l', m', t'. split; [reflexivity|exact S]. }
    destruct H as [F|(i & t & l' & m' & t' & Hi & S)]; [now left|right].
    eexists. eapply cs2_intro; eassumption.
  Qed.
End Gen.

Lemma C79_no_data_race_proof : forall (N : Num) (eig : list (list N) -> option (list N)) w ts c,
  separate2 ts -> csteps2 eig (start2 w ts) c -> ~ race2 c.
Proof. intros N eig w ts c S H. eapply good2_no_race, steps2_good; [apply good2_start; exact S|exact H]. Qed.

Lemma C79_one_after_the_other_proof : forall (N : Num), nltb (n0 : N) n0 = false ->
  forall (eig : list (list N) -> option (list N)) pre ts w c,
  legal2 (pre ++ concat ts) -> run2 eig w2_init pre = Ret w -> separate2 ts -> csteps2 eig (start2 w ts) c -> finished2 c ->
  exists h w', interleaving ts h /\ run2 eig w h = Ret w' /\ same_state (with_counter (cf2_last c) (cf2_mem c)) w'.
Proof.
  intros N H0 eig pre ts w c L E S H F. destruct (finished2_lin eig w ts c S H F) as (h & I & G).
  assert (L' : legal2 (pre ++ h)).
  { eapply legal2_perm; [|exact L]. apply Permutation_app_head. now apply interleaving_perm. }
  destruct L' as (L1 & L2 & L3). destruct (gen_run2_init H0 eig (pre ++ h) L1 L2 L3) as (env & w' & E' & _).
  rewrite (U2Proofs.run2_app eig pre h w2_init w E) in E'. exists h, w'. split; [exact I|]. split; [exact E'|].
  rewrite <- (seq2_run eig h w w' E'). exact G.
Qed.

Lemma C79_every_order_happens_proof : forall (N : Num) (eig : list (list N) -> option (list N)) w ts h w',
  interleaving ts h -> run2 eig w h = Ret w' ->
  exists c, csteps2 eig (start2 w ts) c /\ finished2 c /\ same_state (with_counter (cf2_last c) (cf2_mem c)) w'.
Proof.
  intros N eig w ts h w' I E. destruct (every_interleaving eig ts h I (w2_last w) (mem_of w)) as (c & S & F & G).
  exists c. split; [exact S|]. split; [exact F|]. rewrite <- (seq2_run eig h w w' E). rewrite with_counter_mem in G. exact G.
Qed.

Lemma C79_any_schedule_proof : forall (N : Num) (eig : list (list N) -> option (list N)) w ts c c',
  separate2 ts -> one_creates ts -> csteps2 eig (start2 w ts) c -> finished2 c -> csteps2 eig (start2 w ts) c' -> finished2 c' ->
  same_state (with_counter (cf2_last c) (cf2_mem c)) (with_counter (cf2_last c') (cf2_mem c')).
Proof.
  intros N eig w ts c c' S O H F H' F'.
  destruct (finished2_lin eig w ts c S H F) as (h & I & G). destruct (finished2_lin eig w ts c' S H' F') as (h' & I' & G').
  eapply same_state_trans; [exact G|]. eapply same_state_trans; [apply (interleaving_concat eig ts h I S O)|].
  apply same_state_sym. eapply same_state_trans; [exact G'|]. apply (interleaving_concat eig ts h' I' S O).
Qed.

Lemma C79_every_schedule_ends_proof : forall (N : Num) (eig : list (list N) -> option (list N)) w ts, exists n, forall k c,
  steps_n (cstep2 eig) k (start2 w ts) c -> (k <= n)%nat /\ (finished2 c \/ exists c', cstep2 eig c c').
Proof.
  intros N eig w ts. exists (conf_cost2 (start2 w ts)). intros k c H. split; [eapply steps2_cost; exact H|apply conf2_progress].
Qed.
