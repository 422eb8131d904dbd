(** * ThreadCalls2Proofs2: every execution of the threads is one of the sequential ones *)

From Coq Require Import List ZArith Bool Lia Relation_Operators.
From Verif Require Import Base Num Map UReal World HessGrad Moments CheckMoments UReal2 World2 SpecOrder ThreadCalls ThreadCalls2 ThreadCalls2Proofs SpecThreads SpecThreads2.
Import ListNotations.

Section Gen.
  Context {N : Num}.
  Variable eig : list (list N) -> option (list N).

  (** ** Lists of threads *)
  Lemma nth2_same i (t t' : thr2 N) ts : nth_error ts i = Some t -> nth_error (set_nth2 i t' ts) i = Some t'.
  Proof. revert i. induction ts as [|a ts IH]; intros [|i] H; cbn in *; try discriminate; auto. Qed.
  Lemma nth2_other i j (t' : thr2 N) ts : i <> j -> nth_error (set_nth2 i t' ts) j = nth_error ts j.
  Proof.
    revert i j. induction ts as [|a ts IH]; intros [|i] [|j] H; cbn; try reflexivity; try congruence. apply IH. congruence.
  Qed.
  Lemma nth2_split i : forall (t : thr2 N) ts, nth_error ts i = Some t ->
    exists l1 l2, ts = l1 ++ t :: l2 /\ forall t', set_nth2 i t' ts = l1 ++ t' :: l2.
  Proof.
    induction i as [|i IH]; intros t [|a ts] H; cbn in H; try discriminate.
    - injection H as ->. exists [], ts. split; reflexivity.
    - destruct (IH t ts H) as (l1 & l2 & E & F). exists (a :: l1), l2. split; [now rewrite E|]. intro t'. cbn. now rewrite F.
  Qed.

  (** the calls a thread is doing or will do *)
  Definition pending2 (t : thr2 N) : list (call2 N) :=
    match t2_now t with
    | Idle2 => t2_todo t
    | Reading2 c _ _ _ | Writing2 c _ _ => c :: t2_todo t
    end.
  Definition apart2 (ts : list (thr2 N)) : Prop :=
    forall i j t t', i <> j -> nth_error ts i = Some t -> nth_error ts j = Some t' ->
    forall a b, In a (pending2 t) -> In b (pending2 t') -> unrelatedv a b.

  Lemma unrelatedv_sym (a b : call2 N) : unrelatedv a b -> unrelatedv b a.
  Proof. intros (A & B & C). split; [congruence|]. split; assumption. Qed.

  Lemma separate2_apart ts : separate2 ts -> apart2 (map (fun cs => mkThr2 cs Idle2) ts).
  Proof.
    intros S. assert (K : forall i j t t', (i < j)%nat -> nth_error ts i = Some t -> nth_error ts j = Some t' ->
      forall a b, In a t -> In b t' -> unrelatedv a b).
    { clear -S. induction ts as [|t0 ts IH]; intros i j t t' Hij Hi Hj a b Ha Hb; [destruct i; discriminate|].
      destruct S as [S1 S2]. destruct j as [|j]; [lia|]. destruct i as [|i].
      - cbn in *. injection Hi as <-. apply unrelated2_v. apply (S1 t' a b); auto. eapply nth_error_In; eassumption.
      - cbn in *. apply (IH S2 i j t t'); auto. lia. }
    intros i j t t' Nij Hi Hj a b Ha Hb. rewrite nth_error_map in Hi, Hj.
    destruct (nth_error ts i) as [s|] eqn:Ei; [|discriminate]. destruct (nth_error ts j) as [s'|] eqn:Ej; [|discriminate].
    cbn in Hi, Hj. injection Hi as <-. injection Hj as <-. cbn in Ha, Hb.
    destruct (Nat.lt_total i j) as [L|[L|L]]; [|contradiction|].
    - exact (K i j s s' L Ei Ej a b Ha Hb).
    - apply unrelatedv_sym. exact (K j i s' s L Ej Ei b a Hb Ha).
  Qed.

  Lemma tstep2_pending l m t l' m' t' : tstep2 eig l m t l' m' t' -> incl (pending2 t') (pending2 t).
  Proof. intros H. destruct H; unfold pending2; cbn [t2_now t2_todo]; intros a Ha; try exact Ha. now right. Qed.

  Lemma apart2_step l m ts i t l' m' t' : apart2 ts -> nth_error ts i = Some t -> tstep2 eig l m t l' m' t' -> apart2 (set_nth2 i t' ts).
  Proof.
    intros A Hi S j1 j2 s1 s2 Nj H1 H2 a b Ha Hb. pose proof (tstep2_pending _ _ _ _ _ _ S) as I.
    destruct (Nat.eq_dec i j1) as [<-|N1].
    - rewrite (nth2_same i t t' ts Hi) in H1. injection H1 as <-.
      rewrite nth2_other in H2 by assumption. apply (A i j2 t s2); auto.
    - rewrite nth2_other in H1 by assumption. destruct (Nat.eq_dec i j2) as [<-|N2].
      + rewrite (nth2_same i t t' ts Hi) in H2. injection H2 as <-. apply (A j1 i s1 t); auto.
      + rewrite nth2_other in H2 by assumption. apply (A j1 j2 s1 s2); auto.
  Qed.

  (** ** No data race *)
  Definition accesses_ok (t : thr2 N) : Prop :=
    match t2_now t with
    | Idle2 => True
    | Reading2 c _ rd _ => forall k, In k rd -> In (var_of k) (readsv c)
    | Writing2 c _ wr => forall k, In k wr -> var_of k = targetv c
    end.
  Lemma accesses_step l m t l' m' t' : accesses_ok t -> tstep2 eig l m t l' m' t' -> accesses_ok t'.
  Proof.
    intros R S. destruct S; unfold accesses_ok in *; cbn [t2_now] in *; auto.
    - intros k Hk. now apply in_cells_read.
    - intros k' Hk. apply R. rewrite in_app_iff in *. cbn. tauto.
    - intros k Hk. eapply written_target; exact Hk.
    - intros k' Hk. apply R. rewrite in_app_iff in *. cbn. tauto.
  Qed.

  Definition good2 (c : conf2 N) : Prop :=
    apart2 (cf2_thr c) /\ forall i t, nth_error (cf2_thr c) i = Some t -> accesses_ok t.
  Lemma good2_step c c' : good2 c -> cstep2 eig c c' -> good2 c'.
  Proof.
    intros [A R] S. destruct S as [l m ts i t l' m' t' Hi S]. cbn [cf2_thr] in *. split; [eapply apart2_step; eassumption|].
    intros j s Hj. cbn [cf2_thr] in Hj. destruct (Nat.eq_dec i j) as [<-|Nj].
    - rewrite (nth2_same i t t' ts Hi) in Hj. injection Hj as <-. eapply accesses_step; [|exact S]. now apply (R i).
    - rewrite nth2_other in Hj by assumption. now apply (R j).
  Qed.
  Lemma good2_start (w : world2 N) ts : separate2 ts -> good2 (start2 w ts).
  Proof.
    intro S. split; [now apply separate2_apart|]. intros i t Hi. cbn in Hi. rewrite nth_error_map in Hi.
    destruct (nth_error ts i); [|discriminate]. injection Hi as <-. exact I.
  Qed.
  Lemma good2_no_race c : good2 c -> ~ race2 c.
  Proof.
    intros [A R] (i & j & t & t' & k & Nij & Hi & Hj & W & C).
    pose proof (R i t Hi) as Ri. pose proof (R j t' Hj) as Rj. unfold may_write2, accesses_ok in *.
    destruct (t2_now t) as [| |c0 x wr] eqn:Et; try contradiction. specialize (Ri k W).
    assert (P : In c0 (pending2 t)) by (unfold pending2; rewrite Et; now left).
    unfold may_read2 in C. destruct (t2_now t') as [|c1 l1 rd buf|c1 x1 wr1] eqn:Et'; [tauto|..];
      (assert (P' : In c1 (pending2 t')) by (unfold pending2; rewrite Et'; now left);
       destruct (A i j t t' Nij Hi Hj c0 c1 P P') as (U1 & U2 & _)); (destruct C as [C|C]; [|]; try contradiction).
    - apply U2. rewrite <- Ri. now apply Rj.
    - apply U1. rewrite <- Ri. now apply Rj.
  Qed.
  Lemma steps2_good c c' : good2 c -> csteps2 eig c c' -> good2 c'.
  Proof. intros G S. induction S; [exact G|]. apply IHS. eapply good2_step; eassumption. Qed.

  (** ** The simulation *)
  (** What is known of a thread, given the state W of the sequential execution. *)
  Definition agrees2 (W : mem N) (m : mem N) (t : thr2 N) : Prop :=
    match t2_now t with
    | Idle2 => True
    | Reading2 c l rd buf => exists g : mem N,
        (forall k, In (var_of k) (readsv c) \/ var_of k = targetv c -> same_cell k m g) /\
        (forall k, In (var_of k) (readsv c) -> ~ In k rd -> same_cell k buf g) /\
        (forall k, var_of k = targetv c -> same_cell k W (mem_of (fst (exec2 eig (with_counter l g) c))))
    | Writing2 c x wr => forall k, var_of k = targetv c ->
        (In k wr -> same_cell k x W) /\ (~ In k wr -> same_cell k m W)
    end.
  (** the variable being assigned *)
  Definition target2 (t : thr2 N) : option var :=
    match t2_now t with Idle2 => None | Reading2 c _ _ _ | Writing2 c _ _ => Some (targetv c) end.

  Definition seq2 (w : world2 N) (cs : list (call2 N)) : world2 N := fold_left (fun w c => fst (exec2 eig w c)) cs w.

  Record sim2 (w0 : world2 N) (lin : list (call2 N)) (c : conf2 N) : Prop := {
    sim2_last : cf2_last c = w2_last (seq2 w0 lin);
    sim2_thr : forall i t, nth_error (cf2_thr c) i = Some t -> agrees2 (mem_of (seq2 w0 lin)) (cf2_mem c) t;
    sim2_mem : forall k, (forall i t, nth_error (cf2_thr c) i = Some t -> target2 t <> Some (var_of k)) ->
                 same_cell k (cf2_mem c) (mem_of (seq2 w0 lin))
  }.

  Lemma with_counter_mem (w : world2 N) : with_counter (w2_last w) (mem_of w) = w.
  Proof. destruct w as [[l g] h]. reflexivity. Qed.

  (** The calls left after the execution can follow those already linearised. *)
  Definition follows (c : conf2 N) (lin : list (call2 N)) (c' : conf2 N) : Prop :=
    forall h, interleaving (map t2_todo (cf2_thr c')) h -> interleaving (map t2_todo (cf2_thr c)) (lin ++ h).

  Lemma sim2_step w0 lin c c' : good2 c -> sim2 w0 lin c -> cstep2 eig c c' ->
    exists lin', sim2 w0 (lin ++ lin') c' /\ follows c lin' c'.
  Proof.
    intros [A R] [SL ST SM] S. destruct S as [l m ts i t l' m' t' Hi S]. cbn [cf2_thr cf2_last cf2_mem] in *.
    pose proof (ST i t Hi) as Ai. pose proof (R i t Hi) as Ri.
    assert (Todo : forall l1 m1 t1, t2_todo t1 = t2_todo t -> follows (mkConf2 l m ts) [] (mkConf2 l1 m1 (set_nth2 i t1 ts))).
    { intros l1 m1 t1 E. unfold follows. cbn [cf2_thr]. destruct (nth2_split i t ts Hi) as (p & q & E1 & E2).
      rewrite E2, E1, !map_app. cbn [map]. rewrite E. auto. }
    assert (Others : forall j s, i <> j -> nth_error ts j = Some s -> forall c0 c1, In c0 (pending2 t) -> In c1 (pending2 s) ->
      unrelatedv c0 c1) by (intros j s Nj Hj; exact (A i j t s Nj Hi Hj)).
    set (W := seq2 w0 lin) in *.
    destruct S as [l m c cs|l m cs c l0 r1 k r2 buf|l m cs c l0 buf|l m cs c x k1 k k2|l m cs c x].
    - (* begin *)
      exists [c]. split.
      2:{ unfold follows. cbn [cf2_thr]. destruct (nth2_split i _ ts Hi) as (p & q & E1 & E2). intros h Hh.
          rewrite E2, map_app in Hh. cbn [map t2_todo] in Hh. rewrite E1, map_app. cbn [map t2_todo app]. now apply il_next. }
      assert (EW : seq2 w0 (lin ++ [c]) = fst (exec2 eig W c)) by (unfold seq2; rewrite fold_left_app; reflexivity).
      assert (MW : forall k, var_of k = targetv c \/ In (var_of k) (readsv c) -> same_cell k m (mem_of W)).
      { intros k Hk. apply SM. intros j s Hj. unfold target2. destruct (Nat.eq_dec i j) as [<-|Nj].
        - rewrite Hi in Hj. injection Hj as <-. cbn. congruence.
        - destruct (t2_now s) as [|c1 ? ? ?|c1 ? ?] eqn:Es; [congruence|..];
            (assert (P : In c1 (pending2 s)) by (unfold pending2; rewrite Es; now left);
             destruct (Others j s Nj Hj c c1 (or_introl eq_refl) P) as (U1 & U2 & U3);
             intros [= E]; rewrite <- E in Hk; destruct Hk as [Hk|Hk]; [congruence|contradiction]). }
      split; cbn [cf2_last cf2_thr cf2_mem].
      + rewrite EW, exec2_counter, <- SL. reflexivity.
      + intros j s Hj. rewrite EW. destruct (Nat.eq_dec i j) as [<-|Nj].
        * rewrite (nth2_same i _ _ ts Hi) in Hj. injection Hj as <-. unfold agrees2. cbn [t2_now].
          exists (mem_of W). split; [intros k Hk; apply MW; tauto|].
          split; [intros k Hk Hn; exfalso; apply Hn; now apply in_cells_read|].
          intros k Hk. rewrite SL, with_counter_mem. apply same_cell_refl.
        * rewrite nth2_other in Hj by assumption. pose proof (ST j s Hj) as Aj. unfold agrees2 in *.
          destruct (t2_now s) as [|c1 l1 rd1 buf1|c1 x1 wr1] eqn:Es; [exact I|..];
            (assert (P : In c1 (pending2 s)) by (unfold pending2; rewrite Es; now left);
             destruct (Others j s Nj Hj c c1 (or_introl eq_refl) P) as (U1 & U2 & U3)).
          -- destruct Aj as (g & G1 & G2 & G3). exists g. split; [exact G1|]. split; [exact G2|]. intros k Hk.
             eapply same_cell_trans; [apply exec2_keeps; congruence|]. now apply G3.
          -- intros k Hk. destruct (Aj k Hk) as (B1 & B2).
             assert (Q : same_cell k (mem_of W) (mem_of (fst (exec2 eig W c)))) by (apply same_cell_sym, exec2_keeps; congruence).
             split; intro Hw; (eapply same_cell_trans; [|exact Q]); auto.
      + intros k Hk. rewrite EW.
        assert (Nk : var_of k <> targetv c).
        { intro E. apply (Hk i _ (nth2_same i _ _ ts Hi)). unfold target2. cbn. now rewrite E. }
        eapply same_cell_trans; [|apply same_cell_sym, exec2_keeps; exact Nk]. apply SM. intros j s Hj. destruct (Nat.eq_dec i j) as [<-|Nj].
        * rewrite Hi in Hj. injection Hj as <-. unfold target2. cbn. congruence.
        * apply (Hk j s). now rewrite nth2_other.
    - (* read *)
      exists []. rewrite app_nil_r. split; [|now apply Todo].
      split; cbn [cf2_last cf2_thr cf2_mem]; fold W; [exact SL| |].
      + intros j s Hj. destruct (Nat.eq_dec i j) as [<-|Nj].
        * rewrite (nth2_same i _ _ ts Hi) in Hj. injection Hj as <-. unfold agrees2 in *. cbn [t2_now] in *.
          destruct Ai as (g & G1 & G2 & G3). exists g. split; [exact G1|]. split; [|exact G3].
          intros k' Hk' Hn. destruct (cell_dec k k') as [<-|Nk].
          -- eapply same_cell_trans; [apply copy_same|]. apply G1. now left.
          -- eapply same_cell_trans; [apply copy_other; exact Nk|]. apply G2; [exact Hk'|].
             rewrite in_app_iff in *. cbn. intros [Y|[Y|Y]]; [tauto|congruence|tauto].
        * rewrite nth2_other in Hj by assumption. exact (ST j s Hj).
      + intros v Hv. apply SM. intros j s Hj. destruct (Nat.eq_dec i j) as [<-|Nj].
        * rewrite Hi in Hj. injection Hj as <-. apply (Hv i _ (nth2_same i _ _ ts Hi)).
        * apply (Hv j s). now rewrite nth2_other.
    - (* compute *)
      exists []. rewrite app_nil_r. split; [|now apply Todo].
      split; cbn [cf2_last cf2_thr cf2_mem]; fold W; [exact SL| |].
      + intros j s Hj. destruct (Nat.eq_dec i j) as [<-|Nj].
        * rewrite (nth2_same i _ _ ts Hi) in Hj. injection Hj as <-. unfold agrees2 in *. cbn [t2_now] in *.
          destruct Ai as (g & G1 & G2 & G3).
          assert (G5 : forall k, In (var_of k) (readsv c) -> same_cell k buf g) by (intros k Hk; apply G2; auto).
          intros k Hk. split.
          -- intro Hw. eapply same_cell_trans; [|apply same_cell_sym, G3; exact Hk]. now apply exec2_written.
          -- intro Hw. eapply same_cell_trans; [apply G1; now right|].
             eapply same_cell_trans; [|apply same_cell_sym, G3; exact Hk]. now apply (exec2_unwritten eig l0 buf g c k G5 Hk).
        * rewrite nth2_other in Hj by assumption. exact (ST j s Hj).
      + intros v Hv. apply SM. intros j s Hj. destruct (Nat.eq_dec i j) as [<-|Nj].
        * rewrite Hi in Hj. injection Hj as <-. apply (Hv i _ (nth2_same i _ _ ts Hi)).
        * apply (Hv j s). now rewrite nth2_other.
    - (* write *)
      exists []. rewrite app_nil_r. split; [|now apply Todo].
      assert (Tk : var_of k = targetv c) by (unfold accesses_ok in Ri; cbn [t2_now] in Ri; apply Ri, in_app_iff; right; now left).
      split; cbn [cf2_last cf2_thr cf2_mem]; fold W; [exact SL| |].
      + intros j s Hj. destruct (Nat.eq_dec i j) as [<-|Nj].
        * rewrite (nth2_same i _ _ ts Hi) in Hj. injection Hj as <-. unfold agrees2 in *. cbn [t2_now] in *.
          intros k' Hk'. destruct (Ai k' Hk') as (B1 & B2). split.
          -- intro Hf. apply B1. rewrite in_app_iff in *. cbn. tauto.
          -- intro Hf. destruct (cell_dec k k') as [<-|Nf].
             ++ eapply same_cell_trans; [apply copy_same|]. apply B1. rewrite in_app_iff. cbn. tauto.
             ++ eapply same_cell_trans; [apply copy_other; exact Nf|]. apply B2. rewrite in_app_iff in *. cbn.
                intros [Y|[Y|Y]]; [tauto|congruence|tauto].
        * rewrite nth2_other in Hj by assumption. pose proof (ST j s Hj) as Aj. unfold agrees2 in *.
          destruct (t2_now s) as [|c1 l1 rd1 buf1|c1 x1 wr1] eqn:Es; [exact I|..];
            (assert (P : In c1 (pending2 s)) by (unfold pending2; rewrite Es; now left);
             destruct (Others j s Nj Hj c c1 (or_introl eq_refl) P) as (U1 & U2 & U3)).
          -- destruct Aj as (g & G1 & G2 & G3). exists g. split; [|split; [exact G2|exact G3]].
             intros k' Hk'. eapply same_cell_trans; [apply copy_other|now apply G1].
             intros <-. rewrite Tk in Hk'. destruct Hk' as [Hk'|Hk']; [contradiction|congruence].
          -- intros k' Hk'. destruct (Aj k' Hk') as (B1 & B2). split; [exact B1|]. intro Hw.
             eapply same_cell_trans; [apply copy_other|now apply B2]. intros <-. congruence.
      + intros v Hv. eapply same_cell_trans; [apply copy_other|].
        { intros ->. apply (Hv i _ (nth2_same i _ _ ts Hi)). unfold target2. cbn. now rewrite Tk. }
        apply SM. intros j s Hj. destruct (Nat.eq_dec i j) as [<-|Nj].
        * rewrite Hi in Hj. injection Hj as <-. apply (Hv i _ (nth2_same i _ _ ts Hi)).
        * apply (Hv j s). now rewrite nth2_other.
    - (* end *)
      exists []. rewrite app_nil_r. split; [|now apply Todo].
      split; cbn [cf2_last cf2_thr cf2_mem]; fold W; [exact SL| |].
      + intros j s Hj. destruct (Nat.eq_dec i j) as [<-|Nj].
        * rewrite (nth2_same i _ _ ts Hi) in Hj. injection Hj as <-. exact I.
        * rewrite nth2_other in Hj by assumption. exact (ST j s Hj).
      + intros k Hk. destruct (var_dec (var_of k) (targetv c)) as [Ek|Nk].
        * unfold agrees2 in Ai. cbn [t2_now] in Ai. apply (Ai k Ek). intros [].
        * apply SM. intros j s Hj. destruct (Nat.eq_dec i j) as [<-|Nj].
          -- rewrite Hi in Hj. injection Hj as <-. unfold target2. cbn. congruence.
          -- apply (Hk j s). now rewrite nth2_other.
  Qed.

  Lemma sim2_start (w : world2 N) ts : sim2 w [] (start2 w ts).
  Proof.
    split; cbn; [reflexivity| |intros; apply same_cell_refl].
    intros i t Hi. rewrite nth_error_map in Hi. destruct (nth_error ts i); [|discriminate]. injection Hi as <-. exact I.
  Qed.

  Lemma sim2_steps w0 lin c c' : good2 c -> sim2 w0 lin c -> csteps2 eig c c' ->
    exists lin', sim2 w0 (lin ++ lin') c' /\ follows c lin' c'.
  Proof.
    intros G S H. revert lin G S. induction H as [c|c c1 c2 H1 H2 IH]; intros lin G S.
    - exists []. rewrite app_nil_r. split; [exact S|]. intros h Hh. exact Hh.
    - destruct (sim2_step w0 lin c c1 G S H1) as (l1 & S1 & T).
      destruct (IH (lin ++ l1) (good2_step c c1 G H1) S1) as (l2 & S2 & R2).
      exists (l1 ++ l2). rewrite app_assoc. split; [exact S2|].
      intros h Hh. rewrite <- app_assoc. apply T, R2, Hh.
  Qed.

  Lemma seq2_run cs : forall w w' : world2 N, run2 eig w cs = Ret w' -> seq2 w cs = w'.
  Proof.
    induction cs as [|c cs IH]; intros w w' H; cbn in *; [congruence|].
    destruct (exec2 eig w c) as [w1 [| | |]]; cbn [fst] in *; try discriminate; apply IH; exact H.
  Qed.

  (** The state the threads leave. *)
  Lemma finished2_lin (w : world2 N) ts c : separate2 ts -> csteps2 eig (start2 w ts) c -> finished2 c ->
    exists h, interleaving ts h /\ same_state (with_counter (cf2_last c) (cf2_mem c)) (seq2 w h).
  Proof.
    intros S H F. destruct (sim2_steps w [] _ c (good2_start w ts S) (sim2_start w ts) H) as (h & [SL _ SM] & Fo).
    exists h. cbn [app] in *.
    assert (E : map t2_todo (cf2_thr (start2 w ts)) = ts).
    { cbn. rewrite map_map. cbn. apply map_id. }
    split.
    - rewrite <- E, <- (app_nil_r h). apply Fo. apply il_done. intros t Ht. apply in_map_iff in Ht as (s & <- & Hs).
      unfold finished2 in F. rewrite Forall_forall in F. now rewrite (F s Hs).
    - assert (K : forall k, same_cell k (cf2_mem c) (mem_of (seq2 w h))).
      { intro k. apply SM. intros i t Hi. unfold finished2 in F. rewrite Forall_forall in F.
        rewrite (F t (nth_error_In _ _ Hi)). cbn. congruence. }
      split; [exact SL|]. split; intro v.
      + exact (same_cells1 (cf2_mem c) (mem_of (seq2 w h)) v (fun f => K (C1 v f))).
      + exact (same_cells2 (cf2_mem c) (mem_of (seq2 w h)) v (fun f => K (C2 v f))).
  Qed.
End Gen.
