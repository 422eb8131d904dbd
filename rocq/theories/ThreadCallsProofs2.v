(** * ThreadCallsProofs2: termination, shared queries, and a data race *)

From Coq Require Import List ZArith Bool Lia Relation_Operators Reals Lra.
From Verif Require Import Base Num Map UReal World SpecLin SpecObs SpecOrder OrderProofs URealProofs MathProofs Demo AllocDemo ThreadCalls SpecThreads ThreadCallsProofs.
Import ListNotations.

Section Gen.
  Context {N : Num}.

  (** ** Every schedule ends *)
  Definition cost (c : call N) : nat := length (to_read c) + 7.
  Definition now_cost (a : activity N) : nat :=
    match a with Idle => 0 | Reading _ _ rd _ => length rd + 6 | Writing _ _ wr => length wr + 1 end.
  Definition thr_cost (t : thr N) : nat := list_sum (map cost (t_todo t)) + now_cost (t_now t).
  Definition conf_cost (c : conf N) : nat := list_sum (map thr_cost (cf_thr c)).

  Lemma write_fields_length (c : call N) buf o : length (write_fields c buf o) <= 4.
  Proof.
    unfold write_fields, all_fields. destruct o; cbn; try lia.
    destruct c; cbn; try lia; destruct (0 <=? uid (buf v))%Z; cbn; try lia; destruct (nltb (usdev (buf v)) n0); cbn; lia.
  Qed.
  Lemma tstep_cost l m t l' m' t' : tstep l m t l' m' t' -> thr_cost t' < thr_cost t.
  Proof.
    intro S. destruct S; unfold thr_cost; cbn [t_todo t_now now_cost map list_sum fold_right].
    - unfold cost. cbn. lia.
    - rewrite !app_length. cbn. lia.
    - pose proof (write_fields_length c buf (snd (exec (mkW l0 buf) c))). cbn [length]. lia.
    - rewrite !app_length. cbn. lia.
    - cbn. lia.
  Qed.
  Lemma set_nth_cost i t t' ts : nth_error ts i = Some t -> thr_cost t' < thr_cost t ->
    list_sum (map thr_cost (set_nth i t' ts)) < list_sum (map thr_cost ts).
  Proof.
    revert i. induction ts as [|a ts IH]; intros [|i] H L; cbn in *; try discriminate.
    - injection H as <-. lia.
    - specialize (IH i H L). unfold list_sum in IH. lia.
  Qed.
  Lemma cstep_cost c c' : cstep c c' -> conf_cost c' < conf_cost c.
  Proof.
    intros [l m ts i t l' m' t' Hi S]. unfold conf_cost. cbn [cf_thr]. eapply set_nth_cost; [exact Hi|].
    eapply tstep_cost; exact S.
  Qed.
  Lemma steps_cost k : forall c c' : conf N, steps_n cstep k c c' -> k <= conf_cost c.
  Proof.
    induction k as [|k IH]; intros c c' H; [lia|]. inversion H as [|k' a b d S R]; subst.
    apply cstep_cost in S. apply IH in R. lia.
  Qed.
  Lemma thr_progress l m (t : thr N) : t = mkThr [] Idle \/ exists l' m' t', tstep l m t l' m' t'.
  Proof.
    destruct t as [todo [|c l0 [|[u f] rd] buf|c x [|f wr]]].
    - destruct todo as [|c cs]; [now left|right]. do 3 eexists. apply ts_begin.
    - right. do 3 eexists. apply ts_compute.
    - right. do 3 eexists. apply (ts_read l m todo c l0 [] u f rd buf).
    - right. do 3 eexists. apply ts_end.
    - right. do 3 eexists. apply (ts_write l m todo c x [] f wr).
  Qed.
  Lemma conf_progress (c : conf N) : finished c \/ exists c', cstep c c'.
  Proof.
    destruct c as [l m ts]. unfold finished. cbn [cf_thr].
    assert (H : List.Forall (fun t => t = mkThr [] Idle) ts \/
      exists i t l' m' t', nth_error ts i = Some t /\ tstep l m t l' m' t').
    { induction ts as [|t ts IH]; [left; constructor|].
      destruct (thr_progress l m t) as [E|(l' & m' & t' & S)].
      - destruct IH as [F|(i & s & l' & m' & s' & Hi & S)]; [left; constructor; assumption|].
        right. exists (Datatypes.S i), s, l', m', s'. split; assumption.
      - right. exists 0%nat, t, l', m', t'. split; [reflexivity|exact S]. }
    destruct H as [F|(i & t & l' & m' & t' & Hi & S)]; [now left|right].
    eexists. eapply cs_intro; eassumption.
  Qed.

  (** ** Queries of settled variables *)
  Definition upto (K : nat -> Prop) (a b : call N) : Prop :=
    (K (writes a) /\ queries a (writes a)) \/ (K (writes b) /\ queries b (writes b)) \/ unrelated a b.
  Definition apart_but (K : nat -> Prop) (ts : list (thr N)) : Prop :=
    forall i j t t', i <> j -> nth_error ts i = Some t -> nth_error ts j = Some t' ->
    forall a b, In a (pending t) -> In b (pending t') -> upto K a b.
  Lemma upto_sym K a b : upto K a b -> upto K b a.
  Proof. unfold upto. intros [H|[H|H]]; auto. right; right. now apply unrelated_sym. Qed.

  Lemma separate_but_apart K ts : separate_but K ts -> apart_but K (map (fun cs => mkThr cs Idle) ts).
  Proof.
    intros S. assert (L : forall i j t t', (i < j)%nat -> nth_error ts i = Some t -> nth_error ts j = Some t' ->
      forall a b, In a t -> In b t' -> upto K a b).
    { clear -S. induction ts as [|t0 ts IH]; intros i j t t' Hij Hi Hj a b Ha Hb; [destruct i; discriminate|].
      destruct S as [S1 S2]. destruct j as [|j]; [lia|]. destruct i as [|i].
      - cbn in *. injection Hi as <-. apply (S1 t' a b); auto. eapply nth_error_In; eassumption.
      - cbn in *. apply (IH S2 i j t t'); auto. lia. }
    intros i j t t' Nij Hi Hj a b Ha Hb. rewrite nth_error_map in Hi, Hj.
    destruct (nth_error ts i) as [s|] eqn:Ei; [|discriminate]. destruct (nth_error ts j) as [s'|] eqn:Ej; [|discriminate].
    cbn in Hi, Hj. injection Hi as <-. injection Hj as <-. cbn in Ha, Hb.
    destruct (Nat.lt_total i j) as [L1|[L1|L1]]; [|contradiction|].
    - exact (L i j s s' L1 Ei Ej a b Ha Hb).
    - apply upto_sym. exact (L j i s' s L1 Ej Ei b a Hb Ha).
  Qed.

  (** A thread sees the settled variables as they were at the start. *)
  Definition sees (K : nat -> Prop) (w : nat -> ureal N) (t : thr N) : Prop :=
    (forall c, In c (pending t) -> K (writes c) -> queries c (writes c)) /\ reads_ok t /\
    match t_now t with
    | Idle => True
    | Reading c _ rd buf => forall u f, K u -> In u (reads c) -> ~ In (u, f) rd -> same_field f (buf u) (w u)
    | Writing c _ wr => K (writes c) -> wr = []
    end.
  Record quiet (K : nat -> Prop) (w : nat -> ureal N) (c : conf N) : Prop := {
    q_apart : apart_but K (cf_thr c);
    q_mem : forall u, K u -> cf_mem c u = w u;
    q_thr : forall i t, nth_error (cf_thr c) i = Some t -> sees K w t
  }.

  Lemma quiet_start K (w : world N) ts : separate_but K ts -> only_queried K ts -> quiet K (w_var w) (start w ts).
  Proof.
    intros S O. split; [now apply separate_but_apart|reflexivity|].
    intros i t Hi. cbn in Hi. rewrite nth_error_map in Hi. destruct (nth_error ts i) as [cs|] eqn:E; [|discriminate].
    injection Hi as <-. split; [|split; exact I]. intros c Hc. apply (O cs c); [eapply nth_error_In; exact E|exact Hc].
  Qed.

  Lemma quiet_step (K : nat -> Prop) (w : nat -> ureal N) c c' : (forall v, K v -> settled (w v)) -> quiet K w c -> cstep c c' -> quiet K w c'.
  Proof.
    intros HK [A M T] St. destruct St as [l m ts i t l' m' t' Hi S]. cbn [cf_thr cf_last cf_mem] in *.
    assert (T' : sees K w t' /\ forall u, K u -> m' u = w u).
    { destruct (T i t Hi) as (T1 & T2 & T3).
      assert (P' : forall c, In c (pending t') -> K (writes c) -> queries c (writes c)).
      { intros c Hc. apply T1. exact (tstep_pending _ _ _ _ _ _ S c Hc). }
      assert (R' := reads_ok_step _ _ _ _ _ _ T2 S).
      split; [split; [exact P'|split; [exact R'|]]|].
      - clear P' R'. destruct S as [l m c cs|l m cs c l0 r1 u f r2 buf|l m cs c l0 buf|l m cs c x f1 f f2|l m cs c x];
          cbn [t_now] in *.
        + intros u f _ Hu Hn. exfalso. apply Hn. now apply to_read_In.
        + intros u' f' Ku Hu Hn. destruct (Nat.eq_dec u u') as [<-|Nu].
          * rewrite upd_same. destruct (field_dec f f') as [<-|Nf].
            -- rewrite <- (M u Ku). apply put_same.
            -- eapply same_field_trans; [apply put_other; exact Nf|]. apply T3; [exact Ku|exact Hu|].
               rewrite in_app_iff in *. cbn. intros [Y|[Y|Y]]; [tauto|congruence|tauto].
          * rewrite upd_other by congruence. apply T3; [exact Ku|exact Hu|].
            rewrite in_app_iff in *. cbn. intros [Y|[Y|Y]]; [tauto|congruence|tauto].
        + intros Kc. destruct (T1 c (or_introl eq_refl) Kc) as [Q|Q];
            (assert (B : buf (writes c) = w (writes c))
               by (apply same_fields; intro f; apply T3; [exact Kc|rewrite Q; now left|intros []]);
             rewrite Q in B |- *; cbn [writes] in B; rewrite Q in Kc; cbn [writes] in Kc; cbn [write_fields exec snd];
             rewrite B; destruct (HK _ Kc) as [Z|Z];
             [apply Z.leb_le in Z; now rewrite Z|destruct (0 <=? uid (w (writes c)))%Z; [reflexivity|now rewrite Z]]).
        + intros Kc. specialize (T3 Kc). destruct f1; discriminate.
        + exact I.
      - destruct S as [l m c cs|l m cs c l0 r1 u f r2 buf|l m cs c l0 buf|l m cs c x f1 f f2|l m cs c x]; try exact M.
        intros u Ku. cbn [t_now] in T3. destruct (Nat.eq_dec u (writes c)) as [->|Nu].
        + specialize (T3 Ku). destruct f1; discriminate.
        + rewrite upd_other by assumption. now apply M. }
    destruct T' as [T1 T2]. split; cbn [cf_thr cf_mem]; [|exact T2|].
    - pose proof (tstep_pending _ _ _ _ _ _ S) as I.
      intros j1 j2 s1 s2 Nj H1 H2 a b Ha Hb.
      destruct (Nat.eq_dec i j1) as [<-|N1].
      + rewrite (nth_set_same i t t' ts Hi) in H1. injection H1 as <-.
        rewrite nth_set_other in H2 by assumption. apply (A i j2 t s2); auto.
      + rewrite nth_set_other in H1 by assumption. destruct (Nat.eq_dec i j2) as [<-|N2].
        * rewrite (nth_set_same i t t' ts Hi) in H2. injection H2 as <-. apply (A j1 i s1 t); auto.
        * rewrite nth_set_other in H2 by assumption. apply (A j1 j2 s1 s2); auto.
    - intros j s Hj. destruct (Nat.eq_dec i j) as [<-|Nj].
      + rewrite (nth_set_same i t t' ts Hi) in Hj. injection Hj as <-. exact T1.
      + rewrite nth_set_other in Hj by assumption. exact (T j s Hj).
  Qed.

  Lemma quiet_steps (K : nat -> Prop) (w : nat -> ureal N) c c' : (forall v, K v -> settled (w v)) -> quiet K w c -> csteps c c' -> quiet K w c'.
  Proof. intros HK Q S. induction S; [exact Q|]. apply IHS. eapply quiet_step; eassumption. Qed.

  Lemma quiet_no_race K w c : quiet K w c -> ~ race c.
  Proof.
    intros [A M T] (i & j & t & t' & u & f & Nij & Hi & Hj & W & C).
    destruct (T i t Hi) as (Ti1 & Ti2 & Ti3). destruct (T j t' Hj) as (Tj1 & Tj2 & Tj3).
    unfold may_write in W. destruct (t_now t) as [| |c0 x wr] eqn:Et; try contradiction. destruct W as [-> Hf].
    assert (P : In c0 (pending t)) by (unfold pending; rewrite Et; now left).
    assert (NK : ~ K (writes c0)) by (intro Kc; rewrite (Ti3 Kc) in Hf; destruct Hf).
    destruct C as [C|C].
    - unfold may_read in C. destruct (t_now t') as [|c1 l1 rd buf|] eqn:Et'; try contradiction.
      assert (P' : In c1 (pending t')) by (unfold pending; rewrite Et'; now left).
      unfold reads_ok in Tj2. rewrite Et' in Tj2. specialize (Tj2 _ _ C).
      destruct (A i j t t' Nij Hi Hj c0 c1 P P') as [[Y _]|[[Y Q]|(_ & U & _)]]; [contradiction| |contradiction].
      apply NK. destruct Q as [Q|Q]; rewrite Q in Tj2, Y; cbn in Tj2, Y; destruct Tj2 as [E|[]]; now rewrite <- E.
    - unfold may_write in C. destruct (t_now t') as [| |c1 x1 wr1] eqn:Et'; try contradiction.
      assert (P' : In c1 (pending t')) by (unfold pending; rewrite Et'; now left). destruct C as [Ew Hf'].
      destruct (A i j t t' Nij Hi Hj c0 c1 P P') as [[Y _]|[[Y Q]|(U & _)]]; [contradiction| |contradiction].
      apply NK. now rewrite Ew.
  Qed.
End Gen.

Lemma C69_every_schedule_ends_proof : forall (N : Num) (w : world N) ts, exists n, forall k c,
  steps_n cstep k (start w ts) c -> (k <= n)%nat /\ (finished c \/ exists c', cstep c c').
Proof.
  intros N w ts. exists (conf_cost (start w ts)). intros k c H. split; [eapply steps_cost; exact H|apply conf_progress].
Qed.

Lemma C69_shared_queries_proof : forall (N : Num) (K : nat -> Prop) (w : world N) ts c,
  (forall v, K v -> settled (w_var w v)) -> separate_but K ts -> only_queried K ts ->
  csteps (start w ts) c -> ~ race c /\ forall v, K v -> cf_mem c v = w_var w v.
Proof.
  intros N K w ts c HK S O H. assert (Q := quiet_steps K (w_var w) _ c HK (quiet_start K w ts S O) H).
  split; [eapply quiet_no_race; exact Q|]. apply Q.
Qed.

(** ** The race *)

Lemma two_queries_race {N : Num} (w : world N) v : ~ settled (w_var w v) ->
  exists c, csteps (start w [[CS v]; [CS v]]) c /\ race c.
Proof.
  intro NS.
  set (x := w_var w v) in *. set (q := mkThr [CS v] Idle : thr N).
  set (b := fun _ : nat => u_default : ureal N).
  set (b1 := upd b v (put Fid x (b v))). set (b2 := upd b1 v (put Fsdev x (b1 v))).
  set (b3 := upd b2 v (put Fmu x (b2 v))). set (b4 := upd b3 v (put Fsigma x (b3 v))).
  assert (B : b4 v = x).
  { apply same_fields. intro f. unfold b4, b3, b2, b1. rewrite !upd_same. destruct f; reflexivity. }
  set (rest := Reading (CS v) (w_last w) (to_read (CS v : call N)) b).
  exists (mkConf (w_last w) (w_var w)
    [mkThr [] (Writing (CS v) (w_var (fst (exec (mkW (w_last w) b4) (CS v))) v) [Fsdev]); mkThr [] rest]).
  split.
  - unfold start. cbn [map].
    assert (St : forall t t' (s : thr N), tstep (w_last w) (w_var w) t (w_last w) (w_var w) t' ->
      cstep (mkConf (w_last w) (w_var w) [t; s]) (mkConf (w_last w) (w_var w) [t'; s])).
    { intros t t' s H. apply (cs_intro _ _ [t; s] 0 t _ _ t'); [reflexivity|exact H]. }
    eapply rt1n_trans; [apply St; apply (ts_begin (w_last w) (w_var w) (CS v) [])|].
    eapply rt1n_trans; [apply St; apply (ts_read _ _ [] (CS v) _ [] v Fid [(v, Fsdev); (v, Fmu); (v, Fsigma)])|].
    eapply rt1n_trans; [apply St; apply (ts_read _ _ [] (CS v) _ [] v Fsdev [(v, Fmu); (v, Fsigma)])|].
    eapply rt1n_trans; [apply St; apply (ts_read _ _ [] (CS v) _ [] v Fmu [(v, Fsigma)])|].
    eapply rt1n_trans; [apply St; apply (ts_read _ _ [] (CS v) _ [] v Fsigma [])|].
    assert (WF : write_fields (CS v) b4 (snd (exec (mkW (w_last w) b4) (CS v))) = [Fsdev]).
    { cbn [write_fields exec snd]. rewrite B. unfold settled in NS.
      destruct (0 <=? uid x)%Z eqn:E; [apply Z.leb_le in E; tauto|].
      destruct (nltb (usdev x) n0); [reflexivity|tauto]. }
    assert (Cp := ts_compute (w_last w) (w_var w) [] (CS v) (w_last w) b4). rewrite WF in Cp.
    eapply rt1n_trans; [apply St; exact Cp|].
    eapply rt1n_trans; [|apply rt1n_refl].
    apply (cs_intro _ _ [_; q] 1 q _ _ (mkThr [] rest)); [reflexivity|]. apply (ts_begin (w_last w) (w_var w) (CS v) []).
  - exists 0%nat, 1%nat, (mkThr [] (Writing (CS v) (w_var (fst (exec (mkW (w_last w) b4) (CS v))) v) [Fsdev])), (mkThr [] rest), v, Fsdev.
    repeat split; try reflexivity; try discriminate; [now left|]. left. cbn. tauto.
Qed.

Lemma C69_two_queries_race_proof : forall (N : Num) (w : world N) v, ~ settled (w_var w v) ->
  exists c, csteps (start w [[CS v]; [CS v]]) c /\ race c.
Proof. exact @two_queries_race. Qed.

Lemma C69_any_queries_refuted_proof : exists (pre : list (call RN)) w0 v c,
  legal pre /\ run w_init pre = Ret w0 /\ csteps (start w0 [[CS v]; [CS v]]) c /\ race c.
Proof.
  destruct adem_run as (w & R & _ & E). exists adem, w, 2%nat.
  destruct (two_queries_race w 2%nat) as (c & S & Rc).
  - rewrite E. cbn [adem_w w_var]. unfold settled. cbn [uid usdev]. intros [H|H]; [unfold invalid_id in H; lia|].
    cbn in H. destruct (Rltb_spec (-1) 0); [discriminate|lra].
  - exists c. split; [exact adem_legal|]. split; [exact R|]. split; [exact S|exact Rc].
Qed.

(** ** Examples *)
(** Two threads using z = x + y: z is read by both; each assigns its own variables;
    each creates a new independent variable. *)
Definition tdem : list (list (call RN)) :=
  [[CCopy 10%nat 2%nat; CNew 11%nat 1%R 1%R; CMul 12%nat 2%nat 11%nat]; [CNew 20%nat 3%R 1%R; CAddA 20%nat 2%nat; CS 20%nat]].
Lemma tdem_separate : separate tdem.
Proof.
  unfold tdem. split; [|split; [intros t' a b []|exact I]].
  intros t' a b [<-|[]] Ha Hb. cbn in Ha, Hb.
  destruct Ha as [<-|[<-|[<-|[]]]]; destruct Hb as [<-|[<-|[<-|[]]]]; unfold unrelated; cbn; lia.
Qed.
Lemma tdem_legal : legal (adem ++ concat tdem).
Proof.
  split; [repeat constructor|]. split; [|apply max_new_ge; cbn; lia].
  unfold adem, tdem. cbn. decide_signs. cbn. repeat split; exact I.
Qed.
Lemma tdem_case : exists w0 c, legal (adem ++ concat tdem) /\ run w_init adem = Ret w0 /\ separate tdem /\
  csteps (start w0 tdem) c /\ finished c.
Proof.
  destruct adem_run as (w & R & _). exists w.
  assert (H : forall k (c : conf RN), (conf_cost c <= k)%nat -> exists c', csteps c c' /\ finished c').
  { induction k as [|k IH]; intros c Hk; destruct (conf_progress c) as [F|(c' & S)].
    - exists c. split; [apply rt1n_refl|exact F].
    - apply cstep_cost in S. lia.
    - exists c. split; [apply rt1n_refl|exact F].
    - pose proof (cstep_cost _ _ S). destruct (IH c') as (c2 & S2 & F2); [lia|].
      exists c2. split; [eapply rt1n_trans; eassumption|exact F2]. }
  destruct (H _ (start w tdem) (le_n _)) as (c & S & F). exists c.
  split; [exact tdem_legal|]. split; [exact R|]. split; [exact tdem_separate|]. split; assumption.
Qed.
(** Both threads query x, which is independent, and z after z.s() was called. *)
Lemma tdem_queries_case : exists w0 : world RN, run w_init (adem ++ [CS 2%nat]) = Ret w0 /\
  let K := fun v => v = 0%nat \/ v = 2%nat in
  let ts : list (list (call RN)) := [[CS 2%nat; CVar 0%nat]; [CVar 2%nat; CS 0%nat; CAdd 10%nat 0%nat 2%nat]] in
  (forall v, K v -> settled (w_var w0 v)) /\ separate_but K ts /\ only_queried K ts.
Proof.
  destruct adem_run as (w & R & _ & E). eexists. split.
  { rewrite (run_app adem w_init w [CS 2%nat] R). cbn [run exec]. reflexivity. }
  cbv zeta. split; [|split].
  - cbn [w_set w_var]. intros v [-> | ->].
    + rewrite upd_other by discriminate. rewrite E. left. cbn. lia.
    + rewrite upd_same, E. right. cbn -[IZR]. destruct (Rltb_spec (-1) 0) as [_|L]; [|lra].
      cbn [snd usdev]. match goal with |- Rltb ?a _ = _ => destruct (Rltb_spec a 0) as [L|L]; [exfalso|reflexivity] end.
      revert L. apply Rle_not_lt, sqrt_pos.
  - split; [|split; [intros t' a b []|exact I]].
    intros t' a b [<-|[]] Ha _. cbn in Ha. left. destruct Ha as [<-|[<-|[]]]; cbn; unfold queries; auto.
  - intros t c [<-|[<-|[]]] Hc; cbn in Hc; [destruct Hc as [<-|[<-|[]]]|destruct Hc as [<-|[<-|[<-|[]]]]]; cbn; unfold queries; auto.
    intros [Y|Y]; discriminate.
Qed.
