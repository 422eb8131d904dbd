(** * ThreadCallsProofs: threads that share variables only for reading *)

From Coq Require Import List ZArith Bool Lia Relation_Operators Reals.
From Verif Require Import Base Num Map UReal World SpecLin SpecObs SpecOrder OrderProofs URealProofs MathProofs ThreadCalls SpecThreads.
Import ListNotations.

Section Gen.
  Context {N : Num}.

  (** ** exec depends on the operands only *)
  Definition same_field (f : field) (x y : ureal N) : Prop :=
    match f with
    | Fid => uid x = uid y
    | Fsdev => usdev x = usdev y
    | Fmu => umu x = umu y
    | Fsigma => usigma x = usigma y
    end.
  Lemma same_fields (x y : ureal N) : (forall f, same_field f x y) -> x = y.
  Proof.
    intro H. destruct x, y. pose proof (H Fid). pose proof (H Fsdev). pose proof (H Fmu). pose proof (H Fsigma).
    cbn in *. congruence.
  Qed.
  Lemma same_field_refl f (x : ureal N) : same_field f x x.
  Proof. destruct f; reflexivity. Qed.
  Lemma same_field_trans f (x y z : ureal N) : same_field f x y -> same_field f y z -> same_field f x z.
  Proof. destruct f; cbn; congruence. Qed.
  Lemma same_field_sym f (x y : ureal N) : same_field f x y -> same_field f y x.
  Proof. destruct f; cbn; congruence. Qed.
  Lemma put_same f (src dst : ureal N) : same_field f (put f src dst) src.
  Proof. destruct f; reflexivity. Qed.
  Lemma put_other f f' (src dst : ureal N) : f <> f' -> same_field f' (put f src dst) dst.
  Proof. destruct f, f'; cbn; congruence. Qed.
  Lemma field_dec (f f' : field) : {f = f'} + {f <> f'}.
  Proof. decide equality. Qed.

  Lemma upd_same (m : nat -> ureal N) v x : upd m v x v = x.
  Proof. unfold upd. now rewrite Nat.eqb_refl. Qed.
  Lemma upd_other (m : nat -> ureal N) v x u : u <> v -> upd m v x u = m u.
  Proof. intro H. unfold upd. destruct (Nat.eqb_spec u v); [contradiction|reflexivity]. Qed.

  (** the value a call gives to the variable it assigns, if it returns *)
  Definition value_of (l : Z) (m : nat -> ureal N) (c : call N) : option (ureal N) :=
    match snd (exec (mkW l m) c) with Ret _ => Some (w_var (fst (exec (mkW l m) c)) (writes c)) | _ => None end.

  Lemma exec_shape (w : world N) c :
    w_last (fst (exec w c)) = (if is_new c then wrap32 (w_last w + 1) else w_last w) /\
    (forall u, u <> writes c -> w_var (fst (exec w c)) u = w_var w u) /\
    w_var (fst (exec w c)) (writes c) =
      match value_of (w_last w) (w_var w) c with Some x => x | None => w_var w (writes c) end.
  Proof.
    assert (A : forall v o, let r := assign_result w v o in
      w_last (fst r) = w_last w /\ (forall u, u <> v -> w_var (fst r) u = w_var w u) /\
      w_var (fst r) v = match snd r with Ret _ => w_var (fst r) v | _ => w_var w v end).
    { intros v o. destruct o; cbn; repeat split; auto. intros u Hu. now apply upd_other. }
    assert (S : forall v x, w_last (w_set w v x) = w_last w /\ (forall u, u <> v -> w_var (w_set w v x) u = w_var w u)).
    { intros v x. split; [reflexivity|]. intros u Hu. now apply upd_other. }
    destruct w as [l m]. unfold value_of. cbn [w_last w_var].
    destruct c; cbn [exec is_new writes fst snd];
      try (match goal with |- context [assign_result ?w ?v ?o] => destruct (A v o) as (A1 & A2 & A3) end;
           split; [exact A1|]; split; [exact A2|];
           match goal with |- context [assign_result ?w ?v ?o] => destruct (snd (assign_result w v o)) end; exact A3);
      try (match goal with |- context [w_set ?w ?v ?x] => destruct (S v x) as (S1 & S2) end;
           split; [exact S1|]; split; [exact S2|]; reflexivity).
    unfold u_new. cbn -[wrap32]. destruct (nltb s n0); cbn -[wrap32]; repeat split; auto.
    intros u Hu. now apply upd_other.
  Qed.

  Lemma map_reads_eq {A : Type} (g : ureal N -> A) (m m' : nat -> ureal N) xs :
    (forall u, In u xs -> m u = m' u) -> map (fun x => g (m x)) xs = map (fun x => g (m' x)) xs.
  Proof. intro H. apply map_ext_in. intros a Ha. now rewrite H. Qed.

  Lemma value_local l (m m' : nat -> ureal N) c : (forall u, In u (reads c) -> m u = m' u) ->
    value_of l m c = value_of l m' c /\ snd (exec (mkW l m) c) = snd (exec (mkW l m') c).
  Proof.
    intro H.
    assert (A : forall v o, snd (assign_result (mkW l m) v o) = snd (assign_result (mkW l m') v o) /\
      (snd (assign_result (mkW l m) v o) = Ret tt ->
       w_var (fst (assign_result (mkW l m) v o)) v = w_var (fst (assign_result (mkW l m') v o)) v)).
    { intros v o. destruct o; cbn; split; auto; try discriminate. intros _. now rewrite !upd_same. }
    assert (A' : forall v o o', o = o' ->
      match snd (assign_result (mkW l m) v o) with Ret _ => Some (w_var (fst (assign_result (mkW l m) v o)) v) | _ => None end
      = match snd (assign_result (mkW l m') v o') with Ret _ => Some (w_var (fst (assign_result (mkW l m') v o')) v) | _ => None end
      /\ snd (assign_result (mkW l m) v o) = snd (assign_result (mkW l m') v o')).
    { intros v o o' <-. destruct (A v o) as (E1 & E2). split; [|exact E1]. rewrite <- E1.
      destruct (snd (assign_result (mkW l m) v o)) as [[]| | |]; try reflexivity. now rewrite E2. }
    unfold value_of.
    destruct c; cbn [exec writes reads fst snd w_var w_last] in *;
      try (apply A');
      try (split; [|reflexivity]; cbn [w_set w_var]; rewrite !upd_same);
      try (rewrite !H by (cbn; auto); reflexivity);
      try reflexivity.
    - unfold u_new. cbn -[wrap32]. destruct (nltb s n0); cbn -[wrap32]; rewrite ?upd_same; auto.
    - rewrite (map_reads_eq u_n m m' xs H). f_equal. apply map_ext_in. exact H.
  Qed.

  (** ** Lists of threads *)
  Lemma nth_set_same i (t t' : thr N) ts : nth_error ts i = Some t -> nth_error (set_nth i t' ts) i = Some t'.
  Proof. revert i. induction ts as [|a ts IH]; intros [|i] H; cbn in *; try discriminate; auto. Qed.
  Lemma nth_set_other i j (t' : thr N) ts : i <> j -> nth_error (set_nth i t' ts) j = nth_error ts j.
  Proof.
    revert i j. induction ts as [|a ts IH]; intros [|i] [|j] H; cbn; try reflexivity; try congruence. apply IH. congruence.
  Qed.

  (** the calls a thread is doing or will do *)
  Definition pending (t : thr N) : list (call N) :=
    match t_now t with
    | Idle => t_todo t
    | Reading c _ _ _ | Writing c _ _ => c :: t_todo t
    end.
  Definition apart (ts : list (thr N)) : Prop :=
    forall i j t t', i <> j -> nth_error ts i = Some t -> nth_error ts j = Some t' ->
    forall a b, In a (pending t) -> In b (pending t') -> unrelated a b.

  Lemma unrelated_sym (a b : call N) : unrelated a b -> unrelated b a.
  Proof. intros (A & B & C). split; [congruence|]. split; assumption. Qed.

  Lemma separate_apart ts : separate ts -> apart (map (fun cs => mkThr cs Idle) ts).
  Proof.
    intros S. assert (K : forall i j t t', (i < j)%nat -> nth_error ts i = Some t -> nth_error ts j = Some t' ->
      forall a b, In a t -> In b t' -> unrelated a b).
    { clear -S. induction ts as [|t0 ts IH]; intros i j t t' Hij Hi Hj a b Ha Hb; [destruct i; discriminate|].
      destruct S as [S1 S2]. destruct j as [|j]; [lia|]. destruct i as [|i].
      - cbn in *. injection Hi as <-. apply (S1 t' a b); auto. eapply nth_error_In; eassumption.
      - cbn in *. apply (IH S2 i j t t'); auto. lia. }
    intros i j t t' Nij Hi Hj a b Ha Hb. rewrite nth_error_map in Hi, Hj.
    destruct (nth_error ts i) as [s|] eqn:Ei; [|discriminate]. destruct (nth_error ts j) as [s'|] eqn:Ej; [|discriminate].
    cbn in Hi, Hj. injection Hi as <-. injection Hj as <-. cbn in Ha, Hb.
    destruct (Nat.lt_total i j) as [L|[L|L]]; [|contradiction|].
    - exact (K i j s s' L Ei Ej a b Ha Hb).
    - apply unrelated_sym. exact (K j i s' s L Ej Ei b a Hb Ha).
  Qed.

  Lemma tstep_pending l m t l' m' t' : tstep l m t l' m' t' -> incl (pending t') (pending t) .
  Proof. intros H. destruct H; unfold pending; cbn [t_now t_todo]; intros a Ha; try exact Ha. now right. Qed.

  Lemma apart_step l m ts i t l' m' t' : apart ts -> nth_error ts i = Some t -> tstep l m t l' m' t' -> apart (set_nth i t' ts).
  Proof.
    intros A Hi S j1 j2 s1 s2 Nj H1 H2 a b Ha Hb. pose proof (tstep_pending _ _ _ _ _ _ S) as I.
    destruct (Nat.eq_dec i j1) as [<-|N1].
    - rewrite (nth_set_same i t t' ts Hi) in H1. injection H1 as <-.
      rewrite nth_set_other in H2 by assumption. apply (A i j2 t s2); auto.
    - rewrite nth_set_other in H1 by assumption. destruct (Nat.eq_dec i j2) as [<-|N2].
      + rewrite (nth_set_same i t t' ts Hi) in H2. injection H2 as <-. apply (A j1 i s1 t); auto.
      + rewrite nth_set_other in H2 by assumption. apply (A j1 j2 s1 s2); auto.
  Qed.

  (** ** No data race *)
  Definition reads_ok (t : thr N) : Prop :=
    match t_now t with Reading c _ rd _ => forall u f, In (u, f) rd -> In u (reads c) | _ => True end.
  Lemma reads_ok_step l m t l' m' t' : reads_ok t -> tstep l m t l' m' t' -> reads_ok t'.
  Proof.
    intros R S. destruct S; unfold reads_ok in *; cbn [t_now] in *; auto.
    - intros u f Hu. unfold to_read in Hu. apply in_prod_iff in Hu. tauto.
    - intros u' f' Hu. apply (R u' f'). rewrite in_app_iff in *. cbn. tauto.
  Qed.

  Definition good (c : conf N) : Prop :=
    apart (cf_thr c) /\ forall i t, nth_error (cf_thr c) i = Some t -> reads_ok t.
  Lemma good_step c c' : good c -> cstep c c' -> good c'.
  Proof.
    intros [A R] S. destruct S as [l m ts i t l' m' t' Hi S]. cbn [cf_thr] in *. split; [eapply apart_step; eassumption|].
    intros j s Hj. cbn [cf_thr] in Hj. destruct (Nat.eq_dec i j) as [<-|Nj].
    - rewrite (nth_set_same i t t' ts Hi) in Hj. injection Hj as <-. eapply reads_ok_step; [|exact S]. now apply (R i).
    - rewrite nth_set_other in Hj by assumption. now apply (R j).
  Qed.
  Lemma good_start (w : world N) ts : separate ts -> good (start w ts).
  Proof.
    intro S. split; [now apply separate_apart|]. intros i t Hi. cbn in Hi. rewrite nth_error_map in Hi.
    destruct (nth_error ts i); [|discriminate]. injection Hi as <-. exact I.
  Qed.
  Lemma good_no_race c : good c -> ~ race c.
  Proof.
    intros [A R] (i & j & t & t' & u & f & Nij & Hi & Hj & W & C).
    unfold may_write in W. destruct (t_now t) as [| |c0 x wr] eqn:Et; try contradiction. destruct W as [-> Hf].
    assert (P : In c0 (pending t)) by (unfold pending; rewrite Et; now left).
    destruct C as [C|C].
    - unfold may_read in C. destruct (t_now t') as [|c1 l1 rd buf|] eqn:Et'; try contradiction.
      assert (P' : In c1 (pending t')) by (unfold pending; rewrite Et'; now left).
      destruct (A i j t t' Nij Hi Hj c0 c1 P P') as (_ & U & _). apply U.
      specialize (R j t' Hj). unfold reads_ok in R. rewrite Et' in R. exact (R _ _ C).
    - unfold may_write in C. destruct (t_now t') as [| |c1 x1 wr1] eqn:Et'; try contradiction.
      assert (P' : In c1 (pending t')) by (unfold pending; rewrite Et'; now left).
      destruct (A i j t t' Nij Hi Hj c0 c1 P P') as (U & _). apply U. apply C.
  Qed.
  Lemma steps_good c c' : good c -> csteps c c' -> good c'.
  Proof. intros G S. induction S; [exact G|]. apply IHS. eapply good_step; eassumption. Qed.

  (** ** Every execution is one of the sequential ones *)
  (** What is known of a thread, given the state W of the sequential execution. *)
  Definition agrees (W : nat -> ureal N) (m : nat -> ureal N) (t : thr N) : Prop :=
    match t_now t with
    | Idle => True
    | Reading c l rd buf => exists g : nat -> ureal N,
        (forall u, In u (reads c) -> m u = g u) /\ m (writes c) = g (writes c) /\
        (forall u f, In u (reads c) -> ~ In (u, f) rd -> same_field f (buf u) (g u)) /\
        W (writes c) = match value_of l g c with Some x => x | None => g (writes c) end
    | Writing c x wr =>
        forall f, (In f wr -> same_field f x (W (writes c))) /\ (~ In f wr -> same_field f (m (writes c)) (W (writes c)))
    end.
  (** the variable being assigned *)
  Definition target (t : thr N) : option nat :=
    match t_now t with Idle => None | Reading c _ _ _ | Writing c _ _ => Some (writes c) end.

  Definition seq_last (w : world N) (cs : list (call N)) : world N := fold_left (fun w c => fst (exec w c)) cs w.

  Record sim (w0 : world N) (lin : list (call N)) (c : conf N) : Prop := {
    sim_last : cf_last c = w_last (seq_last w0 lin);
    sim_thr : forall i t, nth_error (cf_thr c) i = Some t -> agrees (w_var (seq_last w0 lin)) (cf_mem c) t;
    sim_mem : forall u, (forall i t, nth_error (cf_thr c) i = Some t -> target t <> Some u) ->
                cf_mem c u = w_var (seq_last w0 lin) u
  }.

  Lemma to_read_In (c : call N) u f : In u (reads c) -> In (u, f) (to_read c).
  Proof. intro H. unfold to_read. apply in_prod_iff. split; [exact H|]. destruct f; cbn; auto. Qed.

  Lemma write_fields_rest (c : call N) l buf f :
    ~ In f (write_fields c buf (snd (exec (mkW l buf) c))) -> forall g : nat -> ureal N,
    (forall u, In u (reads c) -> buf u = g u) -> snd (exec (mkW l buf) c) = snd (exec (mkW l g) c) ->
    same_field f (g (writes c)) (match value_of l g c with Some x => x | None => g (writes c) end).
  Proof.
    intros Hf g Hg Ho. unfold value_of. rewrite <- Ho. rewrite Ho in Hf.
    destruct (snd (exec (mkW l buf) c)) as [[]|e| |] eqn:E; try apply same_field_refl.
    rewrite <- Ho in Hf. unfold write_fields in Hf.
    destruct c; try (exfalso; apply Hf; destruct f; cbn; tauto); cbn [reads writes exec fst snd w_set w_var] in *; rewrite upd_same;
      rewrite (Hg v) in Hf by (now left); unfold u_s_caching, u_var_caching; cbn [fst snd];
      (destruct (0 <=? uid (g v))%Z; [apply same_field_refl|]); cbn [snd];
      (destruct (nltb (usdev (g v)) n0); [|apply same_field_refl]);
      (destruct f; try reflexivity; exfalso; apply Hf; cbn; tauto).
  Qed.

  Lemma sim_step w0 lin c c' : good c -> sim w0 lin c -> cstep c c' ->
    exists lin', sim w0 (lin ++ lin') c' /\
      (lin' = [] /\ map t_todo (cf_thr c') = map t_todo (cf_thr c) \/
       exists i t x cs, nth_error (cf_thr c) i = Some t /\ t_now t = Idle /\ t_todo t = x :: cs /\ lin' = [x] /\
         map t_todo (cf_thr c') = map t_todo (set_nth i (mkThr cs Idle) (cf_thr c))).
  Proof.
    intros [A R] [SL ST SM] S. destruct S as [l m ts i t l' m' t' Hi S]. cbn [cf_thr cf_last cf_mem] in *.
    pose proof (ST i t Hi) as Ai. 
    assert (Todo : forall t1, t_todo t1 = t_todo t -> map t_todo (set_nth i t1 ts) = map t_todo ts).
    { intros t1 E. clear -E Hi. revert i Hi. induction ts as [|a ts IH]; intros [|i] Hi; cbn in *; try discriminate.
      - injection Hi as <-. now rewrite E.
      - now rewrite IH. }
    assert (Others : forall j s, i <> j -> nth_error ts j = Some s -> forall c0 c1, In c0 (pending t) -> In c1 (pending s) ->
      unrelated c0 c1) by (intros j s Nj Hj; exact (A i j t s Nj Hi Hj)).
    set (W := seq_last w0 lin) in *.
    destruct S as [l m c cs|l m cs c l0 r1 u f r2 buf|l m cs c l0 buf|l m cs c x f1 f f2|l m cs c x].
    - (* begin *)
      exists [c]. split.
      2:{ right. exists i, (mkThr (c :: cs) Idle), c, cs. repeat split; auto.
          clear -Hi. revert i Hi. induction ts as [|a ts IH]; intros [|i] Hi; cbn in *; try discriminate; [reflexivity|].
          f_equal. now apply IH. }
      assert (EW : seq_last w0 (lin ++ [c]) = fst (exec W c)) by (unfold seq_last; rewrite fold_left_app; reflexivity).
      destruct (exec_shape W c) as (X1 & X2 & X3).
      assert (MW : forall u, u = writes c \/ In u (reads c) -> m u = w_var W u).
      { intros u Hu. apply SM. intros j s Hj. unfold target. destruct (Nat.eq_dec i j) as [<-|Nj].
        - rewrite Hi in Hj. injection Hj as <-. cbn. congruence.
        - destruct (t_now s) as [|c1 ? ? ?|c1 ? ?] eqn:Es; [congruence|..];
            (assert (P : In c1 (pending s)) by (unfold pending; rewrite Es; now left);
             destruct (Others j s Nj Hj c c1 (or_introl eq_refl) P) as (U1 & U2 & U3);
             intros [= E]; destruct Hu as [Hu|Hu]; subst; [congruence|contradiction]). }
      split; cbn [cf_last cf_thr cf_mem].
      + rewrite EW, X1, <- SL. reflexivity.
      + intros j s Hj. rewrite EW. destruct (Nat.eq_dec i j) as [<-|Nj].
        * rewrite (nth_set_same i _ _ ts Hi) in Hj. injection Hj as <-. unfold agrees. cbn [t_now].
          exists m. split; [reflexivity|]. split; [reflexivity|].
          split; [intros u f Hu Hn; exfalso; apply Hn; now apply to_read_In|].
          rewrite X3. destruct (value_local (w_last W) (w_var W) m c) as (V & _).
          { intros u Hu. symmetry. apply MW. auto. }
          rewrite V, SL, (MW (writes c)) by auto. reflexivity.
        * rewrite nth_set_other in Hj by assumption. pose proof (ST j s Hj) as Aj. unfold agrees in *.
          destruct (t_now s) as [|c1 l1 rd1 buf1|c1 x1 wr1] eqn:Es; [exact I|..];
            (assert (P : In c1 (pending s)) by (unfold pending; rewrite Es; now left);
             destruct (Others j s Nj Hj c c1 (or_introl eq_refl) P) as (U1 & U2 & U3);
             rewrite X2 by congruence; exact Aj).
      + intros u Hu. rewrite EW.
        assert (Nu : u <> writes c).
        { intro E. apply (Hu i _ (nth_set_same i _ _ ts Hi)). unfold target. cbn. now rewrite E. }
        rewrite X2 by assumption. apply SM. intros j s Hj. destruct (Nat.eq_dec i j) as [<-|Nj].
        * rewrite Hi in Hj. injection Hj as <-. unfold target. cbn. congruence.
        * apply (Hu j s). now rewrite nth_set_other.
    - (* read *)
      exists []. rewrite app_nil_r. split; [|left; split; [reflexivity|now apply Todo]].
      split; cbn [cf_last cf_thr cf_mem]; fold W; [exact SL| |].
      + intros j s Hj. destruct (Nat.eq_dec i j) as [<-|Nj].
        * rewrite (nth_set_same i _ _ ts Hi) in Hj. injection Hj as <-. unfold agrees in *. cbn [t_now] in *.
          destruct Ai as (g & G1 & G2 & G3 & G4). exists g. split; [exact G1|]. split; [exact G2|]. split; [|exact G4].
          intros u' f' Hu' Hn. destruct (Nat.eq_dec u u') as [<-|Nu].
          -- rewrite upd_same. destruct (field_dec f f') as [<-|Nf].
             ++ rewrite <- (G1 u Hu'). apply put_same.
             ++ eapply same_field_trans; [apply put_other; exact Nf|]. apply G3; [exact Hu'|].
                rewrite in_app_iff in *. cbn. intros [Y|[Y|Y]]; [tauto|congruence|tauto].
          -- rewrite upd_other by congruence. apply G3; [exact Hu'|].
             rewrite in_app_iff in *. cbn. intros [Y|[Y|Y]]; [tauto|congruence|tauto].
        * rewrite nth_set_other in Hj by assumption. exact (ST j s Hj).
      + intros v Hv. apply SM. intros j s Hj. destruct (Nat.eq_dec i j) as [<-|Nj].
        * rewrite Hi in Hj. injection Hj as <-. apply (Hv i _ (nth_set_same i _ _ ts Hi)).
        * apply (Hv j s). now rewrite nth_set_other.
    - (* compute *)
      exists []. rewrite app_nil_r. split; [|left; split; [reflexivity|now apply Todo]].
      split; cbn [cf_last cf_thr cf_mem]; fold W; [exact SL| |].
      + intros j s Hj. destruct (Nat.eq_dec i j) as [<-|Nj].
        * rewrite (nth_set_same i _ _ ts Hi) in Hj. injection Hj as <-. unfold agrees in *. cbn [t_now] in *.
          destruct Ai as (g & G1 & G2 & G3 & G4).
          assert (G5 : forall u, In u (reads c) -> buf u = g u).
          { intros u Hu. apply same_fields. intro f. apply G3; auto. }
          destruct (value_local l0 buf g c G5) as (V & O). intro f. split.
          -- intro Hf. rewrite G4, <- V. unfold value_of.
             destruct (snd (exec (mkW l0 buf) c)) eqn:E; [apply same_field_refl|..]; destruct Hf.
          -- intro Hf. rewrite G4, G2. exact (write_fields_rest c l0 buf f Hf g G5 O).
        * rewrite nth_set_other in Hj by assumption. exact (ST j s Hj).
      + intros v Hv. apply SM. intros j s Hj. destruct (Nat.eq_dec i j) as [<-|Nj].
        * rewrite Hi in Hj. injection Hj as <-. apply (Hv i _ (nth_set_same i _ _ ts Hi)).
        * apply (Hv j s). now rewrite nth_set_other.
    - (* write *)
      exists []. rewrite app_nil_r. split; [|left; split; [reflexivity|now apply Todo]].
      split; cbn [cf_last cf_thr cf_mem]; fold W; [exact SL| |].
      + intros j s Hj. destruct (Nat.eq_dec i j) as [<-|Nj].
        * rewrite (nth_set_same i _ _ ts Hi) in Hj. injection Hj as <-. unfold agrees in *. cbn [t_now] in *.
          intro f'. destruct (Ai f') as (B1 & B2). rewrite upd_same. split.
          -- intro Hf. apply B1. rewrite in_app_iff in *. cbn. tauto.
          -- intro Hf. destruct (field_dec f f') as [<-|Nf].
             ++ eapply same_field_trans; [apply put_same|]. apply B1. rewrite in_app_iff. cbn. tauto.
             ++ eapply same_field_trans; [apply put_other; exact Nf|]. apply B2. rewrite in_app_iff in *. cbn.
                intros [Y|[Y|Y]]; [tauto|congruence|tauto].
        * rewrite nth_set_other in Hj by assumption. pose proof (ST j s Hj) as Aj. unfold agrees in *.
          destruct (t_now s) as [|c1 l1 rd1 buf1|c1 x1 wr1] eqn:Es; [exact I|..];
            (assert (P : In c1 (pending s)) by (unfold pending; rewrite Es; now left);
             destruct (Others j s Nj Hj c c1 (or_introl eq_refl) P) as (U1 & U2 & U3)).
          -- destruct Aj as (g & G1 & G2 & G3 & G4). exists g. split; [|split; [|split; [exact G3|exact G4]]].
             ++ intros v Hv. rewrite upd_other; [now apply G1|]. intros ->. contradiction.
             ++ rewrite upd_other by congruence. exact G2.
          -- intro f'. rewrite upd_other by congruence. apply Aj.
      + intros v Hv. rewrite upd_other.
        2:{ intros ->. apply (Hv i _ (nth_set_same i _ _ ts Hi)). reflexivity. }
        apply SM. intros j s Hj. destruct (Nat.eq_dec i j) as [<-|Nj].
        * rewrite Hi in Hj. injection Hj as <-. apply (Hv i _ (nth_set_same i _ _ ts Hi)).
        * apply (Hv j s). now rewrite nth_set_other.
    - (* end *)
      exists []. rewrite app_nil_r. split; [|left; split; [reflexivity|now apply Todo]].
      split; cbn [cf_last cf_thr cf_mem]; fold W; [exact SL| |].
      + intros j s Hj. destruct (Nat.eq_dec i j) as [<-|Nj].
        * rewrite (nth_set_same i _ _ ts Hi) in Hj. injection Hj as <-. exact I.
        * rewrite nth_set_other in Hj by assumption. exact (ST j s Hj).
      + intros v Hv. destruct (Nat.eq_dec v (writes c)) as [->|Nv].
        * apply same_fields. intro f. unfold agrees in Ai. cbn [t_now] in Ai. apply Ai. intros [].
        * apply SM. intros j s Hj. destruct (Nat.eq_dec i j) as [<-|Nj].
          -- rewrite Hi in Hj. injection Hj as <-. unfold target. cbn. congruence.
          -- apply (Hv j s). now rewrite nth_set_other.
  Qed.

  Lemma sim_start (w : world N) ts : sim w [] (start w ts).
  Proof.
    split; cbn; [reflexivity| |reflexivity].
    intros i t Hi. rewrite nth_error_map in Hi. destruct (nth_error ts i); [|discriminate]. injection Hi as <-. exact I.
  Qed.

  (** ** The order of the calls *)
  Lemma reordered_app_l {A : Type} (ind : A -> A -> Prop) p l l' : reordered ind l l' -> reordered ind (p ++ l) (p ++ l').
  Proof.
    intro H. induction H.
    - apply reord_same.
    - rewrite !(app_assoc p). now apply reord_swap.
    - eapply reord_trans; eassumption.
  Qed.
  Lemma move_front {A : Type} (ind : A -> A -> Prop) x l : forall r, (forall a, In a l -> ind a x) ->
    reordered ind (l ++ x :: r) (x :: l ++ r).
  Proof.
    induction l as [|a l IH]; intros r H; cbn; [apply reord_same|].
    eapply reord_trans; [apply (reordered_app_l ind [a]), IH; intros b Hb; apply H; now right|].
    cbn. apply (reord_swap ind [] a x (l ++ r)). apply H. now left.
  Qed.

  Lemma todo_split ts : forall i (t : thr N) x cs, nth_error ts i = Some t -> t_todo t = x :: cs ->
    exists l r, concat (map t_todo ts) = l ++ x :: r /\ concat (map t_todo (set_nth i (mkThr cs Idle) ts)) = l ++ r /\
      forall a, In a l -> exists j s, j <> i /\ nth_error ts j = Some s /\ In a (t_todo s).
  Proof.
    induction ts as [|t0 ts IH]; intros [|i] t x cs Hi Ht; cbn in Hi; try discriminate.
    - injection Hi as <-. exists [], (cs ++ concat (map t_todo ts)). cbn [map concat set_nth t_todo]. rewrite Ht.
      repeat split. intros a [].
    - destruct (IH i t x cs Hi Ht) as (l & r & E1 & E2 & E3). exists (t_todo t0 ++ l), r. cbn [map concat set_nth].
      rewrite E1, E2, !app_assoc. repeat split. intros a Ha. apply in_app_iff in Ha as [Ha|Ha].
      + exists 0%nat, t0. cbn. repeat split; auto.
      + destruct (E3 a Ha) as (j & s & Nj & Hj & Hs). exists (S j), s. cbn. repeat split; auto.
  Qed.

  Lemma sim_steps w0 lin c c' : good c -> sim w0 lin c -> csteps c c' ->
    exists lin', sim w0 (lin ++ lin') c' /\
      reordered unrelated (concat (map t_todo (cf_thr c))) (lin' ++ concat (map t_todo (cf_thr c'))).
  Proof.
    intros G S H. revert lin G S. induction H as [c|c c1 c2 H1 H2 IH]; intros lin G S.
    - exists []. rewrite app_nil_r. split; [exact S|apply reord_same].
    - destruct (sim_step w0 lin c c1 G S H1) as (l1 & S1 & T).
      destruct (IH (lin ++ l1) (good_step c c1 G H1) S1) as (l2 & S2 & R2).
      exists (l1 ++ l2). rewrite app_assoc. split; [exact S2|].
      destruct T as [[-> T]|(i & t & x & cs & Hi & Ht & Hx & -> & T)].
      + rewrite <- T. exact R2.
      + rewrite T in R2. destruct (todo_split (cf_thr c) i t x cs Hi Hx) as (l & r & E1 & E2 & E3).
        rewrite E1. rewrite E2 in R2.
        eapply reord_trans; [apply move_front|].
        * intros a Ha. destruct (E3 a Ha) as (j & s & Nj & Hj & Hs). destruct G as [A _].
          apply (A j i s t Nj Hj Hi a x).
          -- unfold pending. destruct (t_now s); [exact Hs|now right|now right].
          -- unfold pending. rewrite Ht, Hx. now left.
        * cbn [app]. apply (reordered_app_l unrelated [x]). exact R2.
  Qed.

  Lemma seq_last_run cs : forall w w' : world N, run w cs = Ret w' -> seq_last w cs = w'.
  Proof.
    induction cs as [|c cs IH]; intros w w' H; cbn in *; [congruence|].
    destruct (exec w c) as [w1 [| | |]]; cbn [fst] in *; try discriminate; apply IH; exact H.
  Qed.

  Lemma finished_sim w0 lin c : finished c -> sim w0 lin c ->
    concat (map t_todo (cf_thr c)) = [] /\ cf_last c = w_last (seq_last w0 lin) /\
    forall u, cf_mem c u = w_var (seq_last w0 lin) u.
  Proof.
    intros F [SL _ SM]. split; [|split; [exact SL|]].
    - unfold finished in F. clear -F. induction F as [|t ts Ht _ IH]; [reflexivity|]. cbn. rewrite Ht. exact IH.
    - intro u. apply SM. intros i t Hi. unfold finished in F. rewrite Forall_forall in F.
      rewrite (F t (nth_error_In _ _ Hi)). cbn. congruence.
  Qed.
End Gen.

Lemma C69_no_data_race_proof : forall (N : Num) (w : world N) ts c, separate ts -> csteps (start w ts) c -> ~ race c.
Proof.
  intros N w ts c S H. apply good_no_race. eapply steps_good; [|exact H]. now apply good_start.
Qed.

Lemma C69_threads_proof : forall pre ts w0 c, legal (pre ++ concat ts) -> run w_init pre = Ret w0 -> separate ts ->
  csteps (start w0 ts) c -> finished c ->
  exists w p, run w_init (pre ++ concat ts) = Ret w /\ renaming (w_last w) p /\ cf_last c = w_last w /\
    forall u v, let x := w_var w u in let y := w_var w v in let x' := cf_mem c u in let y' := cf_mem c v in
      u_n x' = u_n x /\ u_s x' = u_s x /\ u_var x' = u_var x /\
      u_cov x' y' = u_cov x y /\ u_corr x' y' = u_corr x y /\ u_isindep x' = u_isindep x /\
      exists i, u_indepid x = Ret i /\ u_indepid x' = Ret (p i).
Proof.
  intros pre ts w0 c L R0 S H F.
  destruct (sim_steps w0 [] _ _ (good_start w0 ts S) (sim_start w0 ts) H) as (lin & Sm & Ro).
  cbn [app] in Sm. destruct (finished_sim w0 lin c F Sm) as (E & El & Em).
  rewrite E, app_nil_r in Ro. cbn [start cf_thr] in Ro. rewrite map_map in Ro. cbn [t_todo] in Ro. rewrite map_id in Ro.
  apply (reordered_app_l unrelated pre) in Ro.
  destruct (C59_order_of_calls_proof _ _ L Ro) as (L' & w & w' & p & Rw & Rw' & P & Ll & O).
  exists w, p. split; [exact Rw|]. split; [exact P|].
  assert (EW : seq_last w0 lin = w').
  { rewrite (run_app pre w_init w0 lin R0) in Rw'. now apply seq_last_run. }
  rewrite EW in El, Em. split; [congruence|]. intros u v. cbv zeta. rewrite !Em. apply O.
Qed.
