(** * OrderProofs3: what the order of unrelated calls changes in a UReal2 *)

From Coq Require Import List ZArith Bool Reals Lra Lia Permutation Sorted.
From Verif Require Import Base Num Map UReal World HessGrad Moments CheckMoments UReal2 World2 Sums SpecLin SpecObs
  URealFacts URealR URealProofs URealProofs2 HessProofs U2Facts U2World SpecU2 U2Values U2Ret SpecU2Run U2Proofs U2Proofs2
  SpecProb MomSums MomSpec MomCode MomProofs MomCov Demo Demo2 SpecOrder OrderProofs OrderProofs2.
Import ListNotations.
Local Open Scope R_scope.

(** ** Sums over renamed variables *)
Lemma rsum_map {A B : Type} (p : A -> B) (l : list A) f : rsum (map p l) f = rsum l (fun i => f (p i)).
Proof. induction l as [|a l IH]; cbn; [reflexivity|]. now rewrite IH. Qed.
Lemma rprod_map {A B : Type} (p : A -> B) (l : list A) f : rprod (map p l) f = rprod l (fun i => f (p i)).
Proof. induction l as [|a l IH]; cbn; [reflexivity|]. now rewrite IH. Qed.
Definition qren (p : Z -> Z) (a b : qform) : Prop :=
  (forall i, fst a i = fst b (p i)) /\ (forall i j, snd a i j = snd b (p i) (p j)).
Lemma qS_map p qs qs' L : Forall2 (qren p) qs qs' -> forall K, qS qs' (map p L) K = qS qs L (fun w => K (map p w)).
Proof.
  induction 1 as [|q q' qs qs' [G H] F IH]; intro K; cbn [qS]; [reflexivity|]. rewrite !rsum_map. f_equal.
  - apply rsum_ext. intros i _. rewrite G, IH. reflexivity.
  - apply rsum_ext. intros i _. rewrite rsum_map. apply rsum_ext. intros j _. rewrite H, IH. reflexivity.
Qed.
Lemma cnt_map p (w : list Z) i : (forall a b, p a = p b -> a = b) -> cnt (map p w) (p i) = cnt w i.
Proof.
  intro I. induction w as [|a w IH]; cbn; [reflexivity|]. destruct (Z.eq_dec (p a) (p i)) as [E|E], (Z.eq_dec a i) as [E'|E']; auto.
  - apply I in E. contradiction.
  - subst. contradiction.
Qed.
Lemma qS_ren p q qs qs' V V' (L L' : list Z) : (forall i, p (q i) = i /\ q (p i) = i) -> Forall2 (qren p) qs qs' ->
  NoDup L -> NoDup L' -> (forall i, In i L <-> In (p i) L') -> (forall i k, In i L -> V i k = V' (p i) k) ->
  qS qs L (mu V L) = qS qs' L' (mu V' L').
Proof.
  intros Q F ND ND' HI HV. assert (INJ : forall a b, p a = p b -> a = b) by (intros a b E; rewrite <- (proj2 (Q a)), <- (proj2 (Q b)); now rewrite E).
  assert (PE : Permutation (map p L) L').
  { apply NoDup_Permutation; [apply FinFun.Injective_map_NoDup; [exact INJ|exact ND]|exact ND'|]. intro i. rewrite in_map_iff. split.
    - intros (j & <- & Hj). now apply HI.
    - intro Hi. exists (q i). split; [apply Q|]. apply HI. now rewrite (proj1 (Q i)). }
  rewrite <- (qS_perm qs' (map p L) L' PE). rewrite (qS_map p qs qs' L F). apply qS_ext. intros w _ _. unfold mu.
  rewrite <- (rprod_perm _ _ _ PE), rprod_map. apply rprod_ext. intros i Hi. rewrite cnt_map by exact INJ. now apply HV.
Qed.

(** ** Queries *)
Section Queries.
  Variables (last last' : Z) (env env' : Z -> moms RN) (p q : Z -> Z).
  Hypothesis Q : forall i, p (q i) = i /\ q (p i) = i.

  Lemma ren_env x x' i : wf2 last env x -> wf2 last' env' x' -> vren p x x' -> j_dep (jet_of x) i -> env i = env' (p i).
  Proof.
    intros W W' [J M] Hi. destruct (momof_wf _ _ _ i W) as [[_ A]|(A & _)]; [contradiction|].
    destruct (momof_wf _ _ _ (p i) W') as [[_ B]|(B & _)]; [exfalso; apply B; now apply J|].
    specialize (M i). rewrite A, B in M. now injection M.
  Qed.
  Lemma ren_form x x' : vren p x x' -> qren p (j_g (jet_of x), j_h (jet_of x)) (j_g (jet_of x'), j_h (jet_of x')).
  Proof. intros [(_ & _ & G & H) _]. split; [exact G|exact H]. Qed.
  Lemma ren_pow k x x' : wf2 last env x -> wf2 last' env' x' -> vren p x x' ->
    qS (repeat (j_g (jet_of x), j_h (jet_of x)) k) (map fst (diagmap (u2hg x))) (mu (Vs env) (map fst (diagmap (u2hg x)))) =
    qS (repeat (j_g (jet_of x'), j_h (jet_of x')) k) (map fst (diagmap (u2hg x'))) (mu (Vs env') (map fst (diagmap (u2hg x')))).
  Proof.
    intros W W' HV. apply (qS_ren p q); [exact Q| |apply (sorted_keys_nodup _ (proj1 W))|apply (sorted_keys_nodup _ (proj1 W'))| |].
    - induction k; cbn [repeat]; constructor; [now apply ren_form|exact IHk].
    - apply (proj1 HV).
    - intros i n Hi. unfold Vs. now rewrite (ren_env x x' i W W' HV Hi).
  Qed.
  Lemma ren_mom x x' : wf2 last env x -> wf2 last' env' x' -> vren p x x' -> forall n, compute_mom (u2hg x) n = compute_mom (u2hg x') n.
  Proof.
    intros W W' HV n. unfold compute_mom.
    assert (MO : forall i d, In (i, d) (diagmap (u2hg x)) -> dmom d = Some (env i)) by (intros i d Hd; apply (proj2 W i d Hd)).
    assert (MO' : forall i d, In (i, d) (diagmap (u2hg x')) -> dmom d = Some (env' i)) by (intros i d Hd; apply (proj2 W' i d Hd)).
    rewrite (m1_ok x env (proj1 W)), (m1_ok x' env' (proj1 W')) by assumption.
    rewrite (m2_ok x env (proj1 W)), (m2_ok x' env' (proj1 W')) by assumption.
    rewrite (m3_ok x env (proj1 W)), (m3_ok x' env' (proj1 W')) by assumption.
    rewrite (m4_ok x env (proj1 W)), (m4_ok x' env' (proj1 W')) by assumption.
    rewrite !(fun k => ren_pow k x x' W W' HV). reflexivity.
  Qed.
  Lemma ren_m x x' : wf2 last env x -> wf2 last' env' x' -> vren p x x' -> forall n, u2_m x n = u2_m x' n.
  Proof. intros W W' HV n. unfold u2_m, update_mom. now rewrite !(ren_mom x x' W W' HV). Qed.

  Lemma ren_c2 x x' z z' : wf2 last env x -> wf2 last' env' x' -> vren p x x' ->
    wf2 last env z -> wf2 last' env' z' -> vren p z z' -> compute_c2 (u2hg x) (u2hg z) = compute_c2 (u2hg x') (u2hg z').
  Proof.
    intros W W' HV Wz Wz' HVz.
    destruct (c2_ok x z env (proj1 W) (proj1 Wz) (fun i d Hd => proj2 (proj2 W i d Hd))) as (L & SL & I1 & I2 & D & ->).
    destruct (c2_ok x' z' env' (proj1 W') (proj1 Wz') (fun i d Hd => proj2 (proj2 W' i d Hd))) as (L' & SL' & I1' & I2' & D' & ->).
    f_equal. apply (qS_ren p q); [exact Q| |now apply sorted_nodup|now apply sorted_nodup| |].
    - constructor; [now apply ren_form|]. constructor; [now apply ren_form|constructor].
    - intro i. split; intro Hi.
      + destruct (D i Hi) as [Hd|Hd]; [apply I1', (proj1 HV), Hd|apply I2', (proj1 HVz), Hd].
      + destruct (D' (p i) Hi) as [Hd|Hd]; [apply I1, (proj1 HV), Hd|apply I2, (proj1 HVz), Hd].
    - intros i k Hi. unfold Vs. destruct (D i Hi) as [Hd|Hd];
        [now rewrite (ren_env x x' i W W' HV Hd)|now rewrite (ren_env z z' i Wz Wz' HVz Hd)].
  Qed.

  Lemma ren_one x x' : hg_ok (u2hg x) -> hg_ok (u2hg x') -> jren p (jet_of x) (jet_of x') ->
    (exists i d d', diagmap (u2hg x) = [(i, d)] /\ diagmap (u2hg x') = [(p i, d')] /\ dgrad d = dgrad d' /\ dhh d = dhh d') \/
    ((hg_size (u2hg x) =? 1)%nat = false /\ (hg_size (u2hg x') =? 1)%nat = false).
  Proof.
    intros OK OK' (_ & HD & G & H).
    destruct (one_dep x OK) as [(i & d & D & _ & Di & Hu & Hg & Hh)|[Hs Hn]],
             (one_dep x' OK') as [(i' & d' & D' & _ & Di' & Hu' & Hg' & Hh')|[Hs' Hn']].
    - left. assert (i' = p i) by (symmetry; apply Hu', HD, Di). subst i'. exists i, d, d'. rewrite Hg, Hg', Hh, Hh', G, H. auto.
    - exfalso. apply Hn'. exists (p i). split; [now apply HD|]. intros k Hk. rewrite <- (proj1 (Q k)). f_equal. apply Hu, HD. now rewrite (proj1 (Q k)).
    - exfalso. apply Hn. exists (q i'). split; [apply HD; now rewrite (proj1 (Q i'))|]. intros k Hk. rewrite <- (proj2 (Q k)). f_equal. apply Hu', HD, Hk.
    - right. auto.
  Qed.
  Lemma ren_grad t t' x x' : hg_ok (u2hg x) -> hg_ok (u2hg x') -> jren p (jet_of x) (jet_of x') -> jren p (jet_of t) (jet_of t') ->
    u2_grad t x = u2_grad t' x'.
  Proof.
    intros OK OK' J (_ & _ & G & _). unfold u2_grad. destruct (ren_one x x' OK OK' J) as [(i & d & d' & D & D' & Hg & _)|[-> ->]]; [|reflexivity].
    unfold hg_size. rewrite D, D'. cbn [length Nat.eqb negb]. rewrite !get_dgrad. cbn [T RN] in *. now rewrite G, Hg.
  Qed.
  Lemma ren_hess t t' x x' y y' : hg_ok (u2hg x) -> hg_ok (u2hg x') -> jren p (jet_of x) (jet_of x') ->
    hg_ok (u2hg y) -> hg_ok (u2hg y') -> jren p (jet_of y) (jet_of y') -> jren p (jet_of t) (jet_of t') ->
    u2_hess t x y = u2_hess t' x' y'.
  Proof.
    intros OK OK' J Oy Oy' Jy (_ & _ & G & H). unfold u2_hess.
    destruct (ren_one x x' OK OK' J) as [(i & d & d' & D & D' & Hg & Hh)|[-> ->]]; [|reflexivity].
    destruct (ren_one y y' Oy Oy' Jy) as [(j & e & e' & E & E' & Kg & Kh)|[-> ->]]; [|now rewrite !orb_true_r].
    unfold hg_size. rewrite D, D', E, E'. cbn [length Nat.eqb negb orb].
    assert (EQ : (p i =? p j)%Z = (i =? j)%Z).
    { destruct (Z.eqb_spec i j) as [->|N]; [apply Z.eqb_refl|]. apply Z.eqb_neq. intro B. apply N.
      rewrite <- (proj2 (Q i)), <- (proj2 (Q j)). now rewrite B. }
    rewrite EQ, !get_hhess, !get_dgrad, Hg, Hh, Kg, Kh. cbn [bind]. now rewrite <- !H, <- G.
  Qed.
  Lemma ren_isindep x x' : hg_ok (u2hg x) -> hg_ok (u2hg x') -> jren p (jet_of x) (jet_of x') -> u2_isindep x = u2_isindep x'.
  Proof.
    intros OK OK' (_ & HD & _). assert (A := indep_single x OK). assert (B := indep_single x' OK').
    destruct (u2_isindep x), (u2_isindep x'); try reflexivity; exfalso.
    - assert (S : single (jet_of x')); [|apply B in S; discriminate]. intros i j Hi Hj. rewrite <- (proj1 (Q i)), <- (proj1 (Q j)). f_equal.
      apply A; [reflexivity| |]; apply HD; now rewrite (proj1 (Q _)).
    - assert (S : single (jet_of x)); [|apply A in S; discriminate]. intros i j Hi Hj. rewrite <- (proj2 (Q i)), <- (proj2 (Q j)). f_equal.
      apply B; [reflexivity| |]; now apply HD.
  Qed.
  Lemma ren_indepid x x' : (forall i, (i < 1)%Z -> p i = i) -> p invalid_id = invalid_id ->
    wf2 last env x -> wf2 last' env' x' -> jren p (jet_of x) (jet_of x') ->
    exists i, u2_indepid x = Ret i /\ u2_indepid x' = Ret (p i).
  Proof.
    intros P0 PI W W' (M & HD & GH). destruct (indepid_ok _ _ x W) as (i & E & Hi), (indepid_ok _ _ x' W') as (i' & E' & Hi').
    exists i. split; [exact E|]. rewrite E'. f_equal. apply (indepid_spec_unique (j_dep (jet_of x'))); [exact Hi'|].
    destruct Hi as [(-> & Hi)|[(Pi & Di & Hi)|(-> & Hi)]].
    - left. split; [apply P0; lia|]. intros k Hk. apply (Hi (q k)), HD. now rewrite (proj1 (Q k)).
    - right; left. assert (Dp : j_dep (jet_of x') (p i)) by now apply HD.
      split; [|split; [exact Dp|]].
      + destruct (momof_wf _ _ _ (p i) W') as [[_ N]|(_ & _ & B)]; [contradiction|lia].
      + intros k Hk. rewrite <- (proj1 (Q k)). f_equal. apply Hi, HD. now rewrite (proj1 (Q k)).
    - right; right. split; [exact PI|]. intro S. apply Hi. intros j k Hj Hk. rewrite <- (proj2 (Q j)), <- (proj2 (Q k)). f_equal.
      apply S; now apply HD.
  Qed.
End Queries.

(** ** Histories *)
Lemma count_new2_perm (cs cs' : list (call2 RN)) : Permutation cs cs' -> count_new2 cs = count_new2 cs'.
Proof.
  unfold count_new2. induction 1; cbn [filter]; auto; try congruence.
  - destruct (is_new2 x); cbn; congruence.
  - destruct (is_new2 x), (is_new2 y); reflexivity.
Qed.
Lemma legal2_reordered cs cs' : legal2 cs -> reordered (unrelated2 (N := RN)) cs cs' -> legal2 cs'.
Proof.
  intros (F & T & C) HR. assert (PE := reordered_perm _ _ _ HR). split; [eapply Permutation_Forall; eassumption|].
  split; [eapply Permutation_Forall; eassumption|]. now rewrite <- (count_new2_perm _ _ PE).
Qed.
Lemma covered_local g g' c : (only2 c -> forall u, In u (reads2 c) -> jet_eq (g u) (g' u)) -> jet_covered g c -> jet_covered g' c.
Proof.
  assert (S : forall a b, jet_eq a b -> single a -> single b) by (intros a b (_ & D & _) H i j Hi Hj; apply H; now apply D).
  assert (M : forall a b, jet_eq a b -> j_mean a = j_mean b) by (intros a b E; apply E).
  intro H. destruct c; cbn in *; auto; specialize (H I).
  - rewrite <- (M _ _ (H x (or_introl eq_refl))). intros [E|E]; [auto|right; revert E; apply S; auto].
  - rewrite <- (M _ _ (H x (or_introl eq_refl))), <- (M _ _ (H y (or_intror (or_introl eq_refl)))).
    intros [[E|E] [E'|E']]; (split; [try (left; exact E); right; revert E; apply S; auto|try (left; exact E'); right; revert E'; apply S; auto]).
  - rewrite <- (M _ _ (H x (or_introl eq_refl))). intros [E|E]; [auto|right; revert E; apply S; auto].
Qed.

Section Eig.
  Variable eig : list (list RN) -> option (list RN).

  (** Running a part of a history. *)
  Fixpoint after (w : world2 RN) (cs : list (call2 RN)) : world2 RN :=
    match cs with [] => w | c :: cs' => after (fst (exec2 eig w c)) cs' end.
  Lemma after_app l1 l2 : forall w, after w (l1 ++ l2) = after (after w l1) l2.
  Proof. induction l1; cbn; auto. Qed.
  Lemma covered_app l1 l2 : forall w, covered_run eig w (l1 ++ l2) <-> covered_run eig w l1 /\ covered_run eig (after w l1) l2.
  Proof. induction l1 as [|c l1 IH]; intro w; cbn; [tauto|]. rewrite IH. tauto. Qed.
  Lemma run2_after cs : forall env w, wwf2 env w -> List.Forall nary_ok2 cs -> List.Forall thr_number cs ->
    (w2_last w + Z.of_nat (count_new2 cs) < maxid)%Z -> run2 eig w cs = Ret (after w cs) /\ (exists env', wwf2 env' (after w cs)) /\
    (w2_last (after w cs) <= w2_last w + Z.of_nat (count_new2 cs))%Z.
  Proof.
    induction cs as [|c cs IH]; intros env w W F T B.
    - cbn. split; [reflexivity|]. split; [eauto|lia].
    - inversion F as [|? ? Fc Fcs]; subst. inversion T as [|? ? Tc Tcs]; subst. rewrite count_new2_cons in *.
      destruct (gen_exec2 Rltb_00 eig env w c W Fc Tc) as (env1 & W1 & _ & L1 & O & _); [destruct (is_new2 c); lia|].
      destruct (IH env1 _ W1 Fcs Tcs ltac:(lia)) as (E & W' & L').
      cbn [after run2]. split; [|split; [exact W'|lia]].
      destruct (exec2 eig w c) as [w1 o]. cbn [fst snd] in *. destruct O as [-> | [e ->]]; exact E.
  Qed.

  Lemma covered_frame w a b : unrelated2 a b -> jet_covered (fun v => jet_of (w2_var w v)) b <->
    jet_covered (fun v => jet_of (w2_var (fst (exec2 eig w a)) v)) b.
  Proof.
    intro U. assert (E : only2 b -> forall u, In u (reads2 b) -> w2_var (fst (exec2 eig w a)) u = w2_var w u).
    { intros Ob u Hu. assert (DEC : (exists c1, a = E1 c1) \/ only2 a) by (destruct a; [left; eauto|..]; right; exact I).
      destruct DEC as [(a1 & ->)|Oa]; [now rewrite exec2_frame1|]. apply exec2_frame; [exact Oa|].
      intros ->. revert Hu. now apply (unrelated_only a b). }
    split; apply covered_local; intros Ob u Hu; rewrite (E Ob u Hu); apply jet_eq_refl.
  Qed.

  Lemma reordered_run cs cs' : reordered (unrelated2 (N := RN)) cs cs' -> forall env w, wwf2 env w ->
    List.Forall nary_ok2 cs -> List.Forall thr_number cs -> (w2_last w + Z.of_nat (count_new2 cs) < maxid)%Z -> covered_run eig w cs ->
    (exists p, wren p (after w cs) (after w cs')) /\ covered_run eig w cs'.
  Proof.
    induction 1 as [l|l1 a b l2 U|l l' l'' H1 IH1 H2 IH2]; intros env w W F T B CR.
    - split; [exists (fun i => i); apply wren_refl|exact CR].
    - apply Forall_app in F as [F1 F2]. inversion F2 as [|? ? Fa F3]; subst. inversion F3 as [|? ? Fb F4]; subst.
      apply Forall_app in T as [T1 T2]. inversion T2 as [|? ? Ta T3]; subst. inversion T3 as [|? ? Tb T4]; subst.
      rewrite count_new2_app, Nat2Z.inj_add, !count_new2_cons in B.
      apply covered_app in CR as (C1 & Ca & Cb & C2). rewrite !after_app. cbn [after].
      destruct (run2_after l1 env w W F1 T1 ltac:(destruct (is_new2 a), (is_new2 b); lia)) as (_ & (env1 & W1) & L1). set (w1 := after w l1) in *.
      assert (B0 : (w2_last w1 + (if is_new2 a then 1 else 0) + (if is_new2 b then 1 else 0) < maxid)%Z) by (destruct (is_new2 a), (is_new2 b); lia).
      destruct (exec2_swap eig env1 w1 a b W1 Fa Ta Fb Tb B0 U) as (p & HS).
      destruct (gen_exec2 Rltb_00 eig env1 w1 a W1 Fa Ta) as (ea & Wa & _ & La & _); [destruct (is_new2 a), (is_new2 b); lia|].
      destruct (gen_exec2 Rltb_00 eig ea _ b Wa Fb Tb) as (eab & Wab & _ & Lab & _); [destruct (is_new2 a), (is_new2 b); lia|].
      destruct (gen_exec2 Rltb_00 eig env1 w1 b W1 Fb Tb) as (eb & Wb & _ & Lb & _); [destruct (is_new2 a), (is_new2 b); lia|].
      destruct (gen_exec2 Rltb_00 eig eb _ a Wb Fa Ta) as (eba & Wba & _ & Lba & _); [destruct (is_new2 a), (is_new2 b); lia|].
      assert (Bl : (w2_last (fst (exec2 eig (fst (exec2 eig w1 a)) b)) + Z.of_nat (count_new2 l2) < maxid)%Z) by (destruct (is_new2 a), (is_new2 b); lia).
      assert (Bl' : (w2_last (fst (exec2 eig (fst (exec2 eig w1 b)) a)) + Z.of_nat (count_new2 l2) < maxid)%Z) by (destruct (is_new2 a), (is_new2 b); lia).
      destruct (run2_after l2 _ _ Wab F4 T4 Bl) as (E & _). destruct (run2_after l2 _ _ Wba F4 T4 Bl') as (E' & _).
      destruct (wren_run eig p l2 _ _ _ _ Wab Wba HS F4 T4 Bl C2 _ _ E E') as [HW HC].
      split; [exists p; exact HW|]. apply covered_app. split; [exact C1|]. fold w1. cbn [covered_run].
      split; [|split; [|exact HC]].
      + now apply (covered_frame w1 a b U).
      + apply (covered_frame w1 b a (unrelated2_sym _ _ U)). exact Ca.
    - destruct (IH1 env w W F T B CR) as [(p & HP) C']. assert (PE := reordered_perm _ _ _ H1).
      destruct (IH2 env w W) as [(p' & HP') C''].
      + eapply Permutation_Forall; eassumption.
      + eapply Permutation_Forall; eassumption.
      + now rewrite <- (count_new2_perm _ _ PE).
      + exact C'.
      + split; [exists (fun i => p' (p i)); now apply (wren_trans p p' _ (after w l'))|exact C''].
  Qed.
End Eig.

Lemma C59_UReal2_partial_proof : forall eig (cs cs' : list (call2 RN)), legal2 cs -> covered_run eig w2_init cs ->
  reordered unrelated2 cs cs' ->
  legal2 cs' /\ covered_run eig w2_init cs' /\
  exists w w' p, run2 eig w2_init cs = Ret w /\ run2 eig w2_init cs' = Ret w' /\ renaming (w2_last w) p /\
    w2_last w = w2_last w' /\
    forall t u v, let z := w2_var w t in let x := w2_var w u in let y := w2_var w v in
      let z' := w2_var w' t in let x' := w2_var w' u in let y' := w2_var w' v in
      u2_first_order_n x' = u2_first_order_n x /\ (forall n, u2_m x' n = u2_m x n) /\
      (forall prop, u2_n prop x' = u2_n prop x) /\ u2_s x' = u2_s x /\ u2_skew x' = u2_skew x /\ u2_kurt x' = u2_kurt x /\
      u2_var x' = u2_var x /\ u2_cov x' y' = u2_cov x y /\ u2_corr x' y' = u2_corr x y /\
      u2_grad x' y' = u2_grad x y /\ u2_hess z' x' y' = u2_hess z x y /\ u2_isindep x' = u2_isindep x /\
      exists i, u2_indepid x = Ret i /\ u2_indepid x' = Ret (p i).
Proof.
  intros eig cs cs' L CR HR. assert (L' := legal2_reordered _ _ L HR). split; [exact L'|].
  destruct L as (F & T & C), L' as (F' & T' & C').
  apply max_new_lt in C. apply max_new_lt in C'.
  set (e0 := (fun _ => mkM n0 n0 n0 n0 n0 n0) : Z -> moms RN). assert (W0 : wwf2 e0 w2_init) by apply wwf2_init.
  assert (B : (w2_last (w2_init : world2 RN) + Z.of_nat (count_new2 cs) < maxid)%Z) by (cbn; lia).
  assert (B' : (w2_last (w2_init : world2 RN) + Z.of_nat (count_new2 cs') < maxid)%Z) by (cbn; lia).
  destruct (reordered_run eig cs cs' HR e0 w2_init W0 F T B CR) as [(p & HL & P & HV) CR'].
  split; [exact CR'|].
  destruct (run2_after eig cs e0 w2_init W0 F T B) as (E & (env & W) & Lw).
  destruct (run2_after eig cs' e0 w2_init W0 F' T' B') as (E' & (env' & W') & _).
  exists (after eig w2_init cs), (after eig w2_init cs'), p. split; [exact E|]. split; [exact E'|]. split; [exact P|]. split; [exact HL|].
  intros t u v z x y z' x' y'. assert (PP := P). destruct PP as ((q & Q) & Fx).
  assert (Wx := proj2 W u). assert (Wx' := proj2 W' u). assert (Wy := proj2 W v). assert (Wy' := proj2 W' v).
  assert (Vx := HV u). assert (Vy := HV v). assert (Vz := HV t).
  fold x in Wx, Vx. fold x' in Wx', Vx. fold y in Wy, Vy. fold y' in Wy', Vy. fold z in Vz. fold z' in Vz.
  assert (Mx := ren_m _ _ env env' p q Q x x' Wx Wx' Vx). assert (My := ren_m _ _ env env' p q Q y y' Wy Wy' Vy).
  assert (EM : u2mu x' = u2mu x) by (symmetry; apply (proj1 Vx)).
  assert (EC := ren_c2 _ _ env env' p q Q x x' y y' Wx Wx' Vx Wy Wy' Vy).
  assert (ECV : u2_cov x' y' = u2_cov x y) by (unfold u2_cov; now rewrite EC, Mx, My).
  assert (ESx : u2_s x' = u2_s x) by (unfold u2_s; now rewrite Mx). assert (ESy : u2_s y' = u2_s y) by (unfold u2_s; now rewrite My).
  split; [exact EM|]. split; [intro n; symmetry; apply Mx|].
  split; [intro prop; unfold u2_n; now rewrite Mx, EM|]. split; [exact ESx|].
  split; [unfold u2_skew; now rewrite ESx, !Mx|]. split; [unfold u2_kurt; now rewrite !Mx|].
  split; [unfold u2_var; now rewrite Mx|]. split; [exact ECV|].
  split; [unfold u2_corr; now rewrite ECV, ESx, ESy|].
  split; [symmetry; eapply (ren_grad p q Q); [apply Wy|apply Wy'|apply Vy|apply Vx]|].
  split; [symmetry; eapply (ren_hess p q Q); [apply Wx|apply Wx'|apply Vx|apply Wy|apply Wy'|apply Vy|apply Vz]|].
  split; [symmetry; eapply (ren_isindep p q Q); [apply Wx|apply Wx'|apply Vx]|].
  eapply (ren_indepid _ _ env env' p q Q x x'); [intros i Hi; apply Fx; lia|apply Fx; unfold invalid_id; lia|exact Wx|exact Wx'|apply Vx].
Qed.
