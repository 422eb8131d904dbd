(** * Alloc2Proofs2: histories with failed calls in which what a failed [v = x] left is not used *)

From Coq Require Import List ZArith Bool Sorted Arith Lia.
From Verif Require Import Base Num Map UReal World SpecOrder HessGrad Moments CheckMoments UReal2 World2 HessProofs U2Facts
  SpecObs URealFacts URealProofs URealProofs2 U2World U2Ret U2Values SpecU2 SpecU2Run U2Proofs Alloc SpecAlloc AllocProofs Alloc2 SpecAlloc2 Alloc2Proofs.
Import ListNotations.

Section Careful.
  Context {N : Num}.
  Hypothesis zero_not_neg : nltb (n0 : N) n0 = false.
  Variable eig : list (list N) -> option (list N).
  Variable L : libs N.
  Hypothesis G : good_libs L.

  (** A call sees only the variables it uses. *)
  Lemma exec2_local (w1 : world N) (g g' : nat -> ureal2 N) c : (forall u, In u (used2 c) -> g' u = g u) ->
    snd (exec2 eig (mkW2 w1 g') c) = snd (exec2 eig (mkW2 w1 g) c) /\
    w2_w (fst (exec2 eig (mkW2 w1 g') c)) = w2_w (fst (exec2 eig (mkW2 w1 g) c)) /\
    (forall u, w2_var (fst (exec2 eig (mkW2 w1 g') c)) u = w2_var (fst (exec2 eig (mkW2 w1 g) c)) u \/
      w2_var (fst (exec2 eig (mkW2 w1 g') c)) u = g' u /\ w2_var (fst (exec2 eig (mkW2 w1 g) c)) u = g u /\
      (snd (exec2 eig (mkW2 w1 g) c) = Ret tt -> (exists c', c = E1 c') \/ u <> writes2 c)).
  Proof.
    intro H.
    assert (A : forall w0 v o, (forall c', c <> E1 c') -> writes2 c = v ->
      snd (assign2 (mkW2 w0 g') v o) = snd (assign2 (mkW2 w0 g) v o) /\
      w2_w (fst (assign2 (mkW2 w0 g') v o)) = w2_w (fst (assign2 (mkW2 w0 g) v o)) /\
      (forall u, w2_var (fst (assign2 (mkW2 w0 g') v o)) u = w2_var (fst (assign2 (mkW2 w0 g) v o)) u \/
       w2_var (fst (assign2 (mkW2 w0 g') v o)) u = g' u /\ w2_var (fst (assign2 (mkW2 w0 g) v o)) u = g u /\
       (snd (assign2 (mkW2 w0 g) v o) = Ret tt -> (exists c', c = E1 c') \/ u <> writes2 c))).
    { intros w0 v o _ Hw. destruct o; cbn [assign2 fst snd w2_w w2_var]; (split; [reflexivity|split; [reflexivity|]]); intro u;
        try (right; split; [reflexivity|split; [reflexivity|discriminate]]).
      unfold upd2. destruct (Nat.eqb_spec u v); [now left|right]. split; [reflexivity|]. split; [reflexivity|]. right. congruence. }
    destruct c; unfold used2 in H; cbn [reads2] in H; cbn [exec2 w2_var w2_w w2_last set_last]; rewrite ?H by (cbn; auto);
      try (apply A; [discriminate|reflexivity]).
    - destruct (exec w1 c) as [w' o]. cbn. split; [reflexivity|]. split; [reflexivity|]. right. eauto.
    - change (w2_last (mkW2 w1 g')) with (w2_last (mkW2 w1 g)). destruct (u2_new eig (w2_last (mkW2 w1 g)) n m thr) as [l o].
      apply A; [discriminate|reflexivity].
    - change (w2_last (mkW2 w1 g')) with (w2_last (mkW2 w1 g)). destruct (u2_new_std eig (w2_last (mkW2 w1 g)) n s m thr) as [l o].
      apply A; [discriminate|reflexivity].
  Qed.

  Definition wfb (env : Z -> moms N) (bad : nat -> bool) (w : world2 N) : Prop :=
    wwf (w2_w w) /\ forall v, bad v = false -> wf2 (w2_last w) env (w2_var w v).

  Lemma exec2_wfb env bad w c : wfb env bad w -> nary_ok2 c -> thr_number c ->
    (w2_last w + (if is_new2 c then 1 else 0) < maxid)%Z -> (forall u, In u (used2 c) -> bad u = false) ->
    exists env', wfb env' (broken_after bad c (Some (snd (exec2 eig w c)))) (fst (exec2 eig w c)) /\
      (forall i, (i <= w2_last w)%Z -> env' i = env i) /\
      (w2_last w <= w2_last (fst (exec2 eig w c)) <= w2_last w + (if is_new2 c then 1 else 0))%Z /\
      (snd (exec2 eig w c) = Ret tt \/ exists e, snd (exec2 eig w c) = Throw e).
  Proof.
    intros [W1 W2] HN HT HB HU.
    set (g' := fun u => if bad u then u2_default else w2_var w u).
    assert (W' : wwf2 env (mkW2 (w2_w w) g')).
    { split; [exact W1|]. intro v. cbn [w2_var]. unfold g'. destruct (bad v) eqn:E; [apply wf2_empty|]. exact (W2 v E). }
    destruct (gen_exec2 zero_not_neg eig env (mkW2 (w2_w w) g') c W' HN HT HB) as (env' & [V1 V2] & E' & LL & O & _).
    destruct (exec2_local (w2_w w) (w2_var w) g' c) as (A & B & C).
    { intros u Hu. unfold g'. now rewrite (HU u Hu). }
    assert (Ew : mkW2 (w2_w w) (w2_var w) = w) by (destruct w; reflexivity). rewrite Ew in A, B, C.
    rewrite A in O. assert (BL : w2_last (fst (exec2 eig (mkW2 (w2_w w) g') c)) = w2_last (fst (exec2 eig w c))).
    { unfold w2_last. now rewrite B. }
    rewrite BL in LL. change (w2_last (mkW2 (w2_w w) g')) with (w2_last w) in LL, E'. exists env'. split; [|split; [exact E'|split; [exact LL|exact O]]].
    split; [rewrite <- B; exact V1|]. intros v Hv.
    destruct (C v) as [Ev|(Ev' & Ev & Hw)].
    - rewrite <- Ev, <- BL. apply V2.
    - rewrite Ev. assert (Bv : bad v = false).
      { destruct O as [O|[e O]]; rewrite O in Hv.
        - destruct (Hw O) as [[c' ->]|Nv]; [exact Hv|]. apply Nat.eqb_neq in Nv.
          destruct c; cbn [broken_after] in Hv; rewrite ?Nv in Hv; exact Hv.
        - destruct c; exact Hv. }
      eapply wf2_mono; [| |exact (W2 v Bv)]; [lia|exact E'].
  Qed.

  Lemma exec2_a_wfb env bad k w c : wfb env bad w -> nary_ok2 c -> thr_number c ->
    (w2_last w + (if is_new2 c then 1 else 0) < maxid)%Z -> (forall u, In u (used2 c) -> bad u = false) ->
    exists env', wfb env' (broken_after bad c (snd (exec2_a eig L k w c))) (fst (exec2_a eig L k w c)) /\
      (w2_last (fst (exec2_a eig L k w c)) <= w2_last w + (if is_new2 c then 1 else 0))%Z /\
      (snd (exec2_a eig L k w c) = None \/ snd (exec2_a eig L k w c) = Some (Ret tt) \/ exists e, snd (exec2_a eig L k w c) = Some (Throw e)).
  Proof.
    intros W HN HT HB HU. destruct (exec2_wfb env bad w c W HN HT HB HU) as (env' & [V1 V2] & E' & LL & O).
    destruct (exec2_a eig L k w c) as [w' [o|]] eqn:E; cbn [fst snd].
    - destruct (exec2_a_some eig L k w c w' o E) as (Eo & S1 & S2). rewrite Eo in V2, O.
      assert (Sl : w2_last w' = w2_last (fst (exec2 eig w c))) by (unfold w2_last; now rewrite S1).
      exists env'. split; [split; [rewrite <- S1; exact V1|]|].
      + intros v Hv. rewrite Sl, <- S2. now apply V2.
      + split; [lia|]. right. destruct O as [->|[e ->]]; [now left|right; eauto].
    - assert (F := exec2_a_none eig L k w w' c E). destruct W as [W1 W2].
      assert (Id : w' = w -> (broken_after bad c None = bad) -> exists env', wfb env' (broken_after bad c None) w' /\
        (w2_last w' <= w2_last w + (if is_new2 c then 1 else 0))%Z /\
        (@None (outcome unit) = None \/ @None (outcome unit) = Some (Ret tt) \/ exists e, @None (outcome unit) = Some (Throw e))).
      { intros -> ->. exists env. split; [split; assumption|]. split; [destruct (is_new2 c); lia|now left]. }
      assert (Nw : (forall u, w_var (w2_w w') u = w_var (w2_w w) u) /\ w2_last w' = w2_last (fst (exec2 eig w c)) /\ (forall u, w2_var w' u = w2_var w u) ->
        (broken_after bad c None = bad) -> exists env', wfb env' (broken_after bad c None) w' /\
        (w2_last w' <= w2_last w + (if is_new2 c then 1 else 0))%Z /\
        (@None (outcome unit) = None \/ @None (outcome unit) = Some (Ret tt) \/ exists e, @None (outcome unit) = Some (Throw e))).
      { intros (A & B & C) ->. exists env. split; [|split; [lia|now left]]. split.
        - destruct W1 as [P1 P2]. split; [fold (w2_last w'); fold (w2_last w) in P1; lia|]. intro u. rewrite A. eapply wf_mono; [|apply P2].
          fold (w2_last w'). fold (w2_last w). lia.
        - intros v Hv. rewrite C. eapply wf2_mono; [| |exact (W2 v Hv)]; [lia|auto]. }
      destruct c; try (apply Id; [exact F|reflexivity]); try (apply Nw; [exact F|reflexivity]).
      + destruct F as (F & Fv). exists env'. cbn [broken_after].
        destruct (exec_a_wwf zero_not_neg (lib_sigma L) k (w2_w w) c (proj1 G) W1 HN HB) as (X1 & X2 & _). rewrite F in X1, X2. cbn [fst] in X1, X2.
        split; [split; [exact X1|]|split; [exact X2|now left]].
        intros v Hv. rewrite Fv. apply exec_a_none in F as (F & _). unfold w2_last. rewrite F. eapply wf2_mono; [| |exact (W2 v Hv)]; [reflexivity|exact E'].
      + destruct F as (_ & Fw & Fv & _). exists env. cbn [broken_after]. unfold wfb, w2_last. rewrite Fw. split; [split; [exact W1|]|split; [cbn; lia|now left]].
        intros u Hu. apply orb_false_iff in Hu as [Hu Hb]. apply Nat.eqb_neq in Hu. rewrite (Fv u Hu). exact (W2 u Hb).
  Qed.

  Lemma run2_a_wfb cs : forall env bad w, wfb env bad w -> List.Forall nary_ok2 (map fst cs) -> List.Forall thr_number (map fst cs) ->
    (w2_last w + Z.of_nat (count_new2 (map fst cs)) < maxid)%Z -> careful eig L bad w cs ->
    exists env' w', run2_a eig L w cs = Ret w' /\ wfb env' (broken_by eig L bad w cs) w' /\ (w2_last w' < maxid)%Z.
  Proof.
    induction cs as [|[c k] cs IH]; intros env bad w W F T B C.
    - exists env, w. cbn in B. split; [reflexivity|]. split; [exact W|lia].
    - cbn [map fst] in F, T, B. inversion F as [|? ? Fc Fcs]; subst. inversion T as [|? ? Tc Tcs]; subst.
      rewrite count_new2_cons in B. cbn [careful] in C. destruct C as [C1 C2].
      destruct (exec2_a_wfb env bad k w c W Fc Tc) as (env1 & W1 & L1 & O); [lia|exact C1|].
      destruct (IH env1 _ _ W1 Fcs Tcs) as (env' & w' & Er & W' & L'); [lia|exact C2|].
      exists env', w'. cbn [run2_a broken_by]. destruct (exec2_a eig L k w c) as [w1 o]. cbn [fst snd] in *.
      split; [|split; [exact W'|exact L']]. destruct O as [->|[->|[e ->]]]; exact Er.
  Qed.
End Careful.

Lemma C80_no_undefined_behaviour_partial_proof : forall (N : Num) (eig : list (list N) -> option (list N)) (L : libs N) (cs : list (call2 N * nat)),
  nltb (n0 : N) n0 = false -> good_libs L -> legal2 (map fst cs) -> careful eig L none_broken w2_init cs ->
  exists w, run2_a eig L w2_init cs = Ret w /\
    forall u v, broken_by eig L none_broken w2_init cs u = false -> broken_by eig L none_broken w2_init cs v = false ->
    let x := w2_var w u in let y := w2_var w v in
    (forall n, (1 <= n <= 4)%Z -> exists m, u2_m x n = Ret m) /\
    (exists c, u2_cov x y = Ret c) /\
    (forall p, exists b, u2_all p x = Ret b) /\
    (forall f f1 f2, exists r, u2_unary x f f1 f2 = Ret r) /\
    (forall f fx fy fxx fyy fxy, exists r, u2_binary x y f fx fy fxx fyy fxy = Ret r).
Proof.
  intros N eig L cs Z0 G (F & T & C) K. apply max_new_lt in C.
  destruct (run2_a_wfb Z0 eig L G cs (fun _ => mkM n0 n0 n0 n0 n0 n0) none_broken w2_init) as (env & w & E & [_ W] & B).
  - destruct (wwf2_init (fun _ : Z => mkM n0 n0 n0 n0 n0 n0 : moms N)) as [A1 A2]. split; [exact A1|]. intros v _. apply A2.
  - exact F.
  - exact T.
  - cbn; lia.
  - exact K.
  - exists w. split; [exact E|]. intros u v Hu Hv x y.
    destruct (W u Hu) as [OKx _]. destruct (W v Hv) as [OKy _]. fold x in OKx. fold y in OKy.
    split; [intros n Hn; now apply u2_m_ret|]. split; [now apply u2_cov_ret|]. split; [intro p; now apply u2_all_ret|]. split.
    + intros f f1 f2. destruct (unary_wf2 _ _ x f f1 f2 (W u Hu)) as (r & Er & _). eauto.
    + intros. destruct (binary_wf2 _ _ x y f fx fy fxx fyy fxy (W u Hu) (W v Hv)) as (r & Er & _); [lia|]. eauto.
Qed.
