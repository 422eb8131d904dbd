(** * AllocProofs: proofs about calls that run out of memory *)

From Coq Require Import List ZArith Bool Reals Lra Lia.
From Verif Require Import Base Num Map UReal World Sums SpecLin SpecObs SpecOrder URealFacts URealR URealProofs URealProofs2
  Alloc SpecAlloc.
Import ListNotations.

Section Gen.
  Context {N : Num}.
  Local Open Scope num_scope.

  Lemma a_upd_some k i f (m z : list (Z * N)) k' : a_upd k i f m = (z, Some k') -> z = mupd n0 i f m.
  Proof.
    unfold a_upd. destruct (mfind i m); [congruence|]. destruct k; congruence.
  Qed.
  Lemma a_upd_none k i f (m z : list (Z * N)) : a_upd k i f m = (z, None) -> z = m /\ mfind i m = None.
  Proof.
    unfold a_upd. destruct (mfind i m); [congruence|]. destruct k; [|congruence]. intros [= <-]. auto.
  Qed.
  Lemma a_upd_ge k i f (m : list (Z * N)) : (1 <= k)%nat ->
    exists k', a_upd k i f m = (mupd n0 i f m, Some k') /\ (k <= S k')%nat.
  Proof.
    intro H. unfold a_upd. destruct (mfind i m); [exists k; split; [reflexivity|lia]|].
    destruct k; [lia|]. exists k; split; [reflexivity|lia].
  Qed.

  Lemma a_add_some s : forall k d (z z' : list (Z * N)) k',
    a_add_scaled k d s z = (z', Some k') -> z' = u_add_scaled d s z.
  Proof.
    induction s as [|[i c] s IH]; intros k d z z' k' H; cbn [a_add_scaled] in H.
    - injection H as <- _. reflexivity.
    - destruct (a_upd k i (fun p => p + d * c) z) as [z1 [k1|]] eqn:E; [|congruence].
      apply a_upd_some in E. subst z1. apply IH in H. exact H.
  Qed.
  Lemma a_add_ge s : forall k d (z : list (Z * N)), (length s <= k)%nat ->
    exists k', a_add_scaled k d s z = (u_add_scaled d s z, Some k').
  Proof.
    induction s as [|[i c] s IH]; intros k d z H; cbn [a_add_scaled].
    - exists k. reflexivity.
    - cbn in H. destruct (a_upd_ge k i (fun p => p + d * c) z) as (k1 & E & L); [lia|].
      rewrite E. apply IH. lia.
  Qed.
  (** A failed loop has processed a prefix of the map of x. *)
  Lemma a_add_none s : forall k d (z z' : list (Z * N)), msorted z -> a_add_scaled k d s z = (z', None) ->
    exists s1 j c s2, s = s1 ++ (j, c) :: s2 /\ z' = u_add_scaled d s1 z /\ mfind j z' = None.
  Proof.
    induction s as [|[i c] s IH]; intros k d z z' Sz H; cbn [a_add_scaled] in H; [congruence|].
    destruct (a_upd k i (fun p => p + d * c) z) as [z1 [k1|]] eqn:E.
    - apply a_upd_some in E. subst z1.
      destruct (IH k1 d _ z' (msorted_mupd n0 i _ z Sz) H) as (s1 & j & c' & s2 & -> & -> & F).
      exists ((i, c) :: s1), j, c', s2. auto.
    - apply a_upd_none in E as [-> F]. injection H as <-. exists [], i, c, s. auto.
  Qed.

  Lemma a_assign_some k al (t x : ureal N) mu dt dx z k' :
    a_assign_gen k al t x mu dt dx = (z, Some k') -> z = u_assign_gen al t x mu dt dx.
  Proof.
    unfold a_assign_gen, u_assign_gen. destruct al; [congruence|].
    unfold a_binary_assign, u_binary_assign.
    set (q := if (0 <? uid t)%Z then a_upd _ _ _ _ else _).
    assert (Q : forall s0 k0, q = (s0, Some k0) ->
      s0 = if (0 <? uid t)%Z then mset (uid t) (usdev t) (usigma t) else usigma t).
    { intros s0 k0. unfold q. destruct (0 <? uid t)%Z; [|congruence].
      intro E. apply a_upd_some in E. exact E. }
    destruct q as [s0 [k0|]]; [|congruence]. rewrite <- (Q s0 k0 eq_refl). clear Q.
    set (s1 := if negb (dt =? n1) then _ else _).
    set (p := if (0 <? uid x)%Z then a_upd _ _ _ _ else _).
    assert (P : forall s2 k2, p = (s2, Some k2) ->
      s2 = if (0 <? uid x)%Z then mupd n0 (uid x) (fun p => p + dx * usdev x) s1
           else if (uid x <? 0)%Z then u_add_scaled dx (usigma x) s1 else s1).
    { intros s2 k2. unfold p. destruct (0 <? uid x)%Z; [apply a_upd_some|].
      destruct (uid x <? 0)%Z; [apply a_add_some|congruence]. }
    destruct p as [s2 [k2|]]; [|congruence]. rewrite <- (P s2 k2 eq_refl). congruence.
  Qed.
  Lemma a_assign_ge k al (t x : ureal N) mu dt dx : (S (S (length (usigma x))) <= k)%nat ->
    exists k', a_assign_gen k al t x mu dt dx = (u_assign_gen al t x mu dt dx, Some k').
  Proof.
    intro H. assert (K : exists z k', a_assign_gen k al t x mu dt dx = (z, Some k')).
    2:{ destruct K as (z & k' & E). exists k'. rewrite E. f_equal. exact (a_assign_some _ _ _ _ _ _ _ _ _ E). }
    unfold a_assign_gen. destruct al; [eauto|]. unfold a_binary_assign.
    assert (Q : exists s0 k0, (if (0 <? uid t)%Z then a_upd k (uid t) (fun _ => usdev t) (usigma t)
           else (usigma t, Some k)) = (s0, Some k0) /\ (k <= S k0)%nat).
    { destruct (0 <? uid t)%Z; [|exists (usigma t), k; split; [reflexivity|lia]].
      destruct (a_upd_ge k (uid t) (fun _ => usdev t) (usigma t)) as (k0 & E & L); [lia|]. eauto. }
    destruct Q as (s0 & k0 & -> & L0).
    set (s1 := if negb (dt =? n1) then _ else _). clearbody s1.
    destruct (0 <? uid x)%Z.
    - destruct (a_upd_ge k0 (uid x) (fun p => p + dx * usdev x) s1) as (k2 & -> & _); [lia|]. eauto.
    - destruct (uid x <? 0)%Z; [|eauto].
      destruct (a_add_ge (usigma x) k0 dx s1) as (k2 & ->); [lia|]. eauto.
  Qed.

  Lemma a_result_some k (w : world N) v o w' r : a_result k w v o = (w', Some r) -> assign_result w v o = (w', r).
  Proof.
    unfold a_result. destruct (a_nodes o <=? k)%nat; [|congruence].
    destruct (assign_result w v o). congruence.
  Qed.
  Lemma a_result_none k (w : world N) v o w' : a_result k w v o = (w', None) -> w' = w.
  Proof.
    unfold a_result. destruct (a_nodes o <=? k)%nat; [|congruence].
    destruct (assign_result w v o). congruence.
  Qed.
  Lemma a_result_ge k (w : world N) v o : (a_nodes o <= k)%nat ->
    a_result k w v o = (fst (assign_result w v o), Some (snd (assign_result w v o))).
  Proof.
    intro H. unfold a_result. apply Nat.leb_le in H. rewrite H. now destruct (assign_result w v o).
  Qed.
  Lemma a_store_some (w : world N) v r w' o : a_store w v r = (w', Some o) ->
    exists z k, r = (z, Some k) /\ w' = w_set w v z /\ o = Ret tt.
  Proof.
    unfold a_store. destruct r as [z [k|]]; cbn; intros [= <- <-]. eauto.
  Qed.
  Lemma copy_some L k al (t x z : ureal N) k' : a_copy_assign L k al t x = (z, Some k') ->
    z = if al then t else x.
  Proof. unfold a_copy_assign. destruct al; [congruence|]. destruct (_ <=? _)%nat; congruence. Qed.

  (** What a call that succeeds does is what exec says. *)
  Lemma exec_a_some L k (w : world N) c w' o : exec_a L k w c = (w', Some o) -> exec w c = (w', o).
  Proof.
    destruct c; cbn [exec_a];
      try (intro H; apply a_result_some in H; exact H);
      try (destruct (exec w _) as [w1 o1]; congruence);
      intro H; apply a_store_some in H as (z & k2 & E & -> & ->);
      try (apply a_assign_some in E; subst z; reflexivity).
    apply copy_some in E. subst z. cbn [exec]. destruct (Nat.eqb_spec v x); [subst|]; reflexivity.
  Qed.
  Lemma exec_a_ge L (w : world N) c : good_map_lib L ->
    exists n, forall k, (n <= k)%nat -> exec_a L k w c = (fst (exec w c), Some (snd (exec w c))).
  Proof.
    intro G.
    assert (R : forall v o, exists n, forall k, (n <= k)%nat ->
      a_result k w v o = (fst (assign_result w v o), Some (snd (assign_result w v o)))).
    { intros v o. exists (a_nodes o). intro k. apply a_result_ge. }
    assert (A : forall v x mu dt dx, exists n, forall k, (n <= k)%nat ->
      a_store w v (a_assign_gen k (Nat.eqb v x) (w_var w v) (w_var w x) mu dt dx)
      = (w_set w v (u_assign_gen (Nat.eqb v x) (w_var w v) (w_var w x) mu dt dx), Some (Ret tt))).
    { intros v x mu dt dx. exists (S (S (length (usigma (w_var w x))))). intros k H.
      destruct (a_assign_ge k (Nat.eqb v x) (w_var w v) (w_var w x) mu dt dx H) as (k' & ->). reflexivity. }
    destruct c; try (exists 0%nat; intros k _; cbn [exec_a]; destruct (exec w _); reflexivity);
      try (apply A); try (exact (R _ _)).
    exists (length (usigma (w_var w x))). intros k H. cbn [exec_a exec fst snd]. unfold a_copy_assign.
    destruct (Nat.eqb_spec v x); [subst; reflexivity|].
    destruct (G (usigma (w_var w v)) (usigma (w_var w x))) as (C & _).
    destruct (Nat.leb_spec (cp_count L (usigma (w_var w v)) (usigma (w_var w x))) k); [reflexivity|lia].
  Qed.
  Lemma a_store_none (w : world N) v r w' : a_store w v r = (w', None) ->
    exists z, r = (z, None) /\ w' = w_set w v z.
  Proof. unfold a_store. destruct r as [z [k|]]; cbn; intros [= <-]. eauto. Qed.

  Lemma exec_a_none L k (w : world N) c w' : exec_a L k w c = (w', None) ->
    w_last w' = w_last w /\ (forall u, u <> writes c -> w_var w' u = w_var w u) /\
    (in_place c = false -> w' = w).
  Proof.
    assert (R : forall v o, a_result k w v o = (w', None) ->
      w_last w' = w_last w /\ (forall u, u <> v -> w_var w' u = w_var w u) /\ (in_place c = false -> w' = w)).
    { intros v o H. apply a_result_none in H. subst w'. auto. }
    assert (S : forall v r, a_store w v r = (w', None) -> in_place c = true ->
      w_last w' = w_last w /\ (forall u, u <> v -> w_var w' u = w_var w u) /\ (in_place c = false -> w' = w)).
    { intros v r H I. apply a_store_none in H as (z & -> & ->). split; [reflexivity|]. split; [|congruence].
      intros u Hu. cbn. unfold upd. destruct (Nat.eqb_spec u v); [contradiction|reflexivity]. }
    destruct c; cbn [exec_a writes]; intro H;
      try (exact (R _ _ H)); try (exact (S _ _ H eq_refl));
      destruct (exec w _); congruence.
  Qed.
End Gen.

Lemma C68_enough_memory_proof : forall (N : Num) (L : map_lib N) (w : world N) (c : call N), good_map_lib L ->
  (forall k w' o, exec_a L k w c = (w', Some o) -> exec w c = (w', o)) /\
  exists n, forall k, (n <= k)%nat -> exec_a L k w c = (fst (exec w c), Some (snd (exec w c))).
Proof.
  intros N L w c G. split; [|now apply exec_a_ge]. intros k w' o. apply exec_a_some.
Qed.
Lemma C68_failed_call_no_effect_proof : forall (N : Num) (L : map_lib N) k (w w' : world N) (c : call N),
  exec_a L k w c = (w', None) ->
  w_last w' = w_last w /\ (forall u, u <> writes c -> w_var w' u = w_var w u) /\
  (in_place c = false -> forall u, w_var w' u = w_var w u).
Proof.
  intros N L k w w' c H. destruct (exec_a_none L k w c w' H) as (A & B & C). split; [exact A|]. split; [exact B|].
  intro I. now rewrite (C I).
Qed.

(** ** No undefined behaviour after failures *)
Ltac idcase x :=
  destruct (Z.ltb_spec 0 (uid x)); destruct (Z.ltb_spec (uid x) 0);
  destruct (Z.leb_spec 0 (uid x)); try lia.

Section Gen2.
  Context {N : Num}.
  Local Open Scope num_scope.
  Hypothesis n0_irrefl : nltb (n0 : N) n0 = false.

  Lemma add_scaled_keys' d (s z : list (Z * N)) i : In i (map fst (u_add_scaled d s z)) ->
    In i (map fst z) \/ In i (map fst s).
  Proof. rewrite add_scaled_keys. tauto. Qed.

  Lemma assign_none_shape k (t x : ureal N) mu dt dx z last : wf last t -> wf last x ->
    a_binary_assign k t x mu dt dx = (z, None) ->
    z = t \/
    exists j s2, z = mkU invalid_id (usdev t) (umu t) s2 /\ msorted s2 /\
      ufind j x <> None /\ ufind j t = None /\
      forall i, mfind i s2 = comb2a dt dx (ufind i t) (if Z_lt_dec i j then ufind i x else None).
  Proof.
    intros Wt Wx. unfold a_binary_assign.
    assert (St := wf_sorted _ _ Wt). assert (Sx := wf_sorted _ _ Wx).
    set (q := if (0 <? uid t)%Z then a_upd _ _ _ _ else _).
    assert (Q : (exists s0 k0, q = (s0, Some k0) /\ msorted s0 /\ forall i, mfind i s0 = ufind i t) \/
                q = (usigma t, None)).
    { unfold q, ufind. idcase t.
      - rewrite (wf_nonneg _ _ Wt) by lia. unfold a_upd. cbn [mfind].
        destruct k; [now right|left]. eexists _, _. split; [reflexivity|]. split; [msort; apply msorted_nil|].
        intro i. unfold mupd. cbn [mset]. apply single_find.
      - left. exists (usigma t), k. auto.
      - left. exists (usigma t), k. rewrite (wf_nonneg _ _ Wt) by lia. repeat split; auto. apply msorted_nil. }
    destruct Q as [(s0 & k0 & -> & S0 & F0)| ->]; [|intros [= <-]; left; destruct t; reflexivity].
    set (s1 := if negb (dt =? n1) then _ else _).
    assert (S1 : msorted s1) by (unfold s1; destruct (negb _); [now apply msorted_mmap|assumption]).
    assert (F1 : forall i, mfind i s1 = option_map (scale_own dt) (ufind i t)).
    { intro i. unfold s1, scale_own. destruct (negb _).
      - rewrite mfind_mmap, F0. reflexivity.
      - rewrite F0. destruct (ufind i t); reflexivity. }
    clearbody s1.
    intro H. right.
    assert (F1n : forall j, mfind j s1 = None -> ufind j t = None).
    { intros j E. rewrite F1 in E. destruct (ufind j t); [discriminate E|reflexivity]. }
    revert H. unfold ufind at 1 4. idcase x.
    - destruct (a_upd k0 (uid x) (fun p => p + dx * usdev x) s1) as [s2 [k2|]] eqn:E; [congruence|].
      apply a_upd_none in E as [-> E]. intros [= <-]. exists (uid x), s1.
      split; [reflexivity|]. split; [exact S1|]. rewrite Z.eqb_refl. split; [congruence|]. split; [auto|].
      intro i. rewrite F1. destruct (Z_lt_dec i (uid x)) as [Hl|Hl].
      + destruct (Z.eqb_spec i (uid x)); [lia|]. destruct (ufind i t); reflexivity.
      + destruct (ufind i t); reflexivity.
    - destruct (a_add_scaled k0 dx (usigma x) s1) as [s2 [k2|]] eqn:E; [congruence|].
      apply a_add_none in E as (p & j & c & r & Ex & E2 & E3); [|assumption]. intros [= <-]. exists j, s2.
      rewrite Ex in Sx.
      assert (K : (forall i, In i (map fst p) -> (i < j)%Z) /\ (forall i, In i (map fst ((j, c) :: r)) -> (j <= i)%Z) /\
                  msorted p).
      { clear -Sx. induction p as [|[i a] p IH]; cbn [app] in *.
        - split; [intros i []|]. split; [|apply msorted_nil]. apply msorted_inv in Sx as [_ L].
          intros i [<-|H]; [cbn; lia|]. apply L in H. rewrite klt_Z in H. lia.
        - assert (S := Sx). apply msorted_inv in S as [S L]. destruct (IH S) as (A & B & C).
          repeat split.
          + intros i' [<-|H]; [|auto]. cbn. rewrite <- klt_Z. apply L. rewrite map_app, in_app_iff. right. now left.
          + exact B.
          + constructor; [exact C|]. apply Forall_forall. intros k Hk. apply L. rewrite map_app, in_app_iff. now left. }
      destruct K as (K1 & K2 & Sp).
      assert (Fj : mfind j s1 = None).
      { rewrite E2, add_scaled_find in E3 by assumption. destruct (mfind j p); [discriminate E3|].
        exact E3. }
      split; [reflexivity|].
      split; [rewrite E2; now apply add_scaled_sorted|].
      split.
      { rewrite Ex. rewrite (In_mfind j c); [congruence|assumption|]. apply in_app_iff. right. now left. }
      split; [auto|].
      intro i. rewrite E2, add_scaled_find by assumption. unfold mget. rewrite F1.
      assert (Fp : mfind i p = if Z_lt_dec i j then mfind i (usigma x) else None).
      { destruct (Z_lt_dec i j) as [Hl|Hl].
        - destruct (mfind i p) eqn:Ep.
          + symmetry. apply mfind_In in Ep. rewrite Ex. apply In_mfind; [assumption|]. apply in_app_iff. now left.
          + symmetry. rewrite Ex. apply mfind_None_iff; [assumption|]. rewrite map_app, in_app_iff. intros [Y|Y].
            * apply mfind_None_iff in Ep; [contradiction|assumption].
            * apply K2 in Y. lia.
        - apply mfind_None_iff; [assumption|]. intro Y. apply K1 in Y. lia. }
      rewrite Fp. destruct (ufind i t), (if Z_lt_dec i j then mfind i (usigma x) else None); reflexivity.
    - congruence.
  Qed.

  Lemma assign_none_wf k (t x : ureal N) mu dt dx z last : wf last t -> wf last x ->
    a_binary_assign k t x mu dt dx = (z, None) -> wf last z.
  Proof.
    intros Wt Wx H. apply (assign_none_shape k t x mu dt dx z last Wt Wx) in H as [-> |(j & s2 & -> & S & _ & _ & F)]; [exact Wt|].
    apply wf_dep; [exact S|]. intros i Hi. rewrite F in Hi.
    destruct (ufind i t) eqn:E; [apply (ufind_bound last t i Wt); congruence|].
    destruct (Z_lt_dec i j); [|cbn in Hi; congruence].
    destruct (ufind i x) eqn:Ex; [apply (ufind_bound last x i Wx); congruence|cbn in Hi; congruence].
  Qed.

  Lemma copy_none_wf L k al (t x z : ureal N) last : good_map_lib L -> wf last t -> wf last x ->
    a_copy_assign L k al t x = (z, None) -> wf last z.
  Proof.
    intros G Wt Wx. unfold a_copy_assign. destruct al; [congruence|].
    destruct (Nat.leb_spec (cp_count L (usigma t) (usigma x)) k) as [Hl|Hl]; [congruence|]. intros [= <-].
    destruct (G (usigma t) (usigma x)) as (C & _ & G2).
    destruct (Z_lt_dec (uid x) 0) as [Hx|Hx].
    2:{ rewrite (wf_nonneg _ _ Wx) in C, Hl by lia. cbn in C. lia. }
    destruct (G2 (wf_sorted _ _ Wt) (wf_sorted _ _ Wx) k) as (S & K).
    rewrite (wf_neg _ _ Wx Hx). apply wf_dep; [exact S|].
    intros i Hi. assert (Hin : In i (map fst (cp_left L (usigma t) (usigma x) k))).
    { destruct (in_dec Z.eq_dec i (map fst (cp_left L (usigma t) (usigma x) k))) as [Y|Y]; [exact Y|].
      apply (mfind_None_iff i _ S) in Y. contradiction. }
    destruct (K i Hin) as [Y|Y].
    - apply (wf_bound _ _ Wt). destruct (Z_lt_dec (uid t) 0) as [Ht|Ht].
      + now rewrite ukeys_neg.
      + rewrite (wf_nonneg _ _ Wt) in Y by lia. destruct Y.
    - apply (wf_bound _ _ Wx). now rewrite ukeys_neg.
  Qed.

  Lemma exec_a_wwf L k (w : world N) c : good_map_lib L -> wwf w -> nary_ok c ->
    (w_last w + (if is_new c then 1 else 0) < maxid)%Z ->
    wwf (fst (exec_a L k w c)) /\ (w_last (fst (exec_a L k w c)) <= w_last w + (if is_new c then 1 else 0))%Z /\
    (snd (exec_a L k w c) = None \/ snd (exec_a L k w c) = Some (Ret tt) \/
     snd (exec_a L k w c) = Some (Throw InvalidArgument)).
  Proof.
    intros G W HN HB. destruct (exec_a L k w c) as [w' [o|]] eqn:E; cbn [fst snd].
    - apply exec_a_some in E. destruct (gen_exec n0_irrefl w c W HN HB) as (A & B & C).
      rewrite E in A, B, C. cbn [fst snd] in A, B, C. split; [exact A|]. split; [lia|].
      destruct C as [-> | ->]; auto.
    - split; [|split; [apply exec_a_none in E as (-> & _); destruct (is_new c); lia|auto]].
      destruct (in_place c) eqn:Ip; [|apply exec_a_none in E as (_ & _ & ->); auto].
      assert (A : forall v x mu dt dx, a_store w v (a_assign_gen k (Nat.eqb v x) (w_var w v) (w_var w x) mu dt dx) = (w', None) ->
        wwf w').
      { intros v x mu dt dx H. apply a_store_none in H as (z & H & ->). apply wwf_set; [exact W|].
        unfold a_assign_gen in H. destruct (Nat.eqb v x); [congruence|].
        destruct W as [_ W]. exact (assign_none_wf k _ _ _ _ _ z _ (W v) (W x) H). }
      destruct c; try discriminate Ip; cbn [exec_a] in E; try (exact (A _ _ _ _ _ E)).
      apply a_store_none in E as (z & H & ->). apply wwf_set; [exact W|]. destruct W as [_ W].
      exact (copy_none_wf L k _ _ _ z _ G (W v) (W x) H).
  Qed.

  Lemma run_a_wwf L cs : good_map_lib L -> forall w : world N, wwf w -> Forall nary_ok (map fst cs) ->
    (w_last w + Z.of_nat (count_new (map fst cs)) < maxid)%Z ->
    exists w', run_a L w cs = Ret w' /\ wwf w' /\ (w_last w' < maxid)%Z.
  Proof.
    intro G. induction cs as [|[c k] cs IH]; intros w W F B.
    - exists w. cbn in B. split; [reflexivity|]. split; [exact W|lia].
    - cbn [map fst] in F, B. inversion F as [|? ? Fc Fcs]; subst.
      assert (C : Z.of_nat (count_new (c :: map fst cs))
                  = ((if is_new c then 1 else 0) + Z.of_nat (count_new (map fst cs)))%Z).
      { unfold count_new. cbn [filter]. destruct (is_new c); cbn [length]; lia. }
      rewrite C in *.
      destruct (exec_a_wwf L k w c G W Fc) as (W1 & L1 & O); [destruct (is_new c); lia|].
      destruct (IH (fst (exec_a L k w c)) W1 Fcs) as (w' & Er & W' & L'); [lia|].
      exists w'. cbn [run_a]. destruct (exec_a L k w c) as [w1 o]. cbn [fst snd] in *.
      split; [|split; [exact W'|exact L']]. destruct O as [-> |[-> | ->]]; exact Er.
  Qed.
End Gen2.

Lemma C68_no_undefined_behaviour_proof : forall (N : Num), nltb (n0 : N) n0 = false ->
  forall (L : map_lib N) (cs : list (call N * nat)), good_map_lib L ->
  List.Forall nary_ok (map fst cs) -> (count_new (map fst cs) <= max_new)%nat ->
  exists w, run_a L w_init cs = Ret w /\
    (forall v, exists b, u_isindep (w_var w v) = Ret b) /\
    (forall v, exists i, u_indepid (w_var w v) = Ret i) /\
    (forall u v mu dx dy, exists z, u_binary (w_var w u) (w_var w v) mu dx dy = Ret z).
Proof.
  intros N Z0 L cs G F C. apply max_new_lt in C.
  destruct (run_a_wwf Z0 L cs G w_init) as (w & E & (P & W) & B).
  - split; [cbn; lia|]. intro v. apply default_wf.
  - exact F.
  - cbn; lia.
  - exists w. split; [exact E|]. split; [intro v; exact (isindep_ok _ _ (W v))|].
    split; [intro v; exact (indepid_ok _ _ (W v))|].
    intros u v mu dx dy. destruct (binary_wf (w_last w) (w_var w u) (w_var w v) mu dx dy (W u) (W v) B) as (z & E' & _).
    eauto.
Qed.
