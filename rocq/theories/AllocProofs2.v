(** * AllocProofs2: what a failed compound assignment leaves *)

From Coq Require Import List ZArith Bool Reals Lra Lia.
From Verif Require Import Base Num Map UReal World Sums SpecLin SpecObs SpecOrder URealFacts URealR URealProofs URealProofs2
  Alloc SpecAlloc AllocProofs.
Import ListNotations.
Local Open Scope R_scope.

Lemma assign_none_rep last (t x : ureal RN) a b k mu dt dx z : rep last t a -> rep last x b ->
  a_binary_assign k t x mu dt dx = (z, None) ->
  z = t \/
  exists j s2, l_dep b j /\ ~ l_dep a j /\ z = mkU invalid_id (usdev t) (umu t) s2 /\
    rep last (mkU invalid_id (-1) (umu t) s2) (lin_binary a (lin_before j b) (l_mean a) dt dx).
Proof.
  intros Ra Rb H.
  apply (assign_none_shape k t x mu dt dx z last (rep_wf _ _ _ Ra) (rep_wf _ _ _ Rb)) in H
    as [-> |(j & s2 & -> & S & Hj & Hj' & F)]; [now left|right].
  exists j, s2. split; [now apply (rep_find last x b j Rb)|].
  split; [rewrite <- (rep_find last t a j Ra), Hj'; congruence|]. split; [reflexivity|].
  assert (D : forall i, mfind i s2 <> None <-> ufind i t <> None \/ (ufind i x <> None /\ (i < j)%Z)).
  { intro i. rewrite F. destruct (ufind i t), (Z_lt_dec i j); cbn [comb2a]; try (destruct (ufind i x)); cbn [comb2a];
      intuition congruence. }
  apply rep_of_find.
  - apply wf_dep; [exact S|]. intros i Hi. apply D in Hi as [Hi|[Hi _]]; eapply ufind_bound; try exact Hi; [apply Ra|apply Rb].
  - apply cache_neg. reflexivity.
  - cbn. apply Ra.
  - intro i. unfold coef. rewrite ufind_dep, F. cbn [l_coef lin_binary lin_before].
    rewrite <- (rep_coef _ _ _ Ra), <- (rep_coef _ _ _ Rb). unfold coef.
    assert (Sc : forall c : R, scale_own (N := RN) dt c = dt * c).
    { intro c. unfold scale_own. cbn [neqb RN n1 nmul].
      destruct (Reqb_spec dt 1) as [-> |_]; cbn [negb]; nR; ring. }
    destruct (ufind i t), (Z_lt_dec i j); cbn [comb2a]; try (destruct (ufind i x)); cbn [comb2a]; rewrite ?Sc;
      cbn [nadd nmul n0 RN]; nR; ring.
  - intro i. rewrite ufind_dep, D, (rep_find last t a i Ra), (rep_find last x b i Rb). reflexivity.
Qed.

(** The query functions on the object left. *)
Lemma stale_obs last (t : ureal RN) s2 a' : rep last (mkU invalid_id (-1) (umu t) s2 : ureal RN) a' ->
  let z := mkU invalid_id (usdev t) (umu t) s2 in
  u_n z = u_n t /\
  (forall y c, rep last y c -> u_cov z y = lin_cov last a' c /\ u_cov y z = lin_cov last c a') /\
  u_cov z z = lin_var last a' /\
  (u_s z = u_s t \/ u_s z = lin_sdev last a').
Proof.
  intros H z. split; [reflexivity|].
  set (z2 := mkU invalid_id (-1) (umu t) s2 : ureal RN) in *.
  assert (C1 : forall y, u_cov z y = u_cov z2 y) by reflexivity.
  assert (C2 : forall y, u_cov y z = u_cov y z2).
  { intro y. unfold u_cov, z, z2. cbn [uid usigma usdev]. change (0 <? invalid_id)%Z with false.
    change (invalid_id <? 0)%Z with true. rewrite !andb_false_r. reflexivity. }
  split.
  { intros y c Ry. rewrite C1, C2. split; eapply rep_cov; eassumption. }
  split.
  { rewrite C1, C2. apply rep_cov; exact H. }
  unfold z. destruct (Rle_dec 0 (usdev t)) as [P|P].
  - left. unfold u_s. cbn [uid usdev nleb n0 nabs RN]. change (0 <=? invalid_id)%Z with false. cbn iota.
    destruct (Rleb_spec 0 (usdev t)); [|contradiction]. destruct (0 <=? uid t)%Z.
    + symmetry. apply Rabs_pos_eq. exact P.
    + reflexivity.
  - right. rewrite <- (rep_s _ _ _ H). unfold u_s, z2. cbn [uid usdev nleb n0 RN nsqrt].
    destruct (Rleb_spec 0 (-1)); [lra|]. destruct (Rleb_spec 0 (usdev t)); [contradiction|]. reflexivity.
Qed.

Lemma rep_before_none last (t x : ureal RN) a b j dx m : rep last t a -> rep last x b -> lin_indep b -> l_dep b j ->
  lin_eq (lin_binary a (lin_before j b) m 1 dx) (mkLin m (l_dep a) (l_coef a)).
Proof.
  intros Ra Rb I J. split; [reflexivity|]. cbn [l_dep l_coef lin_binary lin_before].
  assert (K : forall i, (i < j)%Z -> ~ l_dep b i) by (intros i Hi Hd; rewrite (I i j Hd J) in Hi; lia).
  split; intro i.
  - destruct (Z_lt_dec i j) as [Hl|Hl]; [|ring].
    rewrite <- (rep_coef _ _ _ Rb), (coef_notin last x i); [ring|apply Rb|].
    rewrite (rep_dep _ _ _ Rb). now apply K.
  - split; [|tauto]. intros [H|[H1 H2]]; [exact H|]. now apply K in H1.
Qed.

(** ** C68 *)
Lemma C68_failed_compound_partial_proof : forall L k cs w v x f ft fx w', legal cs -> run w_init cs = Ret w ->
  exec_a L k w (CAssign v x f ft fx) = (w', None) ->
  v <> x /\
  let g := s_var (spec_run s_init cs) in
  let dt := ft (l_mean (g v)) (l_mean (g x)) in let dx := fx (l_mean (g v)) (l_mean (g x)) in
  ((forall u, w_var w' u = w_var w u) \/
   exists j, l_dep (g x) j /\ ~ l_dep (g v) j /\
     let a' := lin_binary (g v) (lin_before j (g x)) (l_mean (g v)) dt dx in
     u_n (w_var w' v) = u_n (w_var w v) /\
     (forall t, t <> v -> u_cov (w_var w' v) (w_var w' t) = lin_cov (w_last w) a' (g t)) /\
     u_cov (w_var w' v) (w_var w' v) = lin_var (w_last w) a' /\
     (u_s (w_var w' v) = u_s (w_var w v) \/ u_s (w_var w' v) = lin_sdev (w_last w) a')).
Proof.
  intros L k cs w v x f ft fx w' Hl Hr H.
  destruct (legal_sim cs Hl) as (w0 & E0 & (El & P & W) & _). rewrite Hr in E0. injection E0 as <-.
  cbn [exec_a] in H. apply a_store_none in H as (z & H & ->). unfold a_assign_gen in H.
  destruct (Nat.eqb_spec v x) as [|Nv]; [congruence|]. split; [exact Nv|].
  intros g dt dx. fold g in W.
  unfold u_n in H. rewrite !(rep_mean _ _ _ (W v)), !(rep_mean _ _ _ (W x)) in H. fold dt dx in H.
  destruct (assign_none_rep _ _ _ _ _ _ _ _ _ _ (W v) (W x) H) as [-> |(j & s2 & J1 & J2 & -> & R)].
  - left. intro u. cbn. unfold upd. destruct (Nat.eqb_spec u v); [now subst|reflexivity].
  - right. exists j. split; [exact J1|]. split; [exact J2|]. intro a'.
    destruct (stale_obs _ (w_var w v) s2 _ R) as (A1 & A2 & A3 & A4).
    cbn [w_set w_var]. unfold upd at 1 2 3 4 5. rewrite Nat.eqb_refl.
    split; [exact A1|]. split; [|split; [exact A3|]].
    + intros t Ht. unfold upd. destruct (Nat.eqb_spec t v); [contradiction|]. apply A2, W.
    + unfold upd. rewrite Nat.eqb_refl. exact A4.
Qed.

Lemma C68_failed_add_partial_proof : forall L k w w' v x, reachable w -> u_isindep (w_var w x) = Ret true ->
  exec_a L k w (CAddA v x) = (w', None) \/ exec_a L k w (CSubA v x) = (w', None) -> same_obs w' w.
Proof.
  intros L k w w' v x Hr Hi H.
  destruct (reachable_wrep w Hr) as (sw & (El & P & W) & _).
  assert (H' : exists mu dx, a_store w v (a_assign_gen k (Nat.eqb v x) (w_var w v) (w_var w x) mu 1 dx) = (w', None)).
  { destruct H as [H|H]; [eexists _, _; exact H|eexists _, _; exact H]. }
  clear H. destruct H' as (mu & dx & H). apply a_store_none in H as (z & H & ->). unfold a_assign_gen in H.
  destruct (Nat.eqb_spec v x) as [|Nv]; [congruence|].
  destruct (assign_none_rep _ _ _ _ _ _ _ _ _ _ (W v) (W x) H) as [-> |(j & s2 & J1 & J2 & -> & R)].
  - intros u t. cbn [w_set w_var]. unfold upd.
    repeat match goal with |- context [Nat.eqb ?p ?q] => destruct (Nat.eqb_spec p q); [subst|] end; repeat split.
  - assert (Ind : lin_indep (s_var sw x)).
    { destruct (rep_isindep _ _ _ (W x)) as (b & Eb & Hb). rewrite Hi in Eb. injection Eb as <-. now apply Hb. }
    assert (R2 : rep (w_last w) (mkU invalid_id (-1) (umu (w_var w v)) s2 : ureal RN) (s_var sw v)).
    { eapply rep_lin_eq; [|exact R]. destruct (rep_before_none _ _ _ _ _ j dx (l_mean (s_var sw v)) (W v) (W x) Ind J1) as (A & B & C).
      split; [reflexivity|]. split; [exact B|exact C]. }
    apply (same_obs_of_rep (w_last w) _ _ (s_var sw)); [|exact W].
    intro u. cbn [w_set w_var]. unfold upd. destruct (Nat.eqb_spec u v); [subst u|apply W].
    destruct (Rle_dec 0 (usdev (w_var w v))) as [Ps|Ps].
    + destruct R2 as [[A1 A2 A3 A4 A5] B C D E]. split.
      * split; cbn in *; auto. unfold invalid_id; lia.
      * intros _ _. cbn [usdev].
        assert (Ev : u_var (w_var w v) = usdev (w_var w v) * usdev (w_var w v)).
        { unfold u_var. cbn [nleb n0 RN]. destruct (Rleb_spec 0 (usdev (w_var w v))); [|contradiction].
          rewrite orb_true_r. reflexivity. }
        transitivity (u_var (w_var w v)); [symmetry; exact Ev|].
        rewrite (rep_var _ _ _ (W v)).
        assert (R3 : rep (w_last w) (mkU invalid_id (-1) (umu (w_var w v)) s2 : ureal RN) (s_var sw v))
          by (split; [split|..]; assumption).
        rewrite <- (rep_var _ _ _ R3). unfold u_var. cbn [uid usdev nleb n0 RN].
        destruct (Rleb_spec 0 (-1)); [lra|]. reflexivity.
      * exact C.
      * exact D.
      * exact E.
    + destruct R2 as [[A1 A2 A3 A4 A5] B C D E]. split.
      * split; cbn in *; auto. unfold invalid_id; lia.
      * intros _ Hs. cbn [usdev] in Hs. contradiction.
      * exact C.
      * exact D.
      * exact E.
Qed.
