(** * Alloc2Proofs: proofs about calls on UReal2 that run out of memory *)

From Coq Require Import List ZArith Bool Sorted Arith Lia.
From Verif Require Import Base Num Map UReal World SpecOrder HessGrad Moments CheckMoments UReal2 World2 HessProofs U2Facts
  SpecObs URealFacts URealProofs URealProofs2 U2World U2Ret U2Values SpecU2 SpecU2Run U2Proofs Alloc SpecAlloc AllocProofs Alloc2 SpecAlloc2.
Import ListNotations.

Section Gen.
  Context {N : Num}.
  Variable eig : list (list N) -> option (list N).
  Variable L : libs N.

  Lemma a2_some k (w : world2 N) v o w' r : a2_result k w v o = (w', Some r) -> assign2 w v o = (w', r).
  Proof. unfold a2_result. destruct (a2_nodes o <=? k)%nat; [|congruence]. destruct (assign2 w v o). congruence. Qed.
  Lemma a2_none k (w : world2 N) v o w' : a2_result k w v o = (w', None) -> w' = w.
  Proof. unfold a2_result. destruct (a2_nodes o <=? k)%nat; [|congruence]. destruct (assign2 w v o). congruence. Qed.
  Lemma a2_ge k (w : world2 N) v o : (a2_nodes o <= k)%nat ->
    a2_result k w v o = (fst (assign2 w v o), Some (snd (assign2 w v o))).
  Proof. intro H. unfold a2_result. apply Nat.leb_le in H. rewrite H. now destruct (assign2 w v o). Qed.
  Lemma copy2_some k al (t x z : ureal2 N) k' : a2_copy_assign L k al t x = (z, Some k') -> z = if al then t else x.
  Proof. unfold a2_copy_assign. destruct al; [congruence|]. destruct (_ <=? _)%nat; [|congruence]. destruct (_ <=? _)%nat; congruence. Qed.
  Lemma copy2_none k al (t x z : ureal2 N) : a2_copy_assign L k al t x = (z, None) -> al = false /\ u2mu z = u2mu t.
  Proof.
    unfold a2_copy_assign. destruct al; [congruence|]. destruct (_ <=? _)%nat; [|intros [= <-]; auto].
    destruct (_ <=? _)%nat; [congruence|intros [= <-]; auto].
  Qed.

  (** [upd2] with the value already there. *)
  Definition same2 (w w' : world2 N) : Prop := w2_w w = w2_w w' /\ forall u, w2_var w u = w2_var w' u.

  Lemma exec2_a_some k (w : world2 N) c w' o : exec2_a eig L k w c = (w', Some o) ->
    snd (exec2 eig w c) = o /\ same2 (fst (exec2 eig w c)) w'.
  Proof.
    assert (A : forall v r, a2_result k w v r = (w', Some o) -> snd (assign2 w v r) = o /\ same2 (fst (assign2 w v r)) w').
    { intros v r H. apply a2_some in H. rewrite H. split; [reflexivity|split; reflexivity]. }
    destruct c; cbn [exec2_a exec2]; try (apply A).
    - destruct (exec_a (lib_sigma L) k (w2_w w) c) as [w1 o1] eqn:E. intros [= <- ->]. apply exec_a_some in E. rewrite E. split; [reflexivity|split; reflexivity].
    - destruct (u2_new eig (w2_last w) n m thr) as [l r]. intro H. apply a2_some in H. rewrite H. split; [reflexivity|split; reflexivity].
    - destruct (u2_new_std eig (w2_last w) n s m thr) as [l r]. intro H. apply a2_some in H. rewrite H. split; [reflexivity|split; reflexivity].
    - destruct (a2_copy_assign L k (Nat.eqb v x) (w2_var w v) (w2_var w x)) as [z [k'|]] eqn:E; cbn [fst snd]; [|congruence].
      intros [= <- <-]. apply copy2_some in E. subst z. cbn [assign2 fst snd]. split; [reflexivity|]. split; [reflexivity|].
      intro u. cbn. unfold u2_pos. destruct (Nat.eqb_spec v x); [subst|]; reflexivity.
  Qed.

  Lemma exec2_a_none k (w w' : world2 N) c : exec2_a eig L k w c = (w', None) ->
    match c with
    | E1 c => exec_a (lib_sigma L) k (w2_w w) c = (w2_w w', None) /\ forall u, w2_var w' u = w2_var w u
    | ECopy v x => v <> x /\ w2_w w' = w2_w w /\ (forall u, u <> v -> w2_var w' u = w2_var w u) /\
        u2_first_order_n (w2_var w' v) = u2_first_order_n (w2_var w v)
    | ENew _ _ _ _ | ENewStd _ _ _ _ _ =>
        (forall u, w_var (w2_w w') u = w_var (w2_w w) u) /\ w2_last w' = w2_last (fst (exec2 eig w c)) /\ (forall u, w2_var w' u = w2_var w u)
    | _ => w' = w
    end.
  Proof.
    destruct c; cbn [exec2_a]; try (apply a2_none).
    - destruct (exec_a (lib_sigma L) k (w2_w w) c) as [w1 o1] eqn:E. intros [= <- ->]. split; reflexivity.
    - cbn [exec2]. destruct (u2_new eig (w2_last w) n m thr) as [l r]. intro H. apply a2_none in H. subst w'. split; [reflexivity|].
      split; [|reflexivity]. destruct r; reflexivity.
    - cbn [exec2]. destruct (u2_new_std eig (w2_last w) n s m thr) as [l r]. intro H. apply a2_none in H. subst w'. split; [reflexivity|].
      split; [|reflexivity]. destruct r; reflexivity.
    - destruct (a2_copy_assign L k (Nat.eqb v x) (w2_var w v) (w2_var w x)) as [z [k'|]] eqn:E; cbn [fst snd]; [congruence|].
      intros [= <-]. apply copy2_none in E as [E M]. apply Nat.eqb_neq in E. split; [exact E|]. split; [reflexivity|].
      cbn [w2_var]. split; [|unfold upd2; now rewrite Nat.eqb_refl].
      intros u Hu. unfold upd2. apply Nat.eqb_neq in Hu. now rewrite Hu.
  Qed.

  (** ** How much memory is enough *)
  Fixpoint kpairs (ks : list Z) : list (Z * Z) :=
    match ks with [] => [] | i :: r => map (pair i) r ++ kpairs r end.
  Lemma kpairs_len ks : (2 * length (kpairs ks) = length ks * (length ks - 1))%nat.
  Proof. induction ks as [|i ks IH]; [reflexivity|]. cbn [kpairs length]. rewrite app_length, map_length.
    replace (S (length ks) - 1)%nat with (length ks) by lia. revert IH. generalize (length (kpairs ks)) as q, (length ks) as n.
    intros q [|n] IH; [lia|]. replace (S n - 1)%nat with n in IH by lia. rewrite Nat.mul_add_distr_l, IH. ring.
  Qed.
  Lemma kpairs_in ks i j : StronglySorted klt ks -> In i ks -> In j ks -> (i < j)%Z -> In (i, j) (kpairs ks).
  Proof.
    induction ks as [|a ks IH]; [intros _ []|]. intros S Hi Hj Lt. apply StronglySorted_inv in S as [S F]. rewrite Forall_forall in F.
    cbn [kpairs]. apply in_app_iff. destruct Hi as [->|Hi].
    - left. destruct Hj as [->|Hj]; [lia|]. now apply in_map.
    - destruct Hj as [->|Hj]; [apply F in Hi; apply klt_lt in Hi; lia|]. right. auto.
  Qed.
  Lemma tri_room (h : hessgrad N) : hg_ok h -> (2 * length (trimap h) <= length (diagmap h) * (length (diagmap h) - 1))%nat.
  Proof.
    intros (SD & ST & HK & _).
    assert (Q : (length (map fst (trimap h)) <= length (kpairs (map fst (diagmap h))))%nat).
    { apply NoDup_incl_length; [now apply msorted_NoDup|]. intros [i j] Hij. destruct (HK i j Hij) as (Lt & A & B).
      apply kpairs_in; auto. }
    assert (K := kpairs_len (map fst (diagmap h))). rewrite !map_length in *. lia.
  Qed.
  Lemma room_mono a b : (a <= b)%nat -> (room a <= room b)%nat.
  Proof.
    intro H. unfold room. assert (a * (a - 1) / 2 <= b * (b - 1) / 2)%nat; [|lia]. apply Nat.div_le_mono; [lia|]. nia.
  Qed.
  Lemma nodes_room (h : hessgrad N) : hg_ok h -> (length (diagmap h) + length (trimap h) <= room (length (diagmap h)))%nat.
  Proof.
    intro OK. apply tri_room in OK. unfold room. apply Nat.add_le_mono_l. apply Nat.div_le_lower_bound; lia.
  Qed.

  Lemma unary_nodes (x : ureal2 N) f f1 f2 : hg_ok (u2hg x) -> (a2_nodes (u2_unary x f f1 f2) <= room (length (diagmap (u2hg x))))%nat.
  Proof.
    intro OK. destruct (unary_result x f f1 f2 OK) as (r & E & OKr & HD & _). rewrite E. cbn [a2_nodes u2hg].
    eapply Nat.le_trans; [apply nodes_room, OKr|]. apply room_mono.
    rewrite <- (map_length fst (diagmap r)), <- (map_length fst (diagmap (u2hg x))).
    apply NoDup_incl_length; [apply msorted_NoDup, OKr|]. intros i Hi. apply in_map_iff in Hi as ([j d] & <- & Hd).
    apply (In_mfind _ _ _ (proj1 OKr)) in Hd. rewrite HD in Hd. apply option_map_some in Hd as (d' & Hd & _).
    apply mfind_In in Hd. exact (in_map fst _ _ Hd).
  Qed.
  Lemma binary_nodes (x y : ureal2 N) f fx fy fxx fyy fxy : hg_ok (u2hg x) -> hg_ok (u2hg y) -> kbelow (u2hg x) -> kbelow (u2hg y) ->
    (a2_nodes (u2_binary x y f fx fy fxx fyy fxy) <= room (length (diagmap (u2hg x)) + length (diagmap (u2hg y))))%nat.
  Proof.
    intros OKx OKy Kx Ky. destruct (binary_result x y f fx fy fxx fyy fxy OKx OKy Kx Ky) as (r & E & OKr & r0 & OK0 & HD & _ & HC).
    rewrite E. cbn [a2_nodes u2hg]. eapply Nat.le_trans; [apply nodes_room, OKr|]. apply room_mono.
    rewrite <- (map_length fst (diagmap r)), <- (map_length fst (diagmap (u2hg x))), <- (map_length fst (diagmap (u2hg y))), <- app_length.
    apply NoDup_incl_length; [apply msorted_NoDup, OKr|]. intros i Hi. apply in_app_iff.
    assert (F : mfind i (diagmap r) <> None).
    { intro F. apply (mfind_None_iff i _ (proj1 OKr)) in F. contradiction. }
    assert (G : mfind i (diagmap (u2hg x)) <> None \/ mfind i (diagmap (u2hg y)) <> None).
    { assert (H0 : mfind i (diagmap r0) <> None -> mfind i (diagmap (u2hg x)) <> None \/ mfind i (diagmap (u2hg y)) <> None).
      { rewrite HD. unfold mcell. destruct (mfind i (diagmap (u2hg x))), (mfind i (diagmap (u2hg y))); intro; (left; congruence) || (right; congruence) || congruence. }
      destruct (neqb (ndiv fxy (nofZ 2)) n0); [subst r; auto|]. destruct HC as [HC _]. rewrite HC in F.
      destruct (mfind i (diagmap (u2hg x))), (mfind i (diagmap (u2hg y))); auto; left; congruence. }
    destruct G as [G|G]; [left|right].
    - destruct (mfind i (diagmap (u2hg x))) eqn:Ef; [|congruence]. apply mfind_In in Ef. exact (in_map fst _ _ Ef).
    - destruct (mfind i (diagmap (u2hg y))) eqn:Ef; [|congruence]. apply mfind_In in Ef. exact (in_map fst _ _ Ef).
  Qed.

  Lemma exec2_a_ge env k w c : good_libs L -> wwf2 env w -> (w2_last w < maxid)%Z -> (forall c', c <> E1 c') ->
    (S (room (operands w c)) <= k)%nat ->
    snd (exec2_a eig L k w c) = Some (snd (exec2 eig w c)) /\ same2 (fst (exec2 eig w c)) (fst (exec2_a eig L k w c)).
  Proof.
    intros (_ & Gd & Gt) [_ W] B NE K.
    assert (OK : forall v, hg_ok (u2hg (w2_var w v))) by (intro v; apply W).
    assert (KB : forall v, kbelow (u2hg (w2_var w v))) by (intro v; exact (wf2_below _ _ _ (W v) B)).
    assert (A : forall v r, (a2_nodes r <= k)%nat ->
      snd (a2_result k w v r) = Some (snd (assign2 w v r)) /\ same2 (fst (assign2 w v r)) (fst (a2_result k w v r))).
    { intros v r H. rewrite a2_ge by exact H. split; [reflexivity|split; reflexivity]. }
    assert (Un : forall x f f1 f2, (S (room (length (diagmap (u2hg (w2_var w x))) + 0)) <= k)%nat -> (a2_nodes (u2_unary (w2_var w x) f f1 f2) <= k)%nat).
    { intros x f f1 f2 H. rewrite Nat.add_0_r in H. assert (Q := unary_nodes (w2_var w x) f f1 f2 (OK x)). lia. }
    assert (Bi : forall x y f fx fy fxx fyy fxy,
      (S (room (length (diagmap (u2hg (w2_var w x))) + (length (diagmap (u2hg (w2_var w y))) + 0))) <= k)%nat ->
      (a2_nodes (u2_binary (w2_var w x) (w2_var w y) f fx fy fxx fyy fxy) <= k)%nat).
    { intros x y f fx fy fxx fyy fxy H. rewrite Nat.add_0_r in H.
      assert (Q := binary_nodes (w2_var w x) (w2_var w y) f fx fy fxx fyy fxy (OK x) (OK y) (KB x) (KB y)). lia. }
    assert (Nw : forall v l r, (a2_nodes r <= 1)%nat -> snd (a2_result k (set_last w l) v r) = Some (snd (assign2 (set_last w l) v r)) /\
      same2 (fst (assign2 (set_last w l) v r)) (fst (a2_result k (set_last w l) v r))).
    { intros v l r H. rewrite a2_ge by lia. split; [reflexivity|split; reflexivity]. }
    destruct c; cbn [exec2_a exec2]; unfold operands, used2 in K; cbn [reads2 fold_right] in K;
      try (apply A; cbn [a2_nodes u2hg u2_const u2_default hg_empty diagmap trimap length]; (lia || (apply Un; exact K) || (apply Bi; exact K))).
    - destruct (NE c eq_refl).
    - assert (Q : (a2_nodes (snd (u2_new eig (w2_last w) n m thr)) <= 1)%nat).
      { unfold u2_new. destruct (if negb (nltb thr n0) then _ else _); cbn; lia. }
      destruct (u2_new eig (w2_last w) n m thr) as [l r]. now apply Nw.
    - assert (Q : (a2_nodes (snd (u2_new_std eig (w2_last w) n s m thr)) <= 1)%nat).
      { unfold u2_new_std. destruct (nltb s n0); [cbn; lia|]. destruct (if negb (nltb thr n0) then _ else _); cbn; lia. }
      destruct (u2_new_std eig (w2_last w) n s m thr) as [l r]. now apply Nw.
    - unfold a2_copy_assign. destruct (Nat.eqb_spec v x) as [->|NEx].
      + cbn [fst snd assign2 u2_pos]. split; [reflexivity|split; reflexivity].
      + assert (Gd' := Gd (diagmap (u2hg (w2_var w v))) (diagmap (u2hg (w2_var w x)))).
        assert (Gt' := Gt (trimap (u2hg (w2_var w v))) (trimap (u2hg (w2_var w x)))).
        rewrite Nat.add_0_r in K. assert (Q := nodes_room _ (OK x)).
        destruct (Nat.leb_spec (cq_count (lib_diag L) (diagmap (u2hg (w2_var w v))) (diagmap (u2hg (w2_var w x)))) k); [|lia].
        destruct (Nat.leb_spec (cq_count (lib_tri L) (trimap (u2hg (w2_var w v))) (trimap (u2hg (w2_var w x))))
          (k - cq_count (lib_diag L) (diagmap (u2hg (w2_var w v))) (diagmap (u2hg (w2_var w x))))); [|lia].
        cbn [fst snd assign2 u2_pos]. split; [reflexivity|split; reflexivity].
  Qed.
End Gen.

Lemma C80_enough_memory_proof : forall (N : Num) (eig : list (list N) -> option (list N)) (L : libs N) (w : world2 N) (c : call2 N),
  nltb (n0 : N) n0 = false -> good_libs L -> reachable2 eig w ->
  (forall k w' o, exec2_a eig L k w c = (w', Some o) ->
     snd (exec2 eig w c) = o /\ w2_last w' = w2_last (fst (exec2 eig w c)) /\
     (forall u, w_var (w2_w w') u = w_var (w2_w (fst (exec2 eig w c))) u) /\
     (forall u, w2_var w' u = w2_var (fst (exec2 eig w c)) u)) /\
  exists n, (forall k, (n <= k)%nat -> snd (exec2_a eig L k w c) <> None) /\
    match c with E1 _ => True | _ => (n <= 1 + room (operands w c))%nat end.
Proof.
  intros N eig L w c Z0 G R. split.
  - intros k w' o H. destruct (exec2_a_some eig L k w c w' o H) as (A & B1 & B2). split; [exact A|].
    unfold w2_last. rewrite <- B1. split; [reflexivity|]. split; [reflexivity|]. intro u. now rewrite B2.
  - destruct (reachable2_wf Z0 eig w R) as (env & W & B).
    assert (Q : (exists c', c = E1 c') \/ forall c', c <> E1 c') by (destruct c; eauto; right; discriminate).
    destruct Q as [[c' ->]|NE].
    + destruct (exec_a_ge (lib_sigma L) (w2_w w) c' (proj1 G)) as (n & H). exists n. split; [|exact I].
      intros k Hk. cbn [exec2_a]. rewrite (H k Hk). discriminate.
    + exists (1 + room (operands w c))%nat. split.
      * intros k Hk. destruct (exec2_a_ge eig L env k w c G W (proj2 B) NE Hk) as (E & _). rewrite E. discriminate.
      * destruct c; auto.
Qed.

Lemma C80_failed_call_no_effect_proof : forall (N : Num) (eig : list (list N) -> option (list N)) (L : libs N) k (w w' : world2 N) (c : call2 N),
  exec2_a eig L k w c = (w', None) ->
  match c with
  | E1 c => exec_a (lib_sigma L) k (w2_w w) c = (w2_w w', None) /\ (forall u, w2_var w' u = w2_var w u)
  | _ =>
      (forall u, w_var (w2_w w') u = w_var (w2_w w) u) /\
      (forall u, w2_var w' u = w2_var w u \/ u = writes2 c /\ exists x, c = ECopy u x /\ u <> x /\
         u2_first_order_n (w2_var w' u) = u2_first_order_n (w2_var w u)) /\
      (w2_last w' = w2_last w \/ is_new2 c = true /\ w2_last w' = w2_last (fst (exec2 eig w c)))
  end.
Proof.
  intros N eig L k w w' c H. apply exec2_a_none in H. destruct c; try exact H; try (subst w'; auto 6).
  - destruct H as (A & B & C). split; [exact A|]. split; [auto|]. right. auto.
  - destruct H as (A & B & C). split; [exact A|]. split; [auto|]. right. auto.
  - destruct H as (A & B & C & D). split; [now rewrite B|]. split; [|left; unfold w2_last; now rewrite B].
    intro u. destruct (Nat.eq_dec u v) as [->|NE]; [|left; auto]. right. split; [reflexivity|]. exists x. auto.
Qed.
