(** * AssignProofs: the loop of binary_assign of UReal2, which changes the maps it walks over *)

From Coq Require Import List ZArith Bool Sorted Lia.
From Verif Require Import Base Num Map HessGrad UReal2 HessProofs U2Facts U2World.
Import ListNotations.

(** ** Positions in a map *)
Section Positions.
  Context {K V : Type} {KO : KeyOrd K}.
  Implicit Types m : list (K * V).

  Lemma mset_keys_in j v m : msorted m -> In j (map fst m) -> map fst (mset j v m) = map fst m.
  Proof.
    induction m as [|[k' v'] m IH]; intros Sm H; [destruct H|]. cbn [mset].
    destruct (msorted_inv _ _ _ Sm) as [Sm' L]. destruct (kcmp j k') eqn:E.
    - apply kcmp_eq in E. subst. reflexivity.
    - exfalso. cbn in H. destruct H as [<-|H]; [rewrite kcmp_refl in E; discriminate|].
      apply L in H. unfold klt in H. assert (T := kcmp_trans _ _ _ E H). rewrite kcmp_refl in T. discriminate.
    - cbn in *. destruct H as [<-|H]; [rewrite kcmp_refl in E; discriminate|]. now rewrite IH.
  Qed.

  (** What is at or after a position is not affected by a write to an existing key or before the position. *)
  Lemma from_mset k j v m : msorted m -> In j (map fst m) \/ klt j k ->
    map fst (map_from k (mset j v m)) = map fst (map_from k m).
  Proof.
    induction m as [|[k' v'] m IH]; intros Sm H.
    - destruct H as [[]|H]. cbn [mset map_from]. apply kcmp_gt in H. now rewrite H.
    - destruct (msorted_inv _ _ _ Sm) as [Sm' L]. cbn [mset]. destruct (kcmp j k') eqn:E.
      + apply kcmp_eq in E. subst. cbn [map_from]. destruct (kcmp k k'); reflexivity.
      + destruct H as [H|H].
        * exfalso. cbn in H. destruct H as [<-|H]; [rewrite kcmp_refl in E; discriminate|].
          apply L in H. unfold klt in H. assert (T := kcmp_trans _ _ _ E H). rewrite kcmp_refl in T. discriminate.
        * cbn [map_from]. apply kcmp_gt in H. rewrite H. reflexivity.
      + cbn [map_from]. destruct (kcmp k k') eqn:F.
        * apply kcmp_eq in F. subst k'. destruct H as [H|H].
          -- cbn in H. destruct H as [<-|H]; [rewrite kcmp_refl in E; discriminate|].
             cbn [map fst]. f_equal. now apply mset_keys_in.
          -- unfold klt in H. rewrite H in E. discriminate.
        * destruct H as [H|H].
          -- cbn in H. destruct H as [<-|H]; [rewrite kcmp_refl in E; discriminate|].
             cbn [map fst]. f_equal. now apply mset_keys_in.
          -- unfold klt in H. assert (T := kcmp_trans _ _ _ H F). rewrite T in E. discriminate.
        * apply IH; [exact Sm'|]. destruct H as [H|H]; [|now right]. left. cbn in H.
          destruct H as [<-|H]; [rewrite kcmp_refl in E; discriminate|exact H].
  Qed.
  Lemma at_mset (k : option K) j v m : msorted m -> In j (map fst m) \/ (forall k', k = Some k' -> klt j k') ->
    map fst (map_at k (mset j v m)) = map fst (map_at k m).
  Proof. intros Sm H. destruct k as [k|]; [|reflexivity]. apply from_mset; [exact Sm|]. destruct H as [H|H]; auto. Qed.

  Definition suf (a m : list (K * V)) : Prop := exists p, m = p ++ a.
  Lemma suf_refl m : suf m m. Proof. now exists []. Qed.
  Lemma suf_nil m : suf [] m. Proof. exists m. now rewrite app_nil_r. Qed.
  Lemma suf_tl a b m : suf (a :: b) m -> suf b m.
  Proof. intros [p ->]. exists (p ++ [a]). now rewrite <- app_assoc. Qed.
  Lemma suf_trans a b c : suf a b -> suf b c -> suf a c.
  Proof. intros [p ->] [q ->]. exists (q ++ p). now rewrite app_assoc. Qed.
  Lemma suf_next a b m : suf a m -> it_next a = Ret b -> suf b m.
  Proof. destruct a as [|x a]; cbn; [discriminate|]. intros H [= <-]. eapply suf_tl; eauto. Qed.

  Lemma at_suf a m : msorted m -> suf a m -> map_at (key_of a) m = a.
  Proof.
    intros Sm [p ->]. destruct a as [|[k v] a]; [reflexivity|]. cbn [key_of map_at].
    induction p as [|[k' v'] p IH]; cbn [app map_from].
    - now rewrite kcmp_refl.
    - cbn [app] in Sm. destruct (msorted_inv _ _ _ Sm) as [Sm' L].
      assert (H : klt k' k) by (apply L; rewrite map_app; apply in_or_app; right; now left).
      apply kcmp_gt in H. rewrite H. now apply IH.
  Qed.
  Lemma from_head k k' v a m : msorted m -> map_from k m = (k', v) :: a -> mfind k' m = Some v.
  Proof.
    intros Sm E. apply In_mfind; [exact Sm|]. clear Sm. induction m as [|[k0 v0] m IH]; [discriminate|].
    cbn [map_from] in E. destruct (kcmp k k0); try (injection E as -> -> ->; now left). right. auto.
  Qed.
  Lemma at_head (k : option K) k' v a m : msorted m -> map_at k m = (k', v) :: a -> mfind k' m = Some v.
  Proof. destruct k as [k|]; [apply from_head|discriminate]. Qed.
  Lemma find_mupd (d : V) i k (f : V -> V) m : msorted m ->
    mfind i (mupd d k f m) = if keqb i k then Some (f (mget d i m)) else mfind i m.
  Proof.
    intro Sm. unfold mupd. rewrite mfind_mset by exact Sm. destruct (keq_dec i k) as [->|NE].
    - now rewrite keqb_refl.
    - apply keqb_neq in NE. now rewrite NE.
  Qed.
End Positions.

Section Assign.
  Context {N : Num}.
  Local Open Scope num_scope.

  (** ** An iterator without the values *)
  Notation ed := (map (fun kd : Z * diag N => (fst kd, @diag0 N))).
  Notation et := (map (fun kv : (Z * Z) * N => (fst kv, (n0 : N)))).
  Definition er (it : iter N) : iter N := mkIt (ed (it_min it)) (ed (it_max it)) (et (it_tri it)) (it_skip it).
  Lemma ed_keys (a b : list (Z * diag N)) : ed a = ed b <-> map fst a = map fst b.
  Proof.
    split.
    - intro E. apply (f_equal (map fst)) in E. rewrite !map_map in E. cbn in E. exact E.
    - revert b. induction a as [|[k d] a IH]; intros [|[k' d'] b] E; try discriminate; [reflexivity|].
      cbn in *. injection E as -> E. now rewrite (IH b E).
  Qed.
  Lemma et_keys (a b : list ((Z * Z) * N)) : et a = et b <-> map fst a = map fst b.
  Proof.
    split.
    - intro E. apply (f_equal (map fst)) in E. rewrite !map_map in E. cbn in E. exact E.
    - revert b. induction a as [|[k d] a IH]; intros [|[k' d'] b] E; try discriminate; [reflexivity|].
      cbn in *. injection E as -> E. now rewrite (IH b E).
  Qed.
  Lemma er_eq it it' : er it = er it' <->
    map fst (it_min it) = map fst (it_min it') /\ map fst (it_max it) = map fst (it_max it') /\
    map fst (it_tri it) = map fst (it_tri it') /\ it_skip it = it_skip it'.
  Proof.
    unfold er. split.
    - intros [= E1 E2 E3 E4]. rewrite ed_keys in E1, E2. rewrite et_keys in E3. auto.
    - intros (E1 & E2 & E3 & E4). rewrite <- ed_keys in E1, E2. rewrite <- et_keys in E3. congruence.
  Qed.

  Lemma e_at_end {A B} (f : A -> B) l : at_end (map f l) = at_end l.
  Proof. now destruct l. Qed.
  Lemma e_eqb {A B} (f : A -> B) a b : it_eqb (map f a) (map f b) = it_eqb a b.
  Proof. unfold it_eqb. now rewrite !map_length. Qed.
  Lemma e_next {A B} (f : A -> B) l : it_next (map f l) = omap (map f) (it_next l).
  Proof. now destruct l. Qed.
  Lemma e_advance id l : advance_to id (ed l) = ed (advance_to id l).
  Proof.
    induction l as [|[k d] l IH]; [reflexivity|]. cbn [map advance_to fst snd].
    destruct (k <? id)%Z; [exact IH|reflexivity].
  Qed.
  Lemma e_at_key id l : at_key id (ed l) = at_key id l.
  Proof. now destruct l as [|[k d] l]. Qed.
  Lemma er_next it : hess_next (er it) = omap er (hess_next it).
  Proof.
    destruct it as [mn mx tr sk]. unfold hess_next, er. cbn [it_min it_max it_tri it_skip].
    rewrite !e_at_end, e_eqb, !e_next.
    destruct mn as [|[i d1] mn]; [reflexivity|]. destruct mx as [|[j d2] mx]; [reflexivity|].
    cbn [map fst snd at_end negb andb assert_ bind it_next omap].
    destruct (it_eqb _ _).
    - cbn [bind omap]. destruct mx as [|[j' d3] mx]; destruct tr as [|[[a b] t] tr]; cbn [map fst snd at_end negb orb assert_ bind omap].
      + unfold omap. cbn [bind]. rewrite e_at_end. destruct (assert_ _); reflexivity.
      + reflexivity.
      + unfold omap. cbn [bind]. rewrite e_at_end. destruct (assert_ _); reflexivity.
      + destruct (pleb (i, j') (a, b)); cbn [bind assert_]; [|reflexivity].
        destruct (i <? a)%Z; cbn [bind].
        * rewrite e_at_end. destruct (assert_ _); reflexivity.
        * destruct sk; cbn [bind].
          -- change ((j', diag0) :: ed mx) with (ed ((j', d3) :: mx)).
             rewrite e_advance, e_at_key. destruct (assert_ (at_key b _)); cbn [bind]; try reflexivity.
             rewrite e_at_end. cbn [at_end]. destruct (assert_ _); reflexivity.
          -- reflexivity.
    - unfold omap. destruct tr as [|tr0 tr]; cbn [map it_next bind]; [reflexivity|].
      destruct tr as [|[[a b] t] tr]; cbn [map fst snd at_end negb orb assert_ bind].
      + rewrite e_at_end. destruct (assert_ _); reflexivity.
      + destruct (pleb (i, j) (a, b)); cbn [bind assert_]; [|reflexivity].
        destruct (i <? a)%Z; cbn [bind].
        * rewrite e_at_end. destruct (assert_ _); reflexivity.
        * destruct sk; cbn [bind].
          -- change ((j, diag0) :: ed mx) with (ed ((j, d2) :: mx)).
             rewrite e_advance, e_at_key. destruct (assert_ (at_key b _)); cbn [bind]; try reflexivity.
             rewrite e_at_end. cbn [at_end]. destruct (assert_ _); reflexivity.
          -- reflexivity.
  Qed.
  Lemma er_next_ret it it0 it0' : er it = er it0 -> hess_next it0 = Ret it0' ->
    exists it', hess_next it = Ret it' /\ er it' = er it0'.
  Proof.
    intros E H. assert (X : omap er (hess_next it) = Ret (er it0')).
    { rewrite <- er_next, E, er_next, H. reflexivity. }
    destruct (hess_next it) as [it2| | |]; unfold omap in X; cbn [bind] in X; try discriminate. exists it2. split; [reflexivity|congruence].
  Qed.
  Lemma key_er {K V W : Type} (a : list (K * V)) (b : list (K * W)) : map fst a = map fst b -> key_of a = key_of b.
  Proof. destruct a as [|[k v] a]; destruct b as [|[k' v'] b]; cbn; intro E; try discriminate; congruence. Qed.
  Lemma pos_er it it' : er it = er it' -> pos_of it = pos_of it'.
  Proof.
    intro E. apply er_eq in E as (E1 & E2 & E3 & E4). unfold pos_of.
    rewrite (key_er _ _ E1), (key_er _ _ E2), (key_er _ _ E3), E4. reflexivity.
  Qed.

  (** ** Steps stay inside the maps *)
  Definition inside (h : hessgrad N) (it : iter N) : Prop :=
    suf (it_min it) (diagmap h) /\ suf (it_max it) (diagmap h) /\ suf (it_tri it) (trimap h).
  Lemma suf_advance id (d m : list (Z * diag N)) : suf d m -> suf (advance_to id d) m.
  Proof.
    induction d as [|[k x] d IH]; intro H; [exact H|]. cbn [advance_to]. destruct (k <? id)%Z; [|exact H].
    apply IH. eapply suf_tl; eauto.
  Qed.
  Lemma suf_from {K V} {KO : KeyOrd K} (k : option K) (m : list (K * V)) : suf (map_at k m) m.
  Proof.
    destruct k as [k|]; [|apply suf_nil]. cbn [map_at]. induction m as [|[k' v] m IH]; [apply suf_refl|].
    cbn [map_from]. destruct (kcmp k k'); try apply suf_refl. destruct IH as [p E]. exists ((k', v) :: p). cbn. now rewrite <- E.
  Qed.
  Lemma inside_at h p : inside h (iter_at h p).
  Proof. unfold inside, iter_at; cbn [it_min it_max it_tri]. repeat split; apply suf_from. Qed.
  Lemma inside_next h it it' : inside h it -> hess_next it = Ret it' -> inside h it'.
  Proof.
    destruct it as [mn mx tr sk]. unfold inside, hess_next. cbn [it_min it_max it_tri it_skip].
    intros (H1 & H2 & H3). destruct mn as [|[i d1] mn]; [discriminate|]. destruct mx as [|[j d2] mx]; [discriminate|].
    cbn [at_end negb andb assert_ bind].
    destruct (it_eqb _ _).
    - cbn [bind it_next]. destruct (assert_ _) as [[]| | |]; cbn [bind]; try discriminate.
      destruct tr as [|[[a b] t] tr]; cbn [bind fst snd it_next].
      + destruct (assert_ _) as [[]| | |]; cbn [bind]; try discriminate. intros [= <-]. cbn [it_min it_max it_tri].
        split; [eapply suf_tl; eauto|]. split; [eapply suf_tl; eauto|exact H3].
      + destruct mx as [|[j' d3] mx]; [discriminate|]. destruct (assert_ _) as [[]| | |]; cbn [bind]; try discriminate.
        destruct (i <? a)%Z; cbn [bind].
        * destruct (assert_ _) as [[]| | |]; cbn [bind]; try discriminate. intros [= <-]. cbn [it_min it_max it_tri].
          split; [eapply suf_tl; eauto|]. split; [eapply suf_tl; eauto|exact H3].
        * destruct sk; cbn [bind].
          -- destruct (assert_ _) as [[]| | |]; cbn [bind]; try discriminate. destruct (assert_ _) as [[]| | |]; cbn [bind]; try discriminate.
             intros [= <-]. cbn [it_min it_max it_tri]. split; [exact H1|]. split; [|exact H3].
             apply (suf_advance b ((j', d3) :: mx)). eapply suf_tl; eauto.
          -- destruct (assert_ _) as [[]| | |]; cbn [bind]; try discriminate. intros [= <-]. cbn [it_min it_max it_tri].
             split; [exact H1|]. split; [eapply suf_tl; eauto|exact H3].
    - destruct tr as [|tr0 tr]; cbn [it_next bind]; [discriminate|].
      assert (H3' : suf tr (trimap h)) by (eapply suf_tl; eauto).
      destruct (assert_ _) as [[]| | |]; cbn [bind]; try discriminate.
      destruct tr as [|[[a b] t] tr]; cbn [bind fst snd it_next].
      + destruct (assert_ _) as [[]| | |]; cbn [bind]; try discriminate. intros [= <-]. cbn [it_min it_max it_tri].
        split; [eapply suf_tl; eauto|]. split; [eapply suf_tl; eauto|exact H3'].
      + destruct (assert_ _) as [[]| | |]; cbn [bind]; try discriminate.
        destruct (i <? a)%Z; cbn [bind].
        * destruct (assert_ _) as [[]| | |]; cbn [bind]; try discriminate. intros [= <-]. cbn [it_min it_max it_tri].
          split; [eapply suf_tl; eauto|]. split; [eapply suf_tl; eauto|exact H3'].
        * destruct sk; cbn [bind].
          -- destruct (assert_ _) as [[]| | |]; cbn [bind]; try discriminate. destruct (assert_ _) as [[]| | |]; cbn [bind]; try discriminate.
             intros [= <-]. cbn [it_min it_max it_tri]. split; [exact H1|]. split; [|exact H3'].
             apply (suf_advance b ((j, d2) :: mx)). exact H2.
          -- destruct (assert_ _) as [[]| | |]; cbn [bind]; try discriminate. intros [= <-]. cbn [it_min it_max it_tri].
             split; [exact H1|]. split; [exact H2|exact H3'].
  Qed.
  Definition srt (h : hessgrad N) : Prop := msorted (diagmap h) /\ msorted (trimap h).
  Lemma at_pos h it : srt h -> inside h it -> iter_at h (pos_of it) = it.
  Proof.
    intros [SD ST] (H1 & H2 & H3). destruct it as [mn mx tr sk]. unfold iter_at, pos_of. cbn [pmin pmax ptri pskip it_min it_max it_tri it_skip] in *.
    rewrite !at_suf; auto.
  Qed.

  (** ** The stored mixed derivatives ahead of the iterator are not before the pair it is at *)
  Definition ahead (it : iter N) : Prop :=
    msorted (it_min it) /\ msorted (it_tri it) /\ suf (it_max it) (it_min it) /\
    (forall a b, In (a, b) (map fst (it_tri it)) -> In a (map fst (it_min it)) /\ (a < b)%Z) /\
    (forall i d mn j e mx, it_min it = (i, d) :: mn -> it_max it = (j, e) :: mx ->
       forall k, In k (map fst (it_tri it)) -> ~ klt k (i, j)).
  Lemma suf_len {A B : Type} (a m : list (A * B)) : suf a m -> length m = length a -> a = m.
  Proof.
    intros [p ->] L. rewrite app_length in L. destruct p as [|x p]; [reflexivity|]. cbn in L. lia.
  Qed.
  Lemma suf_keys {A B : Type} (a m : list (A * B)) k : suf a m -> In k (map fst a) -> In k (map fst m).
  Proof. intros [p ->] H. rewrite map_app. apply in_or_app. now right. Qed.
  Lemma sorted_head {V : Type} (k : Z * Z) (v : V) m k' : msorted ((k, v) :: m) -> In k' (map fst ((k, v) :: m)) -> ~ klt k' k.
  Proof.
    intros S H L. destruct (msorted_inv _ _ _ S) as [_ F]. cbn in H. destruct H as [<-|H].
    - unfold klt in L. rewrite kcmp_refl in L. discriminate.
    - apply F in H. assert (X := klt_trans _ _ _ H L). unfold klt in X. rewrite kcmp_refl in X. discriminate.
  Qed.
  Lemma not_klt_trans (a b c : Z * Z) : ~ klt b a -> ~ klt c b -> ~ klt c a.
  Proof. rewrite !klt_ZZ. lia. Qed.

  (** the state after a step, in terms of the new [tri] *)
  Lemma ahead_row i (d : diag N) mn (t : list ((Z * Z) * N)) sk :
    msorted ((i, d) :: mn) -> msorted t ->
    (forall a b, In (a, b) (map fst t) -> In a (map fst ((i, d) :: mn)) /\ (a < b)%Z) ->
    (match t with [] => True | (k, _) :: _ => (i < fst k)%Z end) ->
    ahead (mkIt mn mn t sk).
  Proof.
    intros SM ST HK HI. destruct (msorted_inv _ _ _ SM) as [SM' L]. unfold ahead. cbn [it_min it_max it_tri].
    assert (B : forall a b, In (a, b) (map fst t) -> (i < a)%Z).
    { intros a b H. destruct t as [|[[k1 k2] v] t]; [destruct H|]. cbn [fst] in HI.
      assert (X := sorted_head _ _ _ _ ST H). rewrite klt_ZZ in X. cbn in X. lia. }
    split; [exact SM'|]. split; [exact ST|]. split; [apply suf_refl|]. split.
    - intros a b H. destruct (HK a b H) as [[E|HA] Lab]; [|auto]. cbn in E. subst. specialize (B _ _ H). lia.
    - intros i' d' mn' j e mx E1 E2 [a b] H. rewrite E1 in E2. injection E2 as <- <- <-.
      destruct (HK a b H) as [[E|HA] Lab]; [cbn in E; subst; specialize (B _ _ H); lia|].
      rewrite E1 in HA, SM'. cbn in HA. destruct (msorted_inv _ _ _ SM') as [_ L'].
      rewrite klt_ZZ. cbn. destruct HA as [<-|HA]; [lia|]. apply L' in HA. apply klt_lt in HA. lia.
  Qed.
  Lemma ahead_col i (d : diag N) mn dm (t : list ((Z * Z) * N)) (sk : bool) a b v t' :
    msorted ((i, d) :: mn) -> msorted t -> t = ((a, b), v) :: t' ->
    (forall a b, In (a, b) (map fst t) -> In a (map fst ((i, d) :: mn)) /\ (a < b)%Z) ->
    suf dm ((i, d) :: mn) -> (forall j e m, dm = (j, e) :: m -> ~ klt (a, b) (i, j)) ->
    ahead (mkIt ((i, d) :: mn) dm t sk).
  Proof.
    intros SM ST Et HK HS HB. unfold ahead. cbn [it_min it_max it_tri].
    split; [exact SM|]. split; [exact ST|]. split; [exact HS|]. split; [exact HK|].
    intros i' d' mn' j e mx E1 E2 k H. injection E1 as <- <- <-. subst t.
    eapply not_klt_trans; [exact (HB _ _ _ E2)|]. exact (sorted_head _ _ _ _ ST H).
  Qed.
  Lemma assert_true b : assert_ b = Ret tt -> b = true.
  Proof. now destruct b. Qed.
  Lemma advance_key id (d : list (Z * diag N)) j e m : advance_to id d = (j, e) :: m -> at_key id (advance_to id d) = true -> j = id.
  Proof. intros -> H. cbn in H. now apply Z.eqb_eq in H. Qed.

  Lemma ahead_next it it' : ahead it -> hess_next it = Ret it' -> ahead it'.
  Proof.
    destruct it as [mn mx tr sk]. unfold hess_next. cbn [it_min it_max it_tri it_skip].
    intros (SM & ST & SX & HK & HB). cbn [it_min it_max it_tri it_skip] in *.
    destruct mn as [|[i d1] mn]; [discriminate|]. destruct mx as [|[j d2] mx]; [discriminate|].
    cbn [at_end negb andb assert_ bind].
    assert (step : forall dm (t : list ((Z * Z) * N)), suf dm ((i, d1) :: mn) -> suf t tr ->
      (_ <- assert_ (negb (at_end dm) || at_end t);;
       _ <- match t with
            | [] => Ret tt
            | (k, _) :: _ => match dm with (j0, _) :: _ => assert_ (pleb (i, j0) k) | [] => UB end
            end;;
       '(dmin', dmax') <-
         (if match t with [] => true | (k, _) :: _ => (i <? fst k)%Z end
          then dmin' <- it_next ((i, d1) :: mn);; Ret (dmin', dmin')
          else if sk then
            match t with
            | [] => UB
            | (k, _) :: _ => _ <- assert_ (at_key (snd k) (advance_to (snd k) dm));; Ret ((i, d1) :: mn, advance_to (snd k) dm)
            end
          else Ret ((i, d1) :: mn, dm));;
       _ <- assert_ (negb (at_end dmax') || at_end dmin');; Ret (mkIt dmin' dmax' t sk)) = Ret it' -> ahead it').
    { intros dm t Hdm Ht E.
      assert (ST' : msorted t) by (destruct Ht as [p ->]; now apply msorted_app_inv in ST).
      assert (HK' : forall a b, In (a, b) (map fst t) -> In a (map fst ((i, d1) :: mn)) /\ (a < b)%Z)
        by (intros a b H; apply HK; eapply suf_keys; eauto).
      destruct (assert_ (negb (at_end dm) || at_end t)) as [[]| | |]; cbn [bind] in E; try discriminate.
      destruct t as [|[[a b] v] t].
      - cbn [bind it_next] in E. destruct (assert_ _) as [[]| | |]; cbn [bind] in E; try discriminate. injection E as <-.
        now apply (ahead_row i d1).
      - destruct dm as [|[j0 e0] dm]; [discriminate|].
        destruct (assert_ (pleb (i, j0) (a, b))) as [[]| | |] eqn:EP; cbn [bind] in E; try discriminate.
        apply assert_true in EP. apply pleb_le in EP. cbn [fst snd] in E. destruct (i <? a)%Z eqn:Eia; cbn [bind it_next] in E.
        + destruct (assert_ _) as [[]| | |]; cbn [bind] in E; try discriminate. injection E as <-.
          apply (ahead_row i d1); auto. cbn. lia.
        + destruct sk; cbn [bind] in E.
          * destruct (assert_ (at_key _ _)) as [[]| | |] eqn:EA; cbn [bind] in E; try discriminate. apply assert_true in EA.
            destruct (assert_ _) as [[]| | |] in E; cbn [bind] in E; try discriminate. injection E as <-.
            apply (ahead_col i d1 mn _ _ _ a b v t); auto.
            -- exact (suf_advance b ((j0, e0) :: dm) _ Hdm).
            -- intros j1 e1 m1 E1. rewrite (advance_key b ((j0, e0) :: dm) _ _ _ E1 EA).
               destruct (HK' a b (or_introl eq_refl)) as [HA _]. cbn in HA. destruct HA as [<-|HA].
               ++ rewrite klt_ZZ. cbn. lia.
               ++ destruct (msorted_inv _ _ _ SM) as [_ L]. apply L in HA. apply klt_lt in HA. rewrite klt_ZZ. cbn. lia.
          * destruct (assert_ _) as [[]| | |]; cbn [bind] in E; try discriminate. injection E as <-.
            apply (ahead_col i d1 mn _ _ _ a b v t); auto. intros j1 e1 m1 [= <- <- <-]. exact EP. }
    destruct (it_eqb _ _); cbn [bind it_next].
    - apply (step mx tr); [eapply suf_tl; eauto|apply suf_refl].
    - destruct tr as [|tr0 tr]; cbn [it_next bind]; [discriminate|].
      apply (step ((j, d2) :: mx) tr); [exact SX|exists [tr0]; reflexivity].
  Qed.
  Lemma ahead_begin (h : hessgrad N) sk : hg_ok h -> ahead (hess_begin h sk).
  Proof.
    intros (SD & ST & HK & _). unfold ahead, hess_begin. cbn [it_min it_max it_tri].
    split; [exact SD|]. split; [exact ST|]. split; [apply suf_refl|]. split.
    - intros a b H. destruct (HK a b H) as (L & Ha & _). auto.
    - intros i d mn j e mx E1 E2 [a b] H. rewrite E1 in E2. injection E2 as <- <- <-.
      destruct (HK a b H) as (L & Ha & _). rewrite E1 in Ha, SD. cbn in Ha. rewrite klt_ZZ. cbn.
      destruct Ha as [<-|Ha]; [lia|]. destruct (msorted_inv _ _ _ SD) as [_ F]. apply F in Ha. apply klt_lt in Ha. lia.
  Qed.
End Assign.
