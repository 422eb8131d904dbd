(** * URealFacts: lemmas about the model of UReal, in exact real arithmetic *)

From Coq Require Import List ZArith Bool Reals Lra Lia Sorted.
From Verif Require Import Base Num Map UReal World Sums SpecLin.
Import ListNotations.

(** ** Facts generic in the numeric type *)

Ltac msort := repeat first [assumption | apply msorted_mset | apply msorted_mupd].

Section Generic.
  Context {N : Num}.
  Local Open Scope num_scope.

  (** the ids stored in a variable *)
  Definition ukeys (x : ureal N) : list Z :=
    if (0 <? uid x)%Z then [uid x]
    else if (uid x <? 0)%Z then map fst (usigma x) else [].

  Definition bounded (last : Z) (l : list Z) : Prop := forall k, In k l -> (1 <= k <= last)%Z.

  (** Representation invariant (the part about ids). *)
  Record wf (last : Z) (x : ureal N) : Prop := {
    wf_nonneg : (0 <= uid x)%Z -> usigma x = [];
    wf_zero : uid x = 0%Z -> usdev x = n0;
    wf_neg : (uid x < 0)%Z -> uid x = invalid_id;
    wf_sorted : msorted (usigma x);
    wf_bound : bounded last (ukeys x)
  }.

  Lemma bounded_mono l1 l2 ks : (l1 <= l2)%Z -> bounded l1 ks -> bounded l2 ks.
  Proof. intros H B k Hk; specialize (B k Hk); lia. Qed.

  Lemma wf_mono l1 l2 x : (l1 <= l2)%Z -> wf l1 x -> wf l2 x.
  Proof. intros H [? ? ? ? ?]; split; eauto using bounded_mono. Qed.

  Lemma ukeys_pos x : (0 < uid x)%Z -> ukeys x = [uid x].
  Proof. intro H; unfold ukeys. apply Z.ltb_lt in H; now rewrite H. Qed.
  Lemma ukeys_neg x : (uid x < 0)%Z -> ukeys x = map fst (usigma x).
  Proof.
    intro H; unfold ukeys. destruct (Z.ltb_spec 0 (uid x)); [lia|].
    apply Z.ltb_lt in H; now rewrite H.
  Qed.
  Lemma ukeys_zero x : uid x = 0%Z -> ukeys x = [].
  Proof. intro H; unfold ukeys; now rewrite H. Qed.

  Lemma wf_NoDup last x : wf last x -> NoDup (ukeys x).
  Proof.
    intros W. unfold ukeys. destruct (0 <? uid x)%Z; [repeat constructor; cbn; tauto|].
    destruct (uid x <? 0)%Z; [|constructor]. apply msorted_NoDup, W.
  Qed.

  Lemma copy_scaled_sorted d s z : msorted z -> msorted (u_copy_scaled (N := N) d s z).
  Proof.
    unfold u_copy_scaled. revert z; induction s as [|[k v] s IH]; cbn; intros z S; auto.
    apply IH, msorted_mset, S.
  Qed.
  Lemma add_scaled_sorted d s z : msorted z -> msorted (u_add_scaled (N := N) d s z).
  Proof.
    unfold u_add_scaled. revert z; induction s as [|[k v] s IH]; cbn; intros z S; auto.
    apply IH, msorted_mupd, S.
  Qed.
  Lemma copy_scaled_keys d s z k :
    In k (map fst (u_copy_scaled (N := N) d s z)) <-> In k (map fst s) \/ In k (map fst z).
  Proof.
    unfold u_copy_scaled. revert z; induction s as [|[k' v] s IH]; cbn; intros z.
    - tauto.
    - rewrite IH, keys_mset. intuition.
  Qed.
  Lemma add_scaled_keys d s z k :
    In k (map fst (u_add_scaled (N := N) d s z)) <-> In k (map fst s) \/ In k (map fst z).
  Proof.
    unfold u_add_scaled. revert z; induction s as [|[k' v] s IH]; cbn; intros z.
    - tauto.
    - rewrite IH, keys_mupd. intuition.
  Qed.

  (** the copy loops, as lookups *)
  Lemma copy_scaled_find d s z k : msorted s -> msorted z ->
    mfind k (u_copy_scaled (N := N) d s z)
    = match mfind k s with Some v => Some (d * v) | None => mfind k z end.
  Proof.
    unfold u_copy_scaled. revert z; induction s as [|[k' v] s IH]; intros z S Z; [reflexivity|].
    destruct (msorted_inv _ _ _ S) as [S' L]. cbn [fold_left fst snd].
    rewrite IH by msort. cbn [mfind].
    destruct (mfind k s) eqn:E.
    - assert (klt k' k) by (apply L; apply mfind_In in E; apply (in_map fst) in E; exact E).
      unfold klt in H. rewrite (proj2 (kcmp_gt k k') H). reflexivity.
    - rewrite mfind_mset by assumption. destruct (keq_dec k k') as [->|Nk].
      + now rewrite kcmp_refl.
      + destruct (kcmp k k') eqn:Ek; try reflexivity. apply kcmp_eq in Ek; contradiction.
  Qed.

  Lemma add_scaled_find d s z k : msorted s -> msorted z ->
    mfind k (u_add_scaled (N := N) d s z)
    = match mfind k s with Some v => Some (mget n0 k z + d * v) | None => mfind k z end.
  Proof.
    unfold u_add_scaled. revert z; induction s as [|[k' v] s IH]; intros z S Z; [reflexivity|].
    destruct (msorted_inv _ _ _ S) as [S' L]. cbn [fold_left fst snd].
    rewrite IH by msort. cbn [mfind].
    destruct (mfind k s) eqn:E.
    - assert (klt k' k) by (apply L; apply mfind_In in E; apply (in_map fst) in E; exact E).
      unfold klt in H. rewrite (proj2 (kcmp_gt k k') H). unfold mupd.
      rewrite mget_mset by assumption. destruct (keq_dec k k') as [->|_]; [|reflexivity].
      exfalso; rewrite kcmp_refl in H; congruence.
    - unfold mupd. rewrite mfind_mset by assumption. destruct (keq_dec k k') as [->|Nk].
      + now rewrite kcmp_refl.
      + destruct (kcmp k k') eqn:Ek; try reflexivity. apply kcmp_eq in Ek; contradiction.
  Qed.

  (** The merge loop of [binary]. *)
  Lemma merge_find dx dy xs ys z :
    msorted xs -> msorted ys -> msorted z ->
    (forall k, In k (map fst xs) -> (k < maxid)%Z) ->
    (forall k, In k (map fst ys) -> (k < maxid)%Z) ->
    exists z', u_merge (N := N) dx dy xs ys z = Ret z' /\ msorted z' /\
      forall k, mfind k z' =
        match mfind k xs, mfind k ys with
        | Some a, Some b => Some (dx * a + dy * b)
        | Some a, None => Some (dx * a)
        | None, Some b => Some (n0 + dy * b)
        | None, None => mfind k z
        end.
  Proof.
    revert ys z; induction xs as [|[xk xv] xs IHx]; intros ys.
    - induction ys as [|[yk yv] ys IHy]; intros z Sx Sy Sz Bx By.
      + exists z; repeat split; auto.
      + destruct (msorted_inv _ _ _ Sy) as [Sy' Ly].
        assert (yk < maxid)%Z by (apply By; cbn; auto).
        cbn -[mfind mset mupd]. destruct (Z.leb_spec maxid yk); [lia|].
        destruct (IHy (mset yk (n0 + dy * yv) z)) as (z' & E & S' & F); auto.
        { now apply msorted_mset. } { intros; apply By; cbn; auto. }
        exists z'. split; [exact E|]. split; [exact S'|].
        intro k. rewrite F. cbn [mfind].
        destruct (mfind k ys) eqn:Ek.
        * assert (L : klt yk k) by (apply Ly; apply mfind_In in Ek; apply (in_map fst) in Ek; exact Ek).
          unfold klt in L. rewrite (proj2 (kcmp_gt k yk) L). reflexivity.
        * rewrite mfind_mset by assumption. destruct (keq_dec k yk) as [->|Nk].
          -- now rewrite kcmp_refl.
          -- destruct (kcmp k yk) eqn:Ec; try reflexivity. apply kcmp_eq in Ec; contradiction.
    - induction ys as [|[yk yv] ys IHy]; intros z Sx Sy Sz Bx By;
        destruct (msorted_inv _ _ _ Sx) as [Sx' Lx];
        assert (Hxk : (xk < maxid)%Z) by (apply Bx; cbn; auto).
      + cbn -[mfind mset mupd]. destruct (Z.leb_spec xk maxid); [|lia]. destruct (Z.leb_spec maxid xk); [lia|].
        destruct (IHx [] (mset xk (dx * xv) z)) as (z' & E & S' & F); auto.
        { now apply msorted_mset. } { intros; apply Bx; cbn; auto. }
        exists z'. split; [exact E|]. split; [exact S'|].
        intro k. rewrite F. cbn [mfind].
        destruct (mfind k xs) eqn:Ek.
        * assert (L : klt xk k) by (apply Lx; apply mfind_In in Ek; apply (in_map fst) in Ek; exact Ek).
          unfold klt in L. rewrite (proj2 (kcmp_gt k xk) L). reflexivity.
        * rewrite mfind_mset by assumption. destruct (keq_dec k xk) as [->|Nk].
          -- now rewrite kcmp_refl.
          -- destruct (kcmp k xk) eqn:Ec; try reflexivity. apply kcmp_eq in Ec; contradiction.
      + destruct (msorted_inv _ _ _ Sy) as [Sy' Ly].
        assert (Hyk : (yk < maxid)%Z) by (apply By; cbn; auto).
        cbn -[mfind mset mupd].
        destruct (Z.leb_spec xk yk) as [Hle|Hgt].
        * destruct (Z.leb_spec yk xk) as [Hle2|Hlt].
          -- assert (yk = xk) by lia; subst yk.
             destruct (IHx ys (mupd n0 xk (fun p => p + dy * yv) (mset xk (dx * xv) z)))
               as (z' & E & S' & F); auto.
             { now apply msorted_mupd, msorted_mset. }
             { intros; apply Bx; cbn; auto. } { intros; apply By; cbn; auto. }
             exists z'. split; [exact E|]. split; [exact S'|].
             intro k. rewrite F. clear F E IHx IHy. cbn [mfind].
             destruct (kcmp k xk) eqn:Ec.
             ++ apply kcmp_eq in Ec; subst k.
                rewrite (proj2 (mfind_None_iff xk xs Sx')) by
                  (intro Hin; apply Lx in Hin; now apply klt_irrefl in Hin).
                rewrite (proj2 (mfind_None_iff xk ys Sy')) by
                  (intro Hin; apply Ly in Hin; now apply klt_irrefl in Hin).
                unfold mupd. rewrite mfind_mset by now apply msorted_mset.
                rewrite mget_mset by assumption.
                destruct (keq_dec xk xk); [|congruence]. reflexivity.
             ++ rewrite (mfind_None_lt k xs), (mfind_None_lt k ys); auto;
                  try (intros k' Hk'; eapply klt_trans; eauto).
                unfold mupd. rewrite !mfind_mset by msort.
                destruct (keq_dec k xk) as [->|]; [|reflexivity].
                rewrite kcmp_refl in Ec; congruence.
             ++ destruct (mfind k xs), (mfind k ys); try reflexivity.
                unfold mupd. rewrite !mfind_mset by msort.
                destruct (keq_dec k xk) as [->|]; [|reflexivity].
                rewrite kcmp_refl in Ec; congruence.
          -- destruct (IHx ((yk, yv) :: ys) (mset xk (dx * xv) z)) as (z' & E & S' & F); auto.
             { now apply msorted_mset. } { intros; apply Bx; cbn; auto. }
             exists z'. split; [exact E|]. split; [exact S'|].
             intro k. rewrite F. clear F E IHx IHy. cbn [mfind].
             destruct (kcmp k xk) eqn:Ec.
             ++ apply kcmp_eq in Ec; subst k.
                rewrite (proj2 (mfind_None_iff xk xs Sx')) by
                  (intro Hin; apply Lx in Hin; now apply klt_irrefl in Hin).
                assert (Ecy : kcmp xk yk = Lt) by (apply Z.compare_lt_iff; lia).
                rewrite Ecy. rewrite mfind_mset by assumption.
                destruct (keq_dec xk xk); [|congruence]. reflexivity.
             ++ rewrite (mfind_None_lt k xs) by (auto; intros k' Hk'; eapply klt_trans; eauto).
                assert (Ecy : kcmp k yk = Lt) by
                  (eapply kcmp_trans; [exact Ec|]; apply Z.compare_lt_iff; lia).
                rewrite Ecy. rewrite mfind_mset by assumption.
                destruct (keq_dec k xk) as [->|]; [|reflexivity].
                rewrite kcmp_refl in Ec; congruence.
             ++ destruct (mfind k xs); [reflexivity|].
                assert (Hm : mfind k (mset xk (dx * xv) z) = mfind k z).
                { rewrite mfind_mset by assumption.
                  destruct (keq_dec k xk) as [->|]; [|reflexivity].
                  rewrite kcmp_refl in Ec; congruence. }
                destruct (kcmp k yk); try destruct (mfind k ys); auto.
        * destruct (IHy (mset yk (n0 + dy * yv) z)) as (z' & E & S' & F); auto.
          { now apply msorted_mset. } { intros; apply By; cbn; auto. }
          exists z'. split; [exact E|]. split; [exact S'|].
          intro k. rewrite F. clear F E IHx IHy.
          destruct (kcmp k yk) eqn:Ec.
          -- apply kcmp_eq in Ec; subst k. cbn [mfind].
             assert (Ecx : kcmp yk xk = Lt) by (apply Z.compare_lt_iff; lia).
             rewrite Ecx, kcmp_refl.
             rewrite (proj2 (mfind_None_iff yk ys Sy')) by
               (intro Hin; apply Ly in Hin; now apply klt_irrefl in Hin).
             rewrite mfind_mset by assumption.
             destruct (keq_dec yk yk); [|congruence]. reflexivity.
          -- rewrite (mfind_None_lt k ys) by (auto; intros k' Hk'; eapply klt_trans; eauto).
             assert (Ecx : kcmp k xk = Lt) by
               (eapply kcmp_trans; [exact Ec|]; apply Z.compare_lt_iff; lia).
             cbn [mfind]. rewrite Ecx, Ec. rewrite mfind_mset by assumption.
             destruct (keq_dec k yk) as [->|]; [|reflexivity].
             rewrite kcmp_refl in Ec; congruence.
          -- assert (Hm : mfind k (mset yk (n0 + dy * yv) z) = mfind k z).
             { rewrite mfind_mset by assumption.
               destruct (keq_dec k yk) as [->|]; [|reflexivity].
               rewrite kcmp_refl in Ec; congruence. }
             rewrite Hm. cbn [mfind]. rewrite Ec. reflexivity.
  Qed.

  (** [binary] never fails on well-formed operands, as long as ids are below
      the sentinel; its map, as lookups in the operands. *)
  Definition ufind (k : Z) (x : ureal N) : option N :=
    if (0 <? uid x)%Z then (if (k =? uid x)%Z then Some (usdev x) else None)
    else if (uid x <? 0)%Z then mfind k (usigma x) else None.

  Lemma ufind_keys k x last : wf last x -> (ufind k x <> None <-> In k (ukeys x)).
  Proof.
    intro W. unfold ufind, ukeys. destruct (0 <? uid x)%Z.
    - destruct (Z.eqb_spec k (uid x)); cbn; intuition congruence.
    - destruct (uid x <? 0)%Z.
      + rewrite (mfind_None_iff k (usigma x)) by apply W.
        destruct (in_dec Z.eq_dec k (map fst (usigma x))); tauto.
      + cbn; tauto.
  Qed.

  Lemma ufind_None_keys k x last : wf last x -> (ufind k x = None <-> ~ In k (ukeys x)).
  Proof.
    intro W. rewrite <- (ufind_keys k x last W). destruct (ufind k x); intuition congruence.
  Qed.

  Definition comb2 (dx dy : N) (a b : option N) : option N :=
    match a, b with
    | Some a, Some b => Some (dx * a + dy * b)
    | Some a, None => Some (dx * a)
    | None, Some b => Some (n0 + dy * b)
    | None, None => None
    end.

  Lemma single_find k i (v : N) : mfind k [(i, v)] = if (k =? i)%Z then Some v else None.
  Proof. cbn. destruct (Z.compare_spec k i); destruct (Z.eqb_spec k i); try reflexivity; lia. Qed.

  Ltac idcase x :=
    destruct (Z.ltb_spec 0 (uid x)); destruct (Z.ltb_spec (uid x) 0);
    destruct (Z.leb_spec 0 (uid x)); try lia.

  Lemma binary_find last x y mu dx dy :
    wf last x -> wf last y -> (last < maxid)%Z ->
    exists z, u_binary (N := N) x y mu dx dy = Ret (mkU invalid_id (nopp n1) mu z) /\
      msorted z /\
      forall k, mfind k z = comb2 dx dy (ufind k x) (ufind k y).
  Proof.
    intros Wx Wy B. unfold u_binary, ufind.
    assert (Sx := wf_sorted _ _ Wx). assert (Sy := wf_sorted _ _ Wy).
    idcase x; idcase y; cbn [andb]; cbn -[mfind mset mupd u_merge u_copy_scaled u_add_scaled].
    - eexists; split; [reflexivity|]. split; [msort; apply msorted_nil|].
      intro k. unfold mupd. rewrite mfind_mset by (msort; apply msorted_nil).
      rewrite mget_mset by apply msorted_nil. unfold mget; cbn [mset].
      rewrite single_find. cbn [mfind].
      destruct (keq_dec k (uid y)) as [->|Nk].
      + rewrite Z.eqb_refl. destruct (keq_dec (uid y) (uid x)) as [E|E]; destruct (Z.eqb_spec (uid y) (uid x)); try contradiction; reflexivity.
      + destruct (Z.eqb_spec k (uid y)); [contradiction|]. destruct (k =? uid x)%Z; reflexivity.
    - eexists; split; [reflexivity|]. split; [apply add_scaled_sorted; msort; apply msorted_nil|].
      intro k. rewrite add_scaled_find by (msort; apply msorted_nil).
      unfold mget. cbn [mset]. rewrite single_find.
      destruct (mfind k (usigma y)); destruct (k =? uid x)%Z; reflexivity.
    - eexists; split; [reflexivity|]. split; [msort; apply msorted_nil|].
      intro k. cbn [mset]. rewrite single_find. destruct (k =? uid x)%Z; reflexivity.
    - eexists; split; [reflexivity|]. split; [msort; apply copy_scaled_sorted, msorted_nil|].
      intro k. unfold mupd.
      rewrite mfind_mset by apply copy_scaled_sorted, msorted_nil.
      unfold mget. rewrite !copy_scaled_find by (msort; apply msorted_nil). cbn [mfind].
      destruct (keq_dec k (uid y)) as [->|Nk].
      + rewrite Z.eqb_refl. destruct (mfind (uid y) (usigma x)); reflexivity.
      + destruct (Z.eqb_spec k (uid y)); [contradiction|]. destruct (mfind k (usigma x)); reflexivity.
    - destruct (merge_find dx dy (usigma x) (usigma y) []) as (z & E & S & F); [exact Sx|exact Sy|apply msorted_nil| | |].
      { intros k Hk. rewrite <- ukeys_neg in Hk by assumption. apply (wf_bound _ _ Wx) in Hk. lia. }
      { intros k Hk. rewrite <- ukeys_neg in Hk by assumption. apply (wf_bound _ _ Wy) in Hk. lia. }
      rewrite E. cbn. exists z; split; [reflexivity|]. split; [exact S|]. exact F.
    - eexists; split; [reflexivity|]. split; [apply copy_scaled_sorted, msorted_nil|].
      intro k. rewrite copy_scaled_find by (msort; apply msorted_nil). cbn [mfind].
      destruct (mfind k (usigma x)); reflexivity.
    - eexists; split; [reflexivity|]. split; [msort; apply msorted_nil|].
      intro k. unfold mupd, mget. cbn [mset]. rewrite single_find. cbn [mfind].
      destruct (k =? uid y)%Z; reflexivity.
    - eexists; split; [reflexivity|]. split; [apply add_scaled_sorted, msorted_nil|].
      intro k. rewrite add_scaled_find by (msort; apply msorted_nil). unfold mget; cbn [mfind].
      destruct (mfind k (usigma y)); reflexivity.
    - eexists; split; [reflexivity|]. split; [apply msorted_nil|]. reflexivity.
  Qed.

  Lemma comb2_keys dx dy a b : comb2 dx dy a b <> None <-> a <> None \/ b <> None.
  Proof. destruct a, b; cbn; split; intros; try (left; congruence); try (right; congruence); try congruence; tauto. Qed.

  (** A dependent variable whose stored map is [z]. *)
  Lemma wf_dep last mu sd z :
    msorted z -> (forall k, mfind k z <> None -> (1 <= k <= last)%Z) ->
    wf last (mkU invalid_id sd mu z : ureal N).
  Proof.
    intros S B. split; cbn; try (unfold invalid_id; lia); auto.
    intros k Hk. apply B. rewrite (mfind_None_iff k z S). cbn in Hk. tauto.
  Qed.

  Lemma ufind_bound last x k : wf last x -> ufind k x <> None -> (1 <= k <= last)%Z.
  Proof. intros W H. apply (ufind_keys k x last W) in H. now apply W. Qed.

  Lemma ufind_dep k sd mu z : ufind k (mkU invalid_id sd mu z : ureal N) = mfind k z.
  Proof. reflexivity. Qed.

  Lemma binary_wf last x y mu dx dy :
    wf last x -> wf last y -> (last < maxid)%Z ->
    exists z, u_binary (N := N) x y mu dx dy = Ret z /\ wf last z /\ umu z = mu /\
      (forall k, ufind k z = comb2 dx dy (ufind k x) (ufind k y)) /\
      uid z = invalid_id /\ usdev z = nopp n1.
  Proof.
    intros Wx Wy B. destruct (binary_find last x y mu dx dy Wx Wy B) as (z & E & S & F).
    exists (mkU invalid_id (nopp n1) mu z). repeat apply conj; try reflexivity; [exact E| |exact F].
    apply wf_dep; [exact S|]. intros k Hk. rewrite F in Hk. apply comb2_keys in Hk as [Hk|Hk];
      [apply (ufind_bound last x)|apply (ufind_bound last y)]; assumption.
  Qed.

  Lemma unary_wf last x mu dx : wf last x ->
    wf last (u_unary (N := N) x mu dx) /\
    (forall k, ufind k (u_unary x mu dx) = option_map (fun v => v * dx) (ufind k x)) /\
    umu (u_unary x mu dx) = mu.
  Proof.
    intros W. unfold u_unary, ufind. idcase x.
    - assert (K := wf_bound _ _ W). rewrite ukeys_pos in K by assumption.
      cbn. destruct (Z.ltb_spec 0 (uid x)); [|lia].
      repeat apply conj; auto.
      + split; cbn; try lia; auto; try apply msorted_nil.
        intros k Hk. rewrite ukeys_pos in Hk by (cbn; lia). cbn in Hk. apply K. exact Hk.
      + intro k. destruct (k =? uid x)%Z; reflexivity.
    - cbn. destruct (Z.ltb_spec 0 (uid x)); [lia|]. destruct (Z.ltb_spec (uid x) 0); [|lia].
      repeat apply conj; auto.
      + rewrite (wf_neg _ _ W) by assumption. apply wf_dep.
        * apply msorted_mmap, W.
        * intros k Hk. apply (ufind_bound last x k W). unfold ufind.
          destruct (Z.ltb_spec 0 (uid x)); [lia|]. destruct (Z.ltb_spec (uid x) 0); [|lia].
          rewrite mfind_mmap in Hk. destruct (mfind k (usigma x)); cbn in *; congruence.
      + intro k. now rewrite mfind_mmap.
    - cbn. destruct (Z.ltb_spec 0 (uid x)); [lia|]. destruct (Z.ltb_spec (uid x) 0); [lia|].
      repeat apply conj; auto.
      split; cbn; auto; try apply msorted_nil; try lia.
      rewrite ukeys_zero by (cbn; lia). intros k [].
  Qed.

  (** the scaling of the own coefficients done by binary_assign *)
  Definition scale_own (dt a : N) : N := if negb (dt =? n1) then a * dt else a.

  Definition comb2a (dt dx : N) (a b : option N) : option N :=
    match a, b with
    | Some a, Some b => Some (scale_own dt a + dx * b)
    | Some a, None => Some (scale_own dt a)
    | None, Some b => Some (n0 + dx * b)
    | None, None => None
    end.

  Lemma binary_assign_wf last x y mu dt dx : wf last x -> wf last y ->
    wf last (u_binary_assign (N := N) x y mu dt dx) /\
    (forall k, ufind k (u_binary_assign x y mu dt dx) = comb2a dt dx (ufind k x) (ufind k y)) /\
    umu (u_binary_assign x y mu dt dx) = mu.
  Proof.
    intros Wx Wy. unfold u_binary_assign.
    set (s0 := if (0 <? uid x)%Z then _ else _).
    set (s1 := if negb (dt =? n1) then _ else _).
    assert (Sx := wf_sorted _ _ Wx). assert (Sy := wf_sorted _ _ Wy).
    assert (S0 : msorted s0) by (unfold s0; destruct (0 <? uid x)%Z; msort).
    assert (F0 : forall k, mfind k s0 = ufind k x).
    { intro k. unfold s0, ufind. idcase x.
      - rewrite (wf_nonneg _ _ Wx) by lia. cbn [mset]. apply single_find.
      - reflexivity.
      - rewrite (wf_nonneg _ _ Wx) by lia. reflexivity. }
    assert (S1 : msorted s1) by (unfold s1; destruct (negb _); [now apply msorted_mmap|assumption]).
    assert (F1 : forall k, mfind k s1 = option_map (scale_own dt) (ufind k x)).
    { intro k. unfold s1, scale_own. destruct (negb _).
      - rewrite mfind_mmap, F0. reflexivity.
      - rewrite F0. destruct (ufind k x); reflexivity. }
    clearbody s0 s1.
    set (s2 := if (0 <? uid y)%Z then _ else _).
    assert (S2 : msorted s2 /\ forall k, mfind k s2 = comb2a dt dx (ufind k x) (ufind k y)).
    { unfold s2. unfold ufind at 2. idcase y.
      - split; [msort|]. intro k. unfold mupd, mget. rewrite mfind_mset by assumption.
        destruct (keq_dec k (uid y)) as [->|Nk].
        + rewrite Z.eqb_refl, F1. destruct (ufind (uid y) x); reflexivity.
        + destruct (Z.eqb_spec k (uid y)); [contradiction|]. rewrite F1.
          destruct (ufind k x); reflexivity.
      - split; [now apply add_scaled_sorted|]. intro k.
        rewrite add_scaled_find by assumption. unfold mget. rewrite F1.
        destruct (ufind k x), (mfind k (usigma y)); reflexivity.
      - split; [assumption|]. intro k. rewrite F1. destruct (ufind k x); reflexivity. }
    destruct S2 as [S2 F2]. clearbody s2.
    repeat apply conj; [|exact F2|reflexivity].
    apply wf_dep; [exact S2|]. intros k Hk. rewrite F2 in Hk.
    destruct (ufind k x) eqn:Ex; [eapply ufind_bound; [exact Wx|]; congruence|].
    destruct (ufind k y) eqn:Ey; [eapply ufind_bound; [exact Wy|]; congruence|].
    cbn in Hk; congruence.
  Qed.

  Lemma binary_assign_self_wf last x mu dt dx : wf last x ->
    (uid x = 0%Z -> nltb (n0 : N) n0 = false) ->
    wf last (u_binary_assign_self (N := N) x mu dt dx) /\
    (forall k, ufind k (u_binary_assign_self x mu dt dx)
               = option_map (fun v => v * (dt + dx)) (ufind k x)) /\
    umu (u_binary_assign_self x mu dt dx) = mu.
  Proof.
    intros W L. unfold u_binary_assign_self, ufind. cbn -[Z.ltb].
    repeat apply conj; auto.
    - split; cbn -[Z.ltb].
      + intro H. rewrite (wf_nonneg _ _ W H). reflexivity.
      + intro H. rewrite (wf_zero _ _ W H), H, (L H). reflexivity.
      + apply W.
      + apply msorted_mmap, W.
      + unfold ukeys; cbn -[Z.ltb]. rewrite mmap_keys. apply (wf_bound _ _ W).
    - intro k. destruct (0 <? uid x)%Z eqn:E.
      + rewrite orb_true_r. destruct (k =? uid x)%Z; reflexivity.
      + destruct (uid x <? 0)%Z; [apply mfind_mmap|reflexivity].
  Qed.

  (** nary, as lookups: accumulate in operand order *)
  Lemma nary_loop_wf last xs : forall dxs z,
    Forall (wf last) xs -> length xs <= length dxs -> msorted z ->
    exists z', u_nary_loop (N := N) xs dxs z = Ret z' /\ msorted z' /\
      forall k, mfind k z' =
        fold_left (fun acc (xd : ureal N * N) =>
            match ufind k (fst xd) with
            | Some v => Some (match acc with Some p => p | None => n0 end + snd xd * v)
            | None => acc
            end) (combine xs dxs) (mfind k z).
  Proof.
    induction xs as [|x xs IH]; intros dxs z W L S.
    - exists z; repeat split; auto.
    - destruct dxs as [|d dxs]; [cbn in L; lia|]. cbn in L.
      inversion W as [|? ? Wx Wxs]; subst.
      cbn [u_nary_loop combine fold_left fst snd].
      set (z1 := if (0 <? uid x)%Z then _ else _).
      assert (H1 : msorted z1 /\ forall k, mfind k z1 =
            match ufind k x with
            | Some v => Some (match mfind k z with Some p => p | None => n0 end + d * v)
            | None => mfind k z end).
      { unfold z1, ufind. assert (Sx := wf_sorted _ _ Wx). idcase x.
        - split; [msort|]. intro k. unfold mupd, mget. rewrite mfind_mset by assumption.
          destruct (keq_dec k (uid x)) as [->|Nk].
          + now rewrite Z.eqb_refl.
          + destruct (Z.eqb_spec k (uid x)); [contradiction|reflexivity].
        - split; [now apply add_scaled_sorted|]. intro k. now rewrite add_scaled_find.
        - split; auto. }
      destruct H1 as [S1 F1]. clearbody z1.
      destruct (IH dxs z1) as (z' & E & S' & F); auto; [lia|].
      exists z'. split; [exact E|]. split; [exact S'|]. intro k. rewrite F, F1. reflexivity.
  Qed.

  Lemma new_wf last n s : (0 <= last < maxid)%Z ->
    fst (u_new (N := N) last n s) = (last + 1)%Z /\
    wf (last + 1) (mkU (last + 1) s n [] : ureal N) /\
    snd (u_new last n s) = (if s <? n0 then Throw InvalidArgument else Ret (mkU (last + 1) s n [])).
  Proof.
    intros H. unfold u_new. cbn.
    assert (wrap32 (last + 1) = last + 1)%Z as ->.
    { unfold wrap32, maxid in *. rewrite Z.mod_small; lia. }
    repeat apply conj; auto.
    split; cbn; auto; try apply msorted_nil; try lia.
    rewrite ukeys_pos by (cbn; lia). intros k [<-|[]]; cbn; lia.
  Qed.

  Lemma const_wf last n : wf last (u_const n : ureal N).
  Proof. split; cbn; auto; try apply msorted_nil; try lia. intros k []. Qed.
  Lemma default_wf last : wf last (u_default : ureal N).
  Proof. split; cbn; auto; try apply msorted_nil; try lia. intros k []. Qed.

  Lemma s_caching_wf last x : wf last x ->
    wf last (snd (u_s_caching (N := N) x)) /\
    (forall k, ufind k (snd (u_s_caching x)) = ufind k x) /\
    umu (snd (u_s_caching x)) = umu x /\ uid (snd (u_s_caching x)) = uid x.
  Proof.
    intros W. unfold u_s_caching. destruct (Z.leb_spec 0 (uid x)); [cbn; auto|].
    destruct (usdev x <? n0); [|cbn; auto]. cbn.
    repeat apply conj; auto.
    - destruct W as [W1 W2 W3 W4 W5]; split; cbn; auto. lia.
    - intro k. unfold ufind; cbn. destruct (Z.ltb_spec 0 (uid x)); [lia|reflexivity].
  Qed.

  Lemma var_caching_snd x : snd (u_var_caching (N := N) x) = snd (u_s_caching x).
  Proof. unfold u_var_caching, u_s_caching. destruct (0 <=? uid x)%Z; reflexivity. Qed.
End Generic.
