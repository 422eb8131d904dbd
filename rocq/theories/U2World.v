(** * U2World: invariants of all histories of UReal and UReal2, in any arithmetic *)

From Coq Require Import List ZArith Bool Sorted Lia.
From Verif Require Import Base Num Map UReal World HessGrad Moments CheckMoments UReal2 HessProofs U2Facts.
From Verif Require Import SpecObs URealFacts URealProofs URealProofs2 World2.
Import ListNotations.

Section Wf2.
  Context {N : Num}.

  Definition wf2 (last : Z) (env : Z -> moms N) (x : ureal2 N) : Prop :=
    hg_ok (u2hg x) /\
    forall i d, In (i, d) (diagmap (u2hg x)) -> (1 <= i <= last)%Z /\ dmom d = Some (env i).

  Lemma wf2_mono last last' env env' x : (last <= last')%Z ->
    (forall i, (i <= last)%Z -> env' i = env i) -> wf2 last env x -> wf2 last' env' x.
  Proof.
    intros L E [OK H]. split; [exact OK|]. intros i d Hd. destruct (H i d Hd) as [B M].
    split; [lia|]. rewrite E by lia. exact M.
  Qed.

  Lemma wf2_empty last env mu : wf2 last env (mkU2 hg_empty mu).
  Proof. split; [apply hg_empty_ok|]. intros i d []. Qed.

  Lemma wf2_fresh id env mu g h m : (1 <= id)%Z -> env id = m ->
    wf2 id env (mkU2 (hg_diag id (fun _ => mkD g h (Some m)) hg_empty) mu).
  Proof.
    intros P E. split.
    - split; [repeat constructor|]. split; [constructor|]. split; [intros i j []|].
      intros i x [[= <- <-]|[]]. discriminate.
    - intros i d [[= <- <-]|[]]. cbn. split; [lia|]. now rewrite E.
  Qed.

  Lemma visits_of_hg (h : hessgrad N) skip : hg_ok h ->
    exists vs, hess_visits h skip = Ret vs /\ visits_of h vs /\ (skip = true -> visits_exact h vs).
  Proof.
    intro OK. destruct (visits_facts h skip OK) as (vs & E & S & V & F & X).
    exists vs. split; [exact E|]. split; [split; auto|exact X].
  Qed.

  Lemma merge_writes_nil (dfdx dfdy hxx hyy : N) xs : merge_writes dfdx dfdy hxx hyy xs [] = map (wX dfdx hxx) xs.
  Proof. destruct xs; reflexivity. Qed.

  (** unary, whatever the mode of the iterator *)
  Lemma unary_result (x : ureal2 N) fx f1 f2 : hg_ok (u2hg x) ->
    let hdd := ndiv f2 (nofZ 2) in
    exists r, u2_unary x fx f1 f2 = Ret (mkU2 r fx) /\ hg_ok r /\
      (forall i, mfind i (diagmap r) = option_map (cellX f1 hdd) (mfind i (diagmap (u2hg x)))) /\
      (forall vs, hess_visits (u2hg x) (neqb hdd n0) = Ret vs -> visits_exact (u2hg x) vs ->
       forall i j, i <> j -> mfind (i, j) (trimap r) =
         option_map (fun t => nadd (nmul (nmul hdd (dgrad (hg_diag_get (u2hg x) i))) (dgrad (hg_diag_get (u2hg x) j)))
                                   (nmul f1 t)) (mfind (i, j) (trimap (u2hg x)))).
  Proof.
    intros OK hdd. unfold u2_unary. fold hdd.
    destruct (visits_of_hg (u2hg x) (neqb hdd n0) OK) as (vs & E & V & X). rewrite E. cbn [bind].
    rewrite unary_writes. rewrite <- (merge_writes_nil f1 f1 hdd hdd vs).
    destruct (merge_result f1 f1 hdd hdd (u2hg x) hg_empty OK hg_empty_ok vs [] V visits_of_nil) as (r & Er & OKr & HD & HT).
    rewrite Er. cbn [bind]. exists r. split; [reflexivity|]. split; [exact OKr|]. split.
    - intro i. rewrite HD. unfold mcell. cbn [diagmap hg_empty mfind].
      destruct (mfind i (diagmap (u2hg x))); reflexivity.
    - intros vs' [= <-] Xs i j NE. rewrite (HT Xs visits_exact_nil i j NE). unfold mtri.
      cbn [trimap hg_empty mfind]. destruct (mfind (i, j) (trimap (u2hg x))); reflexivity.
  Qed.

  Definition kbelow (h : hessgrad N) : Prop := forall i, In i (map fst (diagmap h)) -> (i < maxid)%Z.

  Lemma visits_below h vs : kbelow h -> visits_of h vs -> List.Forall below_max vs.
  Proof.
    intros K (_ & V & _). apply Forall_forall. intros v Hv. destruct (V v Hv) as (H1 & H2 & _).
    apply (in_map fst) in H1. apply K in H1. cbn in H1. unfold below_max. apply klt_ZZ. left. exact H1.
  Qed.

  Lemma binary_result (x y : ureal2 N) fxy fx fy fxx fyy fxy' : hg_ok (u2hg x) -> hg_ok (u2hg y) ->
    kbelow (u2hg x) -> kbelow (u2hg y) ->
    let hxx := ndiv fxx (nofZ 2) in let hyy := ndiv fyy (nofZ 2) in let hxy := ndiv fxy' (nofZ 2) in
    exists r, u2_binary x y fxy fx fy fxx fyy fxy' = Ret (mkU2 r fxy) /\ hg_ok r /\
      exists r0, hg_ok r0 /\
      (forall i, mfind i (diagmap r0) = mcell fx fy hxx hyy (u2hg x) (u2hg y) i) /\
      (forall xs ys, hess_visits (u2hg x) (neqb hxx n0) = Ret xs -> hess_visits (u2hg y) (neqb hyy n0) = Ret ys ->
        visits_exact (u2hg x) xs -> visits_exact (u2hg y) ys -> forall i j, i <> j ->
        mfind (i, j) (trimap r0) = mtri fx fy hxx hyy (u2hg x) (u2hg y) i j) /\
      (if neqb hxy n0 then r = r0 else
        (forall i, mfind i (diagmap r) =
         match mfind i (diagmap (u2hg x)), mfind i (diagmap (u2hg y)) with
         | Some a, Some b => Some (wd (wC hxy (i, a) (i, b)) (mget diag0 i (diagmap r0)))
         | _, _ => mfind i (diagmap r0)
         end) /\
        (forall i j, (i < j)%Z -> mget n0 (i, j) (trimap r) =
         let t0 := mget n0 (i, j) (trimap r0) in
         let t1 := match mfind i (diagmap (u2hg x)), mfind j (diagmap (u2hg y)) with
                   | Some a, Some b => nadd t0 (nmul (nmul hxy (dgrad a)) (dgrad b)) | _, _ => t0 end in
         match mfind j (diagmap (u2hg x)), mfind i (diagmap (u2hg y)) with
         | Some a, Some b => nadd t1 (nmul (nmul hxy (dgrad a)) (dgrad b)) | _, _ => t1 end)).
  Proof.
    intros OKx OKy Kx Ky hxx hyy hxy. unfold u2_binary. fold hxx hyy hxy.
    destruct (visits_of_hg (u2hg x) (neqb hxx n0) OKx) as (xs & Ex & Vx & Xx). rewrite Ex. cbn [bind].
    destruct (visits_of_hg (u2hg y) (neqb hyy n0) OKy) as (ys & Ey & Vy & Xy). rewrite Ey. cbn [bind].
    rewrite merge_writes_ok; [|now apply (visits_below (u2hg x))|now apply (visits_below (u2hg y))].
    destruct (merge_result fx fy hxx hyy (u2hg x) (u2hg y) OKx OKy xs ys Vx Vy) as (r0 & Er & OKr & HD & HT).
    rewrite Er. cbn [bind].
    assert (T0 : forall xs' ys', Ret xs = Ret xs' -> Ret ys = Ret ys' -> visits_exact (u2hg x) xs' -> visits_exact (u2hg y) ys' ->
      forall i j, i <> j -> mfind (i, j) (trimap r0) = mtri fx fy hxx hyy (u2hg x) (u2hg y) i j).
    { intros xs' ys' [= <-] [= <-]. exact HT. }
    destruct (neqb hxy n0) eqn:Eh; cbn [negb bind].
    - exists r0. split; [reflexivity|]. split; [exact OKr|]. exists r0. auto.
    - assert (KEYS : forall i, In i (map fst (diagmap r0)) <-> In i (map fst (diagmap (u2hg x))) \/ In i (map fst (diagmap (u2hg y)))).
      { intro i. destruct OKx as (SDx & _), OKy as (SDy & _), OKr as (SDr & _).
        assert (Q : forall m : list (Z * diag N), msorted m -> (In i (map fst m) <-> mfind i m <> None)).
        { intros m S. assert (I := mfind_None_iff i m S). destruct (mfind i m) eqn:E.
          - split; [congruence|]. intros _. apply mfind_In in E. exact (in_map fst _ _ E).
          - split; [|congruence]. intro H. destruct (proj1 I eq_refl H). }
        rewrite !Q by assumption. rewrite HD. unfold mcell.
        destruct (mfind i (diagmap (u2hg x))), (mfind i (diagmap (u2hg y))); intuition congruence. }
      destruct (cross_result hxy (u2hg x) (u2hg y) r0 (proj1 OKx) (proj1 OKy) OKr KEYS) as (r & Ec & OKr' & HD' & HT').
      rewrite Ec. cbn [bind]. exists r. split; [reflexivity|]. split; [exact OKr'|]. exists r0. auto 10.
  Qed.

  Lemma option_map_some {A B : Type} (f : A -> B) o b : option_map f o = Some b -> exists a, o = Some a /\ b = f a.
  Proof. destruct o; cbn; [|discriminate]. intros [= <-]. eauto. Qed.

  Lemma wf2_find last env x i d : wf2 last env x -> mfind i (diagmap (u2hg x)) = Some d ->
    (1 <= i <= last)%Z /\ dmom d = Some (env i).
  Proof. intros [_ H] E. apply mfind_In in E. now apply H. Qed.

  Lemma wf2_below last env x : wf2 last env x -> (last < maxid)%Z -> kbelow (u2hg x).
  Proof.
    intros [_ H] L i Hi. apply in_map_iff in Hi as ([j d] & <- & Hd). apply H in Hd. cbn. lia.
  Qed.

  Lemma unary_wf2 last env x fx f1 f2 : wf2 last env x -> exists z, u2_unary x fx f1 f2 = Ret z /\ wf2 last env z.
  Proof.
    intros W. destruct (unary_result x fx f1 f2 (proj1 W)) as (r & E & OK & HD & _).
    eexists. split; [exact E|]. split; [exact OK|]. cbn [u2hg]. intros i d Hd.
    apply (In_mfind _ _ _ (proj1 OK)) in Hd. rewrite HD in Hd. apply option_map_some in Hd as (d' & Hd & ->).
    exact (wf2_find _ _ _ _ _ W Hd).
  Qed.

  Lemma binary_wf2 last env x y fxy fx fy fxx fyy fxy' : wf2 last env x -> wf2 last env y -> (last < maxid)%Z ->
    exists z, u2_binary x y fxy fx fy fxx fyy fxy' = Ret z /\ wf2 last env z.
  Proof.
    intros Wx Wy L.
    destruct (binary_result x y fxy fx fy fxx fyy fxy' (proj1 Wx) (proj1 Wy) (wf2_below _ _ _ Wx L) (wf2_below _ _ _ Wy L))
      as (r & E & OK & r0 & OK0 & HD & _ & HC).
    eexists. split; [exact E|]. split; [exact OK|]. cbn [u2hg].
    assert (H0 : forall i d, mfind i (diagmap r0) = Some d -> (1 <= i <= last)%Z /\ dmom d = Some (env i)).
    { intros i d Hd. rewrite HD in Hd. unfold mcell in Hd.
      destruct (mfind i (diagmap (u2hg x))) as [a|] eqn:Ea, (mfind i (diagmap (u2hg y))) as [b|] eqn:Eb;
        try discriminate; injection Hd as <-; cbn [dmom cellX cellYn cellYf];
        first [exact (wf2_find _ _ _ _ _ Wx Ea)|exact (wf2_find _ _ _ _ _ Wy Eb)]. }
    destruct (neqb (ndiv fxy' (nofZ 2)) n0); [subst r; intros i d Hd; apply H0; now apply (In_mfind _ _ _ (proj1 OK))|].
    destruct HC as [HD' _]. intros i d Hd. apply (In_mfind _ _ _ (proj1 OK)) in Hd. rewrite HD' in Hd.
    destruct (mfind i (diagmap (u2hg x))) as [a|] eqn:Ea, (mfind i (diagmap (u2hg y))) as [b|] eqn:Eb;
      try (now apply H0).
    injection Hd as <-. cbn [wd wC dmom]. unfold mget.
    destruct (mfind i (diagmap r0)) as [d0|] eqn:E0; [now apply H0|].
    rewrite HD in E0. unfold mcell in E0. now rewrite Ea, Eb in E0.
  Qed.
End Wf2.

Section Run2.
  Context {N : Num}.
  Hypothesis zero_not_neg : nltb (n0 : N) n0 = false.
  Variable eig : list (list N) -> option (list N).

  (** The threshold of a construction is a number (not NaN). *)
  Definition thr_ok (c : call2 N) : Prop :=
    match c with
    | ENew _ _ _ thr | ENewStd _ _ _ _ thr => nltb thr n0 = false -> nleb n0 thr = true
    | _ => True
    end.

  Definition wwf2 (env : Z -> moms N) (w : world2 N) : Prop :=
    wwf (w2_w w) /\ forall v, wf2 (w2_last w) env (w2_var w v).

  Lemma check_throw_ok m thr : (nltb thr n0 = false -> nleb n0 thr = true) ->
    let o := if negb (nltb thr n0) then check_moments_throw eig m thr else Ret tt in
    o = Ret tt \/ exists e, o = Throw e.
  Proof.
    intros T o. unfold o. destruct (nltb thr n0); cbn [negb]; [now left|].
    unfold check_moments_throw. rewrite T by reflexivity. cbn [assert_ bind].
    unfold check_moments, hamburger. destruct (eig (hankel m)) as [v|]; [|cbn; eauto].
    destruct (fold_left ham_step v _) as [p q]. cbn [bind].
    destruct (_ || _); eauto.
  Qed.

  Definition env_add (env : Z -> moms N) (id : Z) (m : moms N) : Z -> moms N :=
    fun i => if (i =? id)%Z then m else env i.

  (** Both constructors: rejected without consuming an id, or a fresh variable. *)
  Definition new_spec (last : Z) (r : Z * outcome (ureal2 N)) : Prop :=
    (exists e, r = (last, Throw e)) \/
    (exists n g m, r = ((last + 1)%Z, Ret (mkU2 (hg_diag (last + 1) (fun _ => mkD g n0 (Some m)) hg_empty) n))).

  Lemma wrap_small last : (0 <= last)%Z -> (last < maxid)%Z -> wrap32 (last + 1) = (last + 1)%Z.
  Proof. intros P L. unfold wrap32, maxid in *. rewrite Z.mod_small; lia. Qed.

  Lemma new2_ok last n m thr : (0 <= last < maxid)%Z -> (nltb thr n0 = false -> nleb n0 thr = true) ->
    new_spec last (u2_new eig last n m thr).
  Proof.
    intros B T. unfold u2_new. destruct (check_throw_ok (cmoms_list m) thr T) as [-> | [e ->]].
    - right. rewrite wrap_small by lia. eauto.
    - left. eauto.
  Qed.
  Lemma new2_std_ok last n s m thr : (0 <= last < maxid)%Z -> (nltb thr n0 = false -> nleb n0 thr = true) ->
    new_spec last (u2_new_std eig last n s m thr).
  Proof.
    intros B T. unfold u2_new_std. destruct (nltb s n0); [left; eauto|].
    destruct (check_throw_ok (moms_list m) thr T) as [-> | [e ->]].
    - right. rewrite wrap_small by lia. eauto.
    - left. eauto.
  Qed.

  (** One step: the counter never decreases, and grows by at most one. *)
  Lemma gen_exec2 env w c : wwf2 env w -> nary_ok2 c -> thr_ok c ->
    (w2_last w + (if is_new2 c then 1 else 0) < maxid)%Z ->
    exists env', wwf2 env' (fst (exec2 eig w c)) /\
      (forall i, (i <= w2_last w)%Z -> env' i = env i) /\
      (w2_last w <= w2_last (fst (exec2 eig w c)) <= w2_last w + (if is_new2 c then 1 else 0))%Z /\
      (snd (exec2 eig w c) = Ret tt \/ exists e, snd (exec2 eig w c) = Throw e) /\
      (is_new2 c = true -> snd (exec2 eig w c) = Ret tt -> w2_last (fst (exec2 eig w c)) = (w2_last w + 1)%Z).
  Proof.
    intros [W1 W2] HN HT HB. assert (P := proj1 W1). fold (w2_last w) in P.
    assert (B : (w2_last w < maxid)%Z) by (destruct (is_new2 c); lia).
    assert (Set_ : forall v x, is_new2 c = false -> wf2 (w2_last w) env x ->
      exists env', wwf2 env' (fst (assign2 w v (Ret x))) /\
      (forall i, (i <= w2_last w)%Z -> env' i = env i) /\
      (w2_last w <= w2_last (fst (assign2 w v (Ret x))) <= w2_last w + (if is_new2 c then 1 else 0))%Z /\
      (snd (assign2 w v (Ret x)) = Ret tt \/ exists e, snd (assign2 w v (Ret x)) = Throw e) /\
      (is_new2 c = true -> snd (assign2 w v (Ret x)) = Ret tt -> w2_last (fst (assign2 w v (Ret x))) = (w2_last w + 1)%Z)).
    { intros v x Hc Wx. rewrite Hc. exists env. cbn [assign2 fst snd]. split; [split; [exact W1|]|].
      - intro u. cbn [w2_var]. unfold upd2. change (w2_last (mkW2 (w2_w w) _)) with (w2_last w).
        destruct (Nat.eqb u v); auto.
      - split; [auto|]. split; [unfold w2_last; cbn; lia|]. split; [now left|discriminate]. }
    assert (Un : forall x fx f1 f2,
      exists z, u2_unary (w2_var w x) fx f1 f2 = Ret z /\ wf2 (w2_last w) env z) by (intros; apply unary_wf2, W2).
    assert (Bi : forall x y a b c0 d e f, exists z, u2_binary (w2_var w x) (w2_var w y) a b c0 d e f = Ret z /\ wf2 (w2_last w) env z)
      by (intros; apply binary_wf2; auto).
    assert (New : forall v r, is_new2 c = true -> new_spec (w2_last w) r ->
      let q := let '(last, o) := r in assign2 (set_last w last) v o in
      exists env', wwf2 env' (fst q) /\
      (forall i, (i <= w2_last w)%Z -> env' i = env i) /\
      (w2_last w <= w2_last (fst q) <= w2_last w + (if is_new2 c then 1 else 0))%Z /\
      (snd q = Ret tt \/ exists e, snd q = Throw e) /\
      (is_new2 c = true -> snd q = Ret tt -> w2_last (fst q) = (w2_last w + 1)%Z)).
    { intros v r Hc [[e ->]|(n & g & m & ->)] q; rewrite Hc; unfold q.
      - cbn [assign2 fst snd]. exists env. split; [|split; [auto|split; [unfold w2_last, set_last; cbn; lia|split; [eauto|discriminate]]]].
        split; [exact W1|]. exact W2.
      - cbn [assign2 fst snd]. exists (env_add env (w2_last w + 1) m).
        assert (EA : forall i, (i <= w2_last w)%Z -> env_add env (w2_last w + 1) m i = env i).
        { intros i Hi. unfold env_add. destruct (Z.eqb_spec i (w2_last w + 1)); [lia|reflexivity]. }
        split; [|split; [exact EA|split; [unfold w2_last, set_last; cbn; lia|split; [eauto|reflexivity]]]].
        split.
        + split; [cbn; lia|]. intro u. cbn. eapply wf_mono; [|apply W1]. unfold w2_last; lia.
        + intro u. cbn [w2_var]. unfold upd2. change (w2_last (mkW2 _ _)) with (w2_last w + 1)%Z.
          destruct (Nat.eqb u v).
          * apply wf2_fresh; [lia|]. unfold env_add. now rewrite Z.eqb_refl.
          * eapply wf2_mono; [| |apply W2]; [lia|exact EA]. }
    destruct c; cbn [exec2] in *;
      try (apply Set_; [reflexivity|]; try apply wf2_empty; apply W2);
      try (destruct (Bi x y) as (z & Ez & Wz); rewrite Ez; now apply Set_);
      try (apply New; [reflexivity|]; (apply new2_ok || apply new2_std_ok); auto; lia).
    - destruct (gen_exec zero_not_neg (w2_w w) c W1 HN HB) as (W1' & L1 & O).
      destruct (exec (w2_w w) c) as [w1 o]. cbn [fst snd] in *. exists env.
      assert (L2 : w2_last (mkW2 w1 (w2_var w)) = (w2_last w + (if is_new c then 1 else 0))%Z) by exact L1.
      cbn [is_new2]. rewrite L2. split; [split; [exact W1'|]|].
      + intro v. cbn [w2_var]. rewrite L2. eapply wf2_mono; [| |apply W2]; [destruct (is_new c); lia|auto].
      + split; [auto|]. split; [destruct (is_new c); lia|]. split; [destruct O as [-> | ->]; eauto|]. now intros ->.
    - destruct (Un x (f (u2mu (w2_var w x))) (f1 (u2mu (w2_var w x))) (f2 (u2mu (w2_var w x)))) as (z & Ez & Wz).
      rewrite Ez. now apply Set_.
    - destruct (Bi x y (f (u2mu (w2_var w x)) (u2mu (w2_var w y))) (fx (u2mu (w2_var w x)) (u2mu (w2_var w y)))
        (fy (u2mu (w2_var w x)) (u2mu (w2_var w y))) (fxx (u2mu (w2_var w x)) (u2mu (w2_var w y)))
        (fyy (u2mu (w2_var w x)) (u2mu (w2_var w y))) (fxy (u2mu (w2_var w x)) (u2mu (w2_var w y)))) as (z & Ez & Wz).
      rewrite Ez. now apply Set_.
    - unfold u2_neg. edestruct (Un x) as (z & Ez & Wz). rewrite Ez. now apply Set_.
    - unfold u2_add. edestruct (Bi x y) as (z & Ez & Wz). rewrite Ez. now apply Set_.
    - unfold u2_sub. edestruct (Bi x y) as (z & Ez & Wz). rewrite Ez. now apply Set_.
    - unfold u2_mul. edestruct (Bi x y) as (z & Ez & Wz). rewrite Ez. now apply Set_.
    - unfold u2_div. edestruct (Bi x y) as (z & Ez & Wz). rewrite Ez. now apply Set_.
  Qed.

  Lemma count_new2_cons (c : call2 N) cs : Z.of_nat (count_new2 (c :: cs))
    = ((if is_new2 c then 1 else 0) + Z.of_nat (count_new2 cs))%Z.
  Proof. unfold count_new2. cbn [filter]. destruct (is_new2 c); cbn [length]; lia. Qed.
  Lemma count_new2_app (a b : list (call2 N)) : count_new2 (a ++ b) = (count_new2 a + count_new2 b)%nat.
  Proof. unfold count_new2. now rewrite filter_app, app_length. Qed.

  Lemma gen_run2 cs : forall env w, wwf2 env w -> List.Forall nary_ok2 cs -> List.Forall thr_ok cs ->
    (w2_last w + Z.of_nat (count_new2 cs) < maxid)%Z ->
    exists env' w', run2 eig w cs = Ret w' /\ wwf2 env' w' /\ (forall i, (i <= w2_last w)%Z -> env' i = env i) /\
      (w2_last w <= w2_last w' <= w2_last w + Z.of_nat (count_new2 cs))%Z.
  Proof.
    induction cs as [|c cs IH]; intros env w W F F2 B.
    - exists env, w. split; [reflexivity|]. split; [exact W|]. split; [auto|]. cbn; lia.
    - inversion F as [|? ? Fc Fcs]; subst. inversion F2 as [|? ? Tc Tcs]; subst.
      rewrite count_new2_cons in *.
      destruct (gen_exec2 env w c W Fc Tc) as (env1 & W1 & E1' & L1 & O & _); [destruct (is_new2 c); lia|].
      destruct (IH env1 (fst (exec2 eig w c)) W1 Fcs Tcs) as (env' & w' & Er & W' & E' & L'); [lia|].
      exists env', w'. cbn [run2]. destruct (exec2 eig w c) as [w1 o]. cbn [fst snd] in *.
      split; [destruct O as [-> | [e ->]]; exact Er|]. split; [exact W'|]. split; [|lia].
      intros i Hi. rewrite E' by lia. apply E1'. lia.
  Qed.

  Lemma wwf2_init (env : Z -> moms N) : wwf2 env w2_init.
  Proof.
    split.
    - split; [cbn; lia|]. intro v. apply default_wf.
    - intro v. apply wf2_empty.
  Qed.

  Lemma gen_run2_init cs : List.Forall nary_ok2 cs -> List.Forall thr_ok cs -> (count_new2 cs <= max_new)%nat ->
    exists env w, run2 eig w2_init cs = Ret w /\ wwf2 env w /\ (w2_last w <= Z.of_nat (count_new2 cs))%Z /\ (0 <= w2_last w < maxid)%Z.
  Proof.
    intros F T C. apply max_new_lt in C.
    destruct (gen_run2 cs (fun _ => mkM n0 n0 n0 n0 n0 n0) w2_init (wwf2_init _) F T) as (env & w & E & W & _ & L).
    - cbn; lia.
    - exists env, w. split; [exact E|]. split; [exact W|]. cbn in L. lia.
  Qed.
End Run2.
