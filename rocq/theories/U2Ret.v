(** * U2Ret: the queries of UReal2 return on well formed storage *)

From Coq Require Import List ZArith Bool Lia Sorted.
From Verif Require Import Base Num Map UReal HessGrad Moments CheckMoments UReal2 HessProofs U2Facts U2World.
Import ListNotations.

Section Ret.
  Context {N : Num}.

  Lemma omapM_some {A B : Type} (f : A -> outcome B) (l : list A) :
    (forall a, In a l -> exists b, f a = Ret b) -> exists bs, omapM f l = Ret bs /\ Forall2 (fun a b => f a = Ret b) l bs.
  Proof.
    induction l as [|a l IH]; intro H; cbn [omapM]; [exists []; split; [reflexivity|constructor]|].
    destruct (H a (or_introl eq_refl)) as (b & E). rewrite E; cbn [bind].
    destruct IH as (bs & Eb & F); [intros c Hc; apply H; now right|].
    rewrite Eb; cbn [bind]. exists (b :: bs). split; [reflexivity|now constructor].
  Qed.

  Lemma read_some (d : diag N) : dmom d <> None -> exists r, read_diag d = Ret r.
  Proof. unfold read_diag. destruct (dmom d); [eauto|congruence]. Qed.

  Lemma read_entries (h : hessgrad N) : hg_ok h -> exists ds, omapM read_entry (diagmap h) = Ret ds /\
    Forall2 (fun a b => read_entry a = Ret b) (diagmap h) ds.
  Proof.
    intros (_ & _ & _ & HM). apply omapM_some. intros [k d] Hd.
    destruct (read_some d (HM k d Hd)) as (r & E). exists (k, r). unfold read_entry. cbn. now rewrite E.
  Qed.

  Lemma diag_mom (h : hessgrad N) i : hg_ok h -> In i (map fst (diagmap h)) -> dmom (mget diag0 i (diagmap h)) <> None.
  Proof.
    intros (SD & _ & _ & HM) Hi. apply in_map_iff in Hi as ([k d] & E & Hd). cbn in E; subst k.
    rewrite (mget_In _ _ d _ SD Hd). exact (HM _ _ Hd).
  Qed.

  Lemma tpairs_In T (d : list (Z * diag N)) v : In v (tpairs T d) ->
    In (vid1 v, vd1 v) d /\ In (vid2 v, vd2 v) d.
  Proof.
    induction d as [|[i di] d IH]; cbn [tpairs]; intro H; [destruct H|].
    apply in_app_iff in H as [H|H].
    - apply in_map_iff in H as ([j dj] & <- & Hj). cbn. auto.
    - destruct (IH H). cbn; auto.
  Qed.

  Lemma read_visits (h : hessgrad N) (skip : bool) : hg_ok h -> exists ts0 ts, tri_visits h skip = Ret ts0 /\
    omapM read_visit ts0 = Ret ts /\ Forall2 (fun a b => read_visit a = Ret b) ts0 ts /\
    ts0 = if skip then map (tvisit (diagmap h)) (trimap h) else tpairs (trimap h) (diagmap h).
  Proof.
    intro OK. assert (OK' := OK). destruct OK' as (SD & ST & HK & HM).
    set (ts0 := if skip then map (tvisit (diagmap h)) (trimap h) else tpairs (trimap h) (diagmap h)).
    assert (E0 : tri_visits h skip = Ret ts0).
    { unfold ts0. destruct skip; [now apply tri_visits_skip|now apply tri_visits_all]. }
    destruct (omapM_some read_visit ts0) as (ts & E & F).
    - intros v Hv. assert (H : dmom (vd1 v) <> None /\ dmom (vd2 v) <> None).
      { unfold ts0 in Hv. destruct skip.
        - apply in_map_iff in Hv as ([[i j] x] & <- & Hx). destruct (HK i j (in_map fst _ _ Hx)) as (_ & Hi & Hj).
          cbn [tvisit vd1 vd2 fst snd]. split; now apply diag_mom.
        - apply tpairs_In in Hv as [H1 H2]. split; eapply HM; eassumption. }
      destruct H as [H1 H2]. destruct (read_some _ H1) as (r1 & E1). destruct (read_some _ H2) as (r2 & E2).
      unfold read_visit. rewrite E1; cbn [bind]. rewrite E2; cbn [bind]. eauto.
    - exists ts0, ts. auto.
  Qed.

  (** the ids of the visits of the stored off-diagonal elements *)
  Definition tid (t : tentry N) : Z * Z := (id1 t, id2 t).
  Lemma read_visit_id (v : visit N) t : read_visit v = Ret t -> tid t = vid v /\ val t = vval v.
  Proof.
    unfold read_visit. destruct (read_diag (vd1 v)); cbn [bind]; try discriminate.
    destruct (read_diag (vd2 v)); cbn [bind]; try discriminate. intros [= <-]. split; reflexivity.
  Qed.
  Lemma read_visits_ids ts0 ts : Forall2 (fun (a : visit N) b => read_visit a = Ret b) ts0 ts -> map tid ts = map vid ts0.
  Proof.
    induction 1 as [|v t ts0 ts E F IH]; [reflexivity|]. cbn [map]. rewrite IH. f_equal. now apply read_visit_id.
  Qed.
  Lemma map_tvisit_ids D (T : list ((Z * Z) * N)) : map vid (map (tvisit D) T) = map fst T.
  Proof. rewrite map_map. apply map_ext. intros [[i j] x]. reflexivity. Qed.

  Lemma for_while_ret {A S : Type} (test : A -> bool) (f : A -> S -> outcome S) (l : list A) :
    (forall a m, In a l -> test a = true -> exists m', f a m = Ret m') ->
    forall m, exists m', ofor_while test f l m = Ret m'.
  Proof.
    induction l as [|a l IH]; intros H m; cbn [ofor_while]; [eauto|].
    destruct (test a) eqn:E; [|eauto]. destruct (H a m (or_introl eq_refl) E) as (m' & ->). cbn [bind].
    apply IH. intros b m1 Hb. apply H. now right.
  Qed.

  Lemma m3_loop_ret (h : hessgrad N) ts : StronglySorted klt (map tid ts) ->
    forall m, exists m', ofor_tails (m3_DE h) ts m = Ret m'.
  Proof.
    induction ts as [|t ts IH]; intros S m; cbn [ofor_tails]; [eauto|].
    cbn [map] in S. inversion S as [|? ? S' L]; subst. rewrite Forall_forall in L.
    destruct (for_while_ret (fun it2 => (id1 it2 =? id1 t)%Z) (m3_E h t) ts) with (m := m3_D t m) as (m1 & E).
    - intros a m1 Ha Ht. apply Z.eqb_eq in Ht. specialize (L _ (in_map tid _ _ Ha)). apply klt_ZZ in L.
      unfold tid in L. cbn [fst snd] in L.
      assert (Hlt : (id2 t < id2 a)%Z) by lia. unfold m3_E, hg_tri_get. apply Z.ltb_lt in Hlt. rewrite Hlt.
      cbn [assert_ bind]. eauto.
    - unfold m3_DE at 1. rewrite E. cbn [bind]. apply IH. exact S'.
  Qed.

  Lemma m2_ret (h : hessgrad N) : hg_ok h -> exists m, compute_m2 h = Ret m.
  Proof.
    intro OK. unfold compute_m2. destruct (read_entries h OK) as (ds & -> & _). cbn [bind].
    destruct (read_visits h false OK) as (ts0 & ts & -> & E & _). cbn [bind]. rewrite E. cbn [bind]. eauto.
  Qed.
  Lemma m3_ret (h : hessgrad N) : hg_ok h -> exists m, compute_m3 h = Ret m.
  Proof.
    intro OK. unfold compute_m3. destruct (read_entries h OK) as (ds & -> & _). cbn [bind].
    destruct (read_visits h true OK) as (ts0 & ts & -> & E & F & E0). cbn [bind]. rewrite E. cbn [bind].
    apply m3_loop_ret. rewrite (read_visits_ids _ _ F), E0, map_tvisit_ids. exact (proj1 (proj2 OK)).
  Qed.
  Lemma m4_ret (h : hessgrad N) : hg_ok h -> exists m, compute_m4 h = Ret m.
  Proof.
    intro OK. unfold compute_m4. destruct (read_entries h OK) as (ds & -> & _). cbn [bind].
    destruct (read_visits h true OK) as (ts0 & ts & -> & E & _). cbn [bind]. rewrite E. cbn [bind]. eauto.
  Qed.

  Lemma update_mom_ret (h : hessgrad N) a b c i : hg_ok h -> (0 <= i <= 3)%Z -> exists m, update_mom a b c i h = Ret m.
  Proof.
    intros OK Hi. assert (H : i = 0%Z \/ i = 1%Z \/ i = 2%Z \/ i = 3%Z) by lia.
    destruct H as [-> | [-> | [-> | ->]]]; unfold update_mom; cbn [Z.leb andb Z.compare Pos.compare Pos.compare_cont assert_ bind];
      unfold compute_mom; cbn [Z.leb Z.add Z.eqb Pos.add Pos.eqb andb Z.compare Pos.compare Pos.compare_cont assert_ bind Pos.succ].
    - eauto.
    - destruct (m2_ret h OK) as (m & ->). cbn [bind]. eauto.
    - destruct (m3_ret h OK) as (m & ->). cbn [bind]. eauto.
    - destruct (m4_ret h OK) as (m & ->). cbn [bind]. eauto.
  Qed.

  Lemma u2_m_ret (x : ureal2 N) n : hg_ok (u2hg x) -> (1 <= n <= 4)%Z -> exists m, u2_m x n = Ret m.
  Proof.
    intros OK Hn. unfold u2_m.
    replace ((1 <=? n) && (n <=? 4))%Z with true by (symmetry; apply andb_true_intro; split; apply Z.leb_le; lia).
    cbn [assert_ bind].
    destruct (update_mom_ret (u2hg x) n0 n0 n0 0 OK) as (m1 & ->); [lia|]. cbn [bind]. destruct (n <=? 1)%Z; [eauto|].
    destruct (update_mom_ret (u2hg x) m1 n0 n0 1 OK) as (m2 & ->); [lia|]. cbn [bind]. destruct (n <=? 2)%Z; [eauto|].
    destruct (update_mom_ret (u2hg x) m1 m2 n0 2 OK) as (m3 & ->); [lia|]. cbn [bind]. destruct (n <=? 3)%Z; [eauto|].
    apply update_mom_ret; [exact OK|lia].
  Qed.

  Lemma c2_A_ret (da : list (Z * diag N)) : (forall i x, In (i, x) da -> dmom x <> None) ->
    forall db m, exists m', c2_A da db m = Ret m'.
  Proof.
    induction da as [|[i x] da IH]; intro H; [intros [|[j y] db] m; cbn; eauto|].
    assert (IH' := IH (fun j y Hy => H j y (or_intror Hy))).
    induction db as [|[j y] db IHb]; intro m; [cbn; eauto|]. cbn [c2_A].
    assert (E : exists m', (if (i =? j)%Z then match dmom x with Some p => Ret (c2_A0 p x y m) | None => UB end else Ret m) = Ret m').
    { destruct (i =? j)%Z; [|eauto]. assert (Hx := H i x (or_introl eq_refl)). destruct (dmom x); [eauto|congruence]. }
    destruct E as (m' & ->). cbn [bind]. destruct (i <=? j)%Z; [destruct (j <=? i)%Z; apply IH'|]. apply IHb.
  Qed.

  Lemma c2_B_cons a (ta : list (visit N)) b tb m : c2_B (a :: ta) (b :: tb) m =
    (_ <- assert_ (vid1 a <? vid2 a)%Z;;
     _ <- assert_ (vid1 b <? vid2 b)%Z;;
     let m' := if peqb (vid a) (vid b) then nadd m (nmul (nmul (nofZ (2 * 2)) (vval a)) (vval b)) else m in
     if pleb (vid a) (vid b) then
       if pleb (vid b) (vid a) then c2_B ta tb m' else c2_B ta (b :: tb) m'
     else c2_B (a :: ta) tb m').
  Proof. reflexivity. Qed.

  Lemma c2_B_ret (ta : list (visit N)) : (forall v, In v ta -> (vid1 v < vid2 v)%Z) ->
    forall tb m, (forall v, In v tb -> (vid1 v < vid2 v)%Z) -> exists m', c2_B ta tb m = Ret m'.
  Proof.
    induction ta as [|a ta IH]; intro H; [intros [|b tb] m _; cbn; eauto|].
    assert (IH' := IH (fun v Hv => H v (or_intror Hv))).
    induction tb as [|b tb IHb]; intros m Hb; [cbn; eauto|]. rewrite c2_B_cons.
    assert (H1 := H a (or_introl eq_refl)). assert (H2 := Hb b (or_introl eq_refl)).
    apply Z.ltb_lt in H1, H2. rewrite H1, H2. cbn [assert_ bind]. cbv zeta.
    assert (Hb' : forall v, In v tb -> (vid1 v < vid2 v)%Z) by (intros v Hv; apply Hb; now right).
    destruct (pleb (vid a) (vid b)); [destruct (pleb (vid b) (vid a)); apply IH'; [exact Hb'|exact Hb]|].
    apply IHb; exact Hb'.
  Qed.

  Lemma tri_visit_lt (h : hessgrad N) v : hg_ok h -> In v (map (tvisit (diagmap h)) (trimap h)) -> (vid1 v < vid2 v)%Z.
  Proof.
    intros (_ & _ & HK & _) Hv. apply in_map_iff in Hv as ([[i j] x] & <- & Hx).
    destruct (HK i j (in_map fst _ _ Hx)) as (L & _ & _). exact L.
  Qed.

  Lemma c2_ret (a b : hessgrad N) : hg_ok a -> hg_ok b -> exists m, compute_c2 a b = Ret m.
  Proof.
    intros Oa Ob. unfold compute_c2. destruct (c2_A_ret (diagmap a) (proj2 (proj2 (proj2 Oa))) (diagmap b) n0) as (m & ->).
    cbn [bind]. rewrite (tri_visits_skip a Oa), (tri_visits_skip b Ob). cbn [bind].
    destruct (c2_B_ret (map (tvisit (diagmap a)) (trimap a)) (fun v => tri_visit_lt a v Oa)
                (map (tvisit (diagmap b)) (trimap b)) m (fun v => tri_visit_lt b v Ob)) as (m' & ->).
    cbn [bind]. eauto.
  Qed.

  Lemma u2_cov_ret (x y : ureal2 N) : hg_ok (u2hg x) -> hg_ok (u2hg y) -> exists c, u2_cov x y = Ret c.
  Proof.
    intros Ox Oy. unfold u2_cov. destruct (c2_ret _ _ Ox Oy) as (c & ->). cbn [bind].
    destruct (u2_m_ret x 1 Ox) as (mx & ->); [lia|]. destruct (u2_m_ret y 1 Oy) as (my & ->); [lia|]. cbn [bind]. eauto.
  Qed.

  Lemma size_one (h : hessgrad N) : (hg_size h =? 1)%nat = true -> exists k d, diagmap h = [(k, d)].
  Proof.
    unfold hg_size. intro E. apply Nat.eqb_eq in E. destruct (diagmap h) as [|[k d] [|? ?]]; try discriminate. eauto.
  Qed.

  Lemma u2_grad_safe (t x : ureal2 N) : (exists g, u2_grad t x = Ret g) \/ u2_grad t x = Throw InvalidArgument.
  Proof.
    unfold u2_grad. destruct (hg_size (u2hg x) =? 1)%nat eqn:E; cbn [negb]; [|now right].
    apply size_one in E as (k & d & ->). left. eauto.
  Qed.
  Lemma hhess_get_ret (h : hessgrad N) i j : exists v, hg_hhess_get h i j = Ret v.
  Proof.
    unfold hg_hhess_get. destruct (Z.eqb_spec i j) as [E|E]; cbn [negb]; [eauto|].
    unfold hg_tri_get. replace (Z.min i j <? Z.max i j)%Z with true by (symmetry; apply Z.ltb_lt; lia). cbn; eauto.
  Qed.
  Lemma u2_hess_safe (t x y : ureal2 N) : (exists g, u2_hess t x y = Ret g) \/ u2_hess t x y = Throw InvalidArgument.
  Proof.
    unfold u2_hess. destruct (hg_size (u2hg x) =? 1)%nat eqn:Ex; cbn [negb orb]; [|now right].
    destruct (hg_size (u2hg y) =? 1)%nat eqn:Ey; cbn [negb]; [|now right].
    apply size_one in Ex as (k & d & ->). apply size_one in Ey as (k' & d' & ->).
    destruct (negb (k =? k')%Z).
    - destruct (hhess_get_ret (u2hg t) k k') as (v & ->). cbn [bind]. left. eauto.
    - destruct (_ || _); [now right|]. destruct (hhess_get_ret (u2hg t) k k) as (v & ->). cbn [bind]. left. eauto.
  Qed.
  Lemma u2_indepid_ret (x : ureal2 N) : exists i, u2_indepid x = Ret i.
  Proof.
    unfold u2_indepid. destruct (negb (u2_isindep x)); [eauto|].
    destruct (hg_size (u2hg x) =? 1)%nat eqn:E; [|eauto]. apply size_one in E as (k & d & ->). eauto.
  Qed.
  Lemma u2_all_ret p (x : ureal2 N) : hg_ok (u2hg x) -> exists b, u2_all p x = Ret b.
  Proof.
    intro OK. unfold u2_all. destruct (negb (p (u2mu x))); [eauto|]. destruct (negb _); [eauto|].
    rewrite tri_visits_skip by exact OK. cbn [bind]. eauto.
  Qed.
End Ret.
