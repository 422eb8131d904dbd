(** * HessProofs: the iterators of HessGrad *)

From Coq Require Import List ZArith Bool Sorted Lia.
From Verif Require Import Base Num Map HessGrad.
Import ListNotations.

Section Walk.
  Context {N : Num}.

  (** The sequence of visits of a terminating walk. *)
  Inductive chain (next : iter N -> outcome (iter N)) (look : iter N -> outcome (visit N)) :
    iter N -> list (visit N) -> Prop :=
  | ch_end it : it_more it = false -> chain next look it []
  | ch_step it v it' vs : it_more it = true -> look it = Ret v -> next it = Ret it' ->
      chain next look it' vs -> chain next look it (v :: vs).

  Lemma chain_walk next look it vs : chain next look it vs ->
    forall fuel, (length vs < fuel)%nat -> walk next look fuel it = Ret vs.
  Proof.
    induction 1 as [it E|it v it' vs E L X C IH]; intros [|fuel] F; cbn in F; try lia; cbn [walk]; rewrite E.
    - reflexivity.
    - rewrite L; cbn [bind]. rewrite X; cbn [bind]. rewrite IH by lia. reflexivity.
  Qed.
End Walk.

(** ** Sorted lists *)
Section SortedFacts.
  Context {K V : Type} {KO : KeyOrd K}.

  Lemma msorted_cons k v (m : list (K * V)) : msorted m ->
    (forall k', In k' (map fst m) -> klt k k') -> msorted ((k, v) :: m).
  Proof. intros S L. unfold msorted; cbn [map fst]. constructor; [exact S|]. now apply Forall_forall. Qed.

  Lemma msorted_app_inv (a b : list (K * V)) : msorted (a ++ b) ->
    msorted a /\ msorted b /\ (forall x y, In x (map fst a) -> In y (map fst b) -> klt x y).
  Proof.
    induction a as [|[k v] a IH]; cbn [app]; intro S.
    - split; [constructor|]. split; [exact S|]. intros x y [].
    - apply msorted_inv in S as [S L]. destruct (IH S) as (Sa & Sb & Lab).
      split; [|split].
      + apply msorted_cons; [exact Sa|]. intros x Hx. apply L. rewrite map_app, in_app_iff. now left.
      + exact Sb.
      + intros x y [<-|Hx] Hy; [|now apply Lab]. apply L. rewrite map_app, in_app_iff. now right.
  Qed.

  Lemma msorted_app (a b : list (K * V)) : msorted a -> msorted b ->
    (forall x y, In x (map fst a) -> In y (map fst b) -> klt x y) -> msorted (a ++ b).
  Proof.
    induction a as [|[k v] a IH]; cbn [app]; intros Sa Sb L; [exact Sb|].
    apply msorted_inv in Sa as [Sa La].
    assert (H1 : msorted (a ++ b)) by (apply IH; auto; intros x y Hx; apply L; now right).
    unfold msorted in *. cbn [map fst]. constructor; [exact H1|].
    apply Forall_forall. rewrite map_app. intros x Hx. apply in_app_iff in Hx as [Hx|Hx]; [now apply La|].
    apply L; [now left|exact Hx].
  Qed.

  Lemma msorted_filter (f : K * V -> bool) (m : list (K * V)) : msorted m -> msorted (filter f m).
  Proof.
    induction m as [|[k v] m IH]; cbn [filter]; intro S; [exact S|].
    apply msorted_inv in S as [S L]. destruct (f (k, v)); [|auto].
    apply msorted_cons; [auto|]. intros x Hx. apply L.
    apply in_map_iff in Hx as (y & <- & Hy). apply filter_In in Hy as [Hy _]. now apply in_map.
  Qed.

  Lemma mset_last (m : list (K * V)) k v : (forall x, In x (map fst m) -> klt x k) -> mset k v m = m ++ [(k, v)].
  Proof.
    induction m as [|[k' v'] m IH]; cbn; intro L; [reflexivity|].
    assert (E : kcmp k k' = Gt) by (apply kcmp_gt; apply L; now left).
    rewrite E. f_equal. apply IH. auto.
  Qed.

  (** Writing the elements of a sorted list one by one rebuilds it. *)
  Lemma fold_mset_sorted (m a : list (K * V)) : msorted (a ++ m) ->
    fold_left (fun z kv => mset (fst kv) (snd kv) z) m a = a ++ m.
  Proof.
    revert a; induction m as [|[k v] m IH]; intros a S; cbn [fold_left]; [now rewrite app_nil_r|].
    cbn [fst snd]. destruct (msorted_app_inv _ _ S) as (_ & _ & L).
    rewrite mset_last by (intros x Hx; apply L; [exact Hx|now left]).
    replace (a ++ (k, v) :: m) with ((a ++ [(k, v)]) ++ m) in * by now rewrite <- app_assoc.
    apply IH. exact S.
  Qed.

  Lemma fold_mset_map {A : Type} (f : A -> K * V) (l : list A) (a : list (K * V)) :
    msorted (a ++ map f l) -> fold_left (fun z x => mset (fst (f x)) (snd (f x)) z) l a = a ++ map f l.
  Proof.
    intro S. rewrite <- (fold_mset_sorted (map f l) a S).
    clear S. revert a; induction l as [|x l IH]; intro a; cbn; [reflexivity|]. apply IH.
  Qed.
End SortedFacts.

Section Hess.
  Context {N : Num}.
  Implicit Types (D : list (Z * diag N)) (t T : list ((Z * Z) * N)).

  (** ** The storage invariant *)
  Definition hg_ok (h : hessgrad N) : Prop :=
    msorted (diagmap h) /\ msorted (trimap h) /\
    (forall i j, In (i, j) (map fst (trimap h)) ->
       (i < j)%Z /\ In i (map fst (diagmap h)) /\ In j (map fst (diagmap h))) /\
    (forall i x, In (i, x) (diagmap h) -> dmom x <> None).

  Lemma hg_empty_ok : hg_ok hg_empty.
  Proof. repeat split; try constructor; cbn in *; tauto. Qed.

  Lemma klt_Z (a b : Z) : klt a b <-> (a < b)%Z.
  Proof. unfold klt; cbn. apply Z.compare_lt_iff. Qed.
  Lemma klt_lt (a b : Z) : klt a b -> (a < b)%Z.
  Proof. apply klt_Z. Qed.
  Lemma klt_ZZ (a b : Z * Z) : klt a b <-> (fst a < fst b)%Z \/ (fst a = fst b /\ (snd a < snd b)%Z).
  Proof.
    unfold klt; cbn. unfold ZZcmp. destruct (Z.compare_spec (fst a) (fst b)) as [E|E|E].
    - rewrite Z.compare_lt_iff. lia.
    - split; [left; exact E|reflexivity].
    - split; [discriminate|lia].
  Qed.

  Lemma advance_skip i (pre d : list (Z * diag N)) : (forall k, In k (map fst pre) -> (k < i)%Z) ->
    advance_to i (pre ++ d) = advance_to i d.
  Proof.
    induction pre as [|[k x] pre IH]; cbn; intro L; [reflexivity|].
    destruct (Z.ltb_spec k i) as [_|H]; [apply IH; auto|].
    specialize (L k (or_introl eq_refl)). lia.
  Qed.

  Lemma advance_here i x (d : list (Z * diag N)) : advance_to i ((i, x) :: d) = (i, x) :: d.
  Proof. cbn. now rewrite Z.ltb_irrefl. Qed.

  (** Splitting a sorted map at a key. *)
  Lemma split_at (d : list (Z * diag N)) i : msorted d -> In i (map fst d) ->
    exists pre x post, d = pre ++ (i, x) :: post /\ (forall k, In k (map fst pre) -> (k < i)%Z) /\
      (forall k, In k (map fst post) -> (i < k)%Z).
  Proof.
    intros S H. apply in_map_iff in H as ([k x] & E & H). cbn in E; subst k.
    apply in_split in H as (pre & post & ->). exists pre, x, post. split; [reflexivity|].
    destruct (msorted_app_inv _ _ S) as (_ & S2 & L). apply msorted_inv in S2 as [_ L2].
    split; intros k Hk; apply klt_Z; [apply L; [exact Hk|now left]|now apply L2].
  Qed.

  (** ** Rows of the off-diagonal map *)
  Definition in_row (i : Z) (kv : (Z * Z) * N) : bool := (fst (fst kv) =? i)%Z.
  Definition row (T : list ((Z * Z) * N)) (i : Z) : list ((Z * Z) * N) := filter (in_row i) T.

  Lemma row_key T i kv : In kv (row T i) -> fst (fst kv) = i /\ In kv T.
  Proof. unfold row. rewrite filter_In. unfold in_row. rewrite Z.eqb_eq. tauto. Qed.

  (** A sorted list whose first indices are among the increasing keys [ks] is the
      concatenation of its rows. *)
  Lemma rows_concat (ks : list Z) T : StronglySorted klt ks -> msorted T ->
    (forall kv, In kv T -> In (fst (fst kv)) ks) -> flat_map (row T) ks = T.
  Proof.
    revert T; induction ks as [|i ks IH]; intros T Sk ST Hin; cbn [flat_map].
    - destruct T as [|kv T]; [reflexivity|]. destruct (Hin kv (or_introl eq_refl)).
    - inversion Sk as [|? ? Sk' Li]; subst. rewrite Forall_forall in Li.
      assert (Hd : T = row T i ++ filter (fun kv => negb (in_row i kv)) T).
      { clear IH. assert (Hge : forall kv, In kv T -> (i <= fst (fst kv))%Z).
        { intros [[a b] v] H. apply Hin in H. cbn [fst] in *. destruct H as [<-|H]; [lia|]. apply Li in H. apply klt_lt in H. lia. }
        clear Hin. revert ST Hge. unfold row. induction T as [|[[a b] v] T IH]; intros ST Hge; [reflexivity|].
        apply msorted_inv in ST as [ST L]. cbn [filter].
        destruct (in_row i (a, b, v)) eqn:ER; cbn [negb]; unfold in_row in ER; cbn in ER;
          [apply Z.eqb_eq in ER; subst a|apply Z.eqb_neq in ER].
        - cbn [app]. f_equal. apply IH; [exact ST|]. intros kv H. apply Hge. now right.
        - assert (E : filter (in_row i) T = []).
          { destruct (filter (in_row i) T) as [|kv l] eqn:E; [reflexivity|exfalso].
            assert (H : In kv (filter (in_row i) T)) by (rewrite E; now left).
            apply filter_In in H as [H Hr]. unfold in_row in Hr. apply Z.eqb_eq in Hr.
            assert (Hl := L (fst kv) (in_map fst _ _ H)). apply klt_ZZ in Hl; cbn in Hl.
            specialize (Hge (a, b, v) (or_introl eq_refl)). cbn in Hge. lia. }
          rewrite E in *. cbn [app] in *. f_equal.
          apply IH; [exact ST|]. intros kv H. apply Hge. now right. }
      rewrite Hd at 3. f_equal.
      rewrite <- (IH (filter (fun kv => negb (in_row i kv)) T)).
      + assert (NI : forall k, In k ks -> k <> i).
        { intros k Hk ->. apply Li in Hk. now apply klt_irrefl in Hk. }
        clear -NI. induction ks as [|k ks IHk]; [reflexivity|]. cbn [flat_map]. f_equal.
        * unfold row. clear -NI. specialize (NI k (or_introl eq_refl)).
          induction T as [|kv T IHT]; [reflexivity|]. cbn [filter]. 
          destruct (in_row k kv) eqn:E; destruct (in_row i kv) eqn:E'; cbn [negb filter]; rewrite ?E.
          -- unfold in_row in E, E'. apply Z.eqb_eq in E, E'. congruence.
          -- now f_equal.
          -- exact IHT.
          -- exact IHT.
        * apply IHk. intros; apply NI; now right.
      + exact Sk'.
      + now apply msorted_filter.
      + intros kv H. apply filter_In in H as [H Hr]. apply negb_true_iff, Z.eqb_neq in Hr.
        destruct (Hin kv H) as [E|Hk]; [exfalso; auto|exact Hk].
  Qed.

  Lemma mget_In (m : list (Z * diag N)) k x d0 : msorted m -> In (k, x) m -> mget d0 k m = x.
  Proof. intros S H. unfold mget. now rewrite (In_mfind _ _ _ S H). Qed.

  (** ** ConstTriIt, skipping missing elements: one visit per stored element *)
  Definition tvisit D (kv : (Z * Z) * N) : visit N :=
    mkV (fst (fst kv)) (snd (fst kv)) (mget diag0 (fst (fst kv)) D) (mget diag0 (snd (fst kv)) D) (snd kv).

  Definition tri_keys_in D t : Prop := forall i j, In (i, j) (map fst t) ->
    (i < j)%Z /\ In i (map fst D) /\ In j (map fst D).

  Lemma tri_skip_chain D t : msorted D -> msorted t -> tri_keys_in D t ->
    forall pre dmin dmax, D = pre ++ dmin ->
    (forall k i j, In k (map fst pre) -> In (i, j) (map fst t) -> (k < i)%Z) ->
    exists it, update_diag (mkIt dmin dmax t true) = Ret it /\ chain tri_next tri_visit it (map (tvisit D) t).
  Proof.
    intro SD. induction t as [|[[i j] x] t IH]; intros St Hk pre dmin dmax ED Hpre.
    - exists (mkIt [] [] [] true). split; [reflexivity|]. now constructor.
    - destruct (Hk i j (or_introl eq_refl)) as (Lij & Hi & Hj).
      apply msorted_inv in St as [St Lt].
      assert (Sd : msorted dmin) by (subst D; now apply msorted_app_inv in SD).
      assert (Hi' : In i (map fst dmin)).
      { subst D. rewrite map_app in Hi. apply in_app_iff in Hi as [Hi|Hi]; [|exact Hi].
        specialize (Hpre i i j Hi (or_introl eq_refl)). lia. }
      destruct (split_at dmin i Sd Hi') as (p & xi & q & Ed & Lp & Lq).
      assert (Hj' : In j (map fst q)).
      { assert (H : In j (map fst D)) by exact Hj. subst D dmin. rewrite map_app in H. apply in_app_iff in H as [H|H].
        - specialize (Hpre j i j H (or_introl eq_refl)). lia.
        - rewrite map_app in H. apply in_app_iff in H as [H|[H|H]]; [apply Lp in H; lia|cbn in H; lia|exact H]. }
      assert (Sq : msorted q).
      { subst dmin. apply msorted_app_inv in Sd as (_ & Sd & _). now apply msorted_inv in Sd. }
      destruct (split_at q j Sq Hj') as (p2 & xj & q2 & Eq & Lp2 & Lq2).
      assert (A1 : advance_to i dmin = (i, xi) :: q).
      { subst dmin. rewrite advance_skip by exact Lp. apply advance_here. }
      assert (A2 : advance_to j ((i, xi) :: q) = (j, xj) :: q2).
      { rewrite Eq. change ((i, xi) :: p2 ++ (j, xj) :: q2) with (((i, xi) :: p2) ++ (j, xj) :: q2).
        rewrite advance_skip; [apply advance_here|]. intros k [<-|Hk']; [exact Lij|now apply Lp2]. }
      set (it := mkIt ((i, xi) :: q) ((j, xj) :: q2) (((i, j), x) :: t) true).
      exists it. split.
      { unfold update_diag. cbn [it_tri it_min it_skip]. rewrite A1. cbn [at_key]. rewrite Z.eqb_refl.
        cbn [assert_ bind]. rewrite A2. cbn [at_key]. rewrite Z.eqb_refl. reflexivity. }
      destruct (IH St (fun a b H => Hk a b (or_intror H)) (pre ++ p) ((i, xi) :: q) ((j, xj) :: q2)) as (it' & U & C).
      { subst D dmin. now rewrite <- app_assoc. }
      { intros k a b H Hab. assert (L := Lt _ Hab). apply klt_ZZ in L; cbn in L.
        rewrite map_app in H. apply in_app_iff in H as [H|H].
        - specialize (Hpre k i j H (or_introl eq_refl)). lia.
        - apply Lp in H. lia. }
      cbn [map]. econstructor; [reflexivity| | |exact C].
      + assert (M1 : mget diag0 i D = xi); [|assert (M2 : mget diag0 j D = xj)];
          [apply mget_In; auto; subst D dmin..|unfold tvisit; cbn; now rewrite M1, M2].
        * apply in_app_iff; right. apply in_app_iff; right. now left.
        * apply in_app_iff; right. apply in_app_iff; right. right. rewrite Eq. apply in_app_iff; right. now left.
      + unfold it, tri_next. cbn [it_skip it_tri it_next bind it_min it_max]. exact U.
  Qed.

  Lemma tri_visits_skip h : hg_ok h -> tri_visits h true = Ret (map (tvisit (diagmap h)) (trimap h)).
  Proof.
    intros (SD & ST & HK & _).
    destruct (tri_skip_chain (diagmap h) (trimap h) SD ST HK [] (diagmap h) (diagmap h) eq_refl) as (it & U & C);
      [intros k i j []|].
    unfold tri_visits, tri_begin. rewrite U; cbn [bind].
    apply (chain_walk _ _ _ _ C). rewrite map_length. unfold walk_fuel. lia.
  Qed.

  (** ** ConstTriIt, not skipping: all pairs of variables *)
  Fixpoint tpairs T (d : list (Z * diag N)) : list (visit N) :=
    match d with
    | [] => []
    | (i, di) :: d' => map (fun jd => mkV i (fst jd) di (snd jd) (mget n0 (i, fst jd) T)) d' ++ tpairs T d'
    end.

  Lemma pltb_klt a b : pltb a b = true <-> klt a b.
  Proof. unfold pltb, klt. destruct (kcmp a b); intuition congruence. Qed.
  Lemma peqb_eq a b : peqb a b = true <-> a = b.
  Proof. unfold peqb. rewrite <- kcmp_eq. destruct (kcmp a b); intuition congruence. Qed.
  Lemma pleb_le a b : pleb a b = true <-> ~ klt b a.
  Proof. unfold pleb, klt. rewrite (kcmp_opp a b). destruct (kcmp a b); cbn; intuition congruence. Qed.

  Lemma tri_advance_trans id id' T : msorted T -> ~ klt id' id ->
    tri_advance id' (tri_advance id T) = tri_advance id' T.
  Proof.
    intros ST L. induction T as [|[k x] T IH]; [reflexivity|]. apply msorted_inv in ST as [ST _].
    cbn [tri_advance]. destruct (pltb k id) eqn:E; [|reflexivity].
    rewrite IH by exact ST. destruct (pltb k id') eqn:E'; [reflexivity|exfalso].
    apply pltb_klt in E. assert (~ klt k id') by (rewrite <- pltb_klt; congruence).
    destruct (kcmp id id') eqn:C.
    - apply kcmp_eq in C. congruence.
    - apply H. eapply klt_trans; [exact E|exact C].
    - apply L. apply kcmp_gt in C. exact C.
  Qed.

  Lemma tri_advance_get id T : msorted T ->
    (match tri_advance id T with (k, x) :: _ => if peqb k id then x else n0 | [] => n0 end) = mget n0 id T.
  Proof.
    unfold mget. induction T as [|[k x] T IH]; intro ST; [reflexivity|]. apply msorted_inv in ST as [ST L].
    cbn [tri_advance mfind]. unfold pltb. rewrite (kcmp_opp id k).
    destruct (kcmp id k) eqn:C; cbn [CompOpp].
    - unfold peqb. rewrite (kcmp_opp id k), C. reflexivity.
    - unfold peqb. rewrite (kcmp_opp id k), C. reflexivity.
    - now apply IH.
  Qed.

  Lemma tri_advance_id id T : (forall k, In k (map fst T) -> ~ klt k id) -> tri_advance id T = T.
  Proof.
    destruct T as [|[k x] T]; [reflexivity|]. intro H. cbn. destruct (pltb k id) eqn:E; [|reflexivity].
    apply pltb_klt in E. exfalso. apply (H k); [now left|exact E].
  Qed.

  Lemma tri_ns_chain T (d : list (Z * diag N)) : msorted T -> msorted d ->
    forall t0, (match d with (i, _) :: (j, _) :: _ => tri_advance (i, j) t0 = tri_advance (i, j) T | _ => True end) ->
    chain tri_next tri_visit
      (match d with
       | (i, _) :: ((j, _) :: _) => mkIt d (tl d) (tri_advance (i, j) t0) false
       | _ => mkIt [] [] t0 false
       end) (tpairs T d).
  Proof.
    intro ST. induction d as [|[i di] d IH]; intros Sd t0 Ht0; [now constructor|].
    apply msorted_inv in Sd as [Sd Li]. destruct d as [|[j dj] d]; [now constructor|].
    cbn [tl]. rewrite Ht0. cbn [tpairs].
    assert (G : forall p m jm dm, (j, dj) :: d = p ++ (jm, dm) :: m ->
      chain tri_next tri_visit
        (mkIt ((i, di) :: (j, dj) :: d) ((jm, dm) :: m) (tri_advance (i, jm) T) false)
        (map (fun jd => mkV i (fst jd) di (snd jd) (mget n0 (i, fst jd) T)) ((jm, dm) :: m) ++ tpairs T ((j, dj) :: d))).
    { intros p m; revert p. induction m as [|[jn dn] m IHm]; intros p jm dm Ep.
      - cbn [map app]. econstructor; [reflexivity| | |apply (IH Sd (tri_advance (i, jm) T))].
        + cbn. rewrite <- (tri_advance_get (i, jm) T ST).
          destruct (tri_advance (i, jm) T) as [|[k x] tt]; reflexivity.
        + unfold tri_next. cbn [it_skip it_next it_max it_min bind at_end].
          destruct d as [|[j2 d2] d]; cbn [it_tri]; reflexivity.
        + destruct d as [|[j2 d2] d]; [exact I|]. apply tri_advance_trans; [exact ST|].
          rewrite klt_ZZ; cbn. assert (L := klt_lt _ _ (Li j (or_introl eq_refl))). lia.
      - cbn [map app]. econstructor; [reflexivity| | |apply (IHm (p ++ [(jm, dm)]))].
        + cbn. rewrite <- (tri_advance_get (i, jm) T ST).
          destruct (tri_advance (i, jm) T) as [|[k x] tt]; reflexivity.
        + unfold tri_next. cbn [it_skip it_next it_max it_min bind at_end it_tri].
          rewrite tri_advance_trans; [reflexivity|exact ST|].
          rewrite klt_ZZ; cbn. 
          assert (S2 : msorted (p ++ (jm, dm) :: (jn, dn) :: m)) by (rewrite <- Ep; exact Sd).
          apply msorted_app_inv in S2 as (_ & S2 & _). apply msorted_inv in S2 as [_ L2].
          assert (L := klt_lt _ _ (L2 jn (or_introl eq_refl))). lia.
        + rewrite <- app_assoc. exact Ep. }
    apply (G [] d j dj eq_refl).
  Qed.

  Lemma tpairs_length T (d : list (Z * diag N)) : (length (tpairs T d) <= length d * length d)%nat.
  Proof.
    induction d as [|[i di] d IH]; cbn [tpairs length]; [lia|]. rewrite app_length, map_length. nia.
  Qed.

  Lemma tri_visits_all h : hg_ok h -> tri_visits h false = Ret (tpairs (trimap h) (diagmap h)).
  Proof.
    intros (SD & ST & HK & _). unfold tri_visits, tri_begin.
    assert (C := tri_ns_chain (trimap h) (diagmap h) ST SD (trimap h)).
    assert (Lf : (length (tpairs (trimap h) (diagmap h)) < walk_fuel h)%nat).
    { assert (L := tpairs_length (trimap h) (diagmap h)). unfold walk_fuel. lia. }
    destruct (diagmap h) as [|[i di] [|[j dj] d]] eqn:E.
    - cbn [bind]. apply chain_walk; [apply C; exact I|exact Lf].
    - cbn [bind at_end]. apply chain_walk; [now constructor|exact Lf].
    - cbn [bind at_end]. apply chain_walk; [|exact Lf].
      specialize (C eq_refl). cbn [tl] in C. rewrite tri_advance_id in C; [exact C|].
      intros [a b] H. rewrite klt_ZZ; cbn. destruct (HK a b H) as (Lab & Ha & Hb).
      apply msorted_inv in SD as [SD Li]. apply msorted_inv in SD as [_ Lj].
      cbn in Ha, Hb.
      assert (F : forall k, In k (map fst d) -> (j < k)%Z) by (intros k Hk; apply klt_lt; now apply Lj).
      assert (L1 := klt_lt _ _ (Li j (or_introl eq_refl))).
      destruct Ha as [<-|[<-|Ha]]; destruct Hb as [<-|[<-|Hb]]; try apply F in Ha; try apply F in Hb; lia.
  Qed.

  (** ** ConstHessIt *)
  (** The visits of one row: the diagonal element, then [rowv]. *)
  Definition dvisit (id : Z * diag N) : visit N :=
    mkV (fst id) (fst id) (snd id) (snd id) (dhh (snd id)).

  (** Skipping missing elements: the stored elements. *)
  Definition hess_list_skip D T : list (visit N) :=
    flat_map (fun id => dvisit id :: map (tvisit D) (row T (fst id))) D.

  (** Not skipping: the pair of the row's variable with its successor, once for
      each stored element of the row. *)
  Fixpoint hess_list_all T (d : list (Z * diag N)) : list (visit N) :=
    match d with
    | [] => []
    | (i, di) :: d' =>
        dvisit (i, di) ::
        match d' with
        | [] => []
        | (j, dj) :: _ =>
            map (fun kv => mkV i j di dj (if peqb (fst kv) (i, j) then snd kv else n0)) (row T i)
        end ++ hess_list_all T d'
    end.

  Definition rest T (d : list (Z * diag N)) := flat_map (row T) (map fst d).

  Lemma rest_keys T d kv : In kv (rest T d) -> In (fst (fst kv)) (map fst d) /\ In kv T.
  Proof.
    unfold rest. rewrite in_flat_map. intros (k & Hk & H). apply row_key in H as [<- H]. auto.
  Qed.

  Lemma hess_chain D T (skip : bool) : msorted D -> msorted T -> tri_keys_in D T ->
    forall d pre, D = pre ++ d ->
    chain hess_next hess_visit (mkIt d d (rest T d) skip)
      (if skip then flat_map (fun id => dvisit id :: map (tvisit D) (row T (fst id))) d
       else hess_list_all T d).
  Proof.
    intros SD ST HK. induction d as [|[i di] d IH]; intros pre ED.
    { destruct skip; now constructor. }
    assert (Sd : msorted ((i, di) :: d)) by (subst D; now apply msorted_app_inv in SD).
    destruct (msorted_inv _ _ _ Sd) as [Sd' Li0].
    assert (Li : forall k, In k (map fst d) -> (i < k)%Z) by (intros k Hk; apply klt_lt; auto).
    assert (Lpre : forall k, In k (map fst pre) -> (k < i)%Z).
    { intros k Hk. subst D. apply msorted_app_inv in SD as (_ & _ & L). apply klt_lt. apply L; [exact Hk|now left]. }
    (* columns of the stored elements of this row are variables after [i] *)
    assert (Hcol : forall kv, In kv (row T i) -> fst (fst kv) = i /\ (i < snd (fst kv))%Z /\ In (snd (fst kv)) (map fst d)).
    { intros [[a b] x] H. apply row_key in H as [Ha H]. cbn in Ha |- *; subst a.
      destruct (HK i b (in_map fst _ _ H)) as (L & _ & Hb). split; [reflexivity|]. split; [exact L|].
      subst D. rewrite map_app in Hb. apply in_app_iff in Hb as [Hb|[Hb|Hb]]; [apply Lpre in Hb; lia|cbn in Hb; lia|exact Hb]. }
    specialize (IH (pre ++ [(i, di)])). rewrite <- app_assoc in IH. specialize (IH ED).
    unfold rest; cbn [map fst flat_map]. fold (rest T d).
    assert (Srow : msorted (row T i)) by now apply msorted_filter.
    assert (Hrest : forall kv, In kv (rest T d) -> (i < fst (fst kv))%Z).
    { intros kv H. apply rest_keys in H as [H _]. now apply Li. }
    (* the part of the row after the diagonal *)
    assert (ROW : forall rw dmax m jm dm p, dmax = (jm, dm) :: m -> d = p ++ dmax -> msorted rw ->
      (forall kv, In kv rw -> In kv (row T i)) ->
      (if skip then (match rw with kv :: _ => jm = snd (fst kv) | [] => False end)
       else p = []) -> rw <> [] ->
      chain hess_next hess_visit (mkIt ((i, di) :: d) dmax (rw ++ rest T d) skip)
        ((if skip then map (tvisit D) rw
          else map (fun kv => mkV i jm di dm (if peqb (fst kv) (i, jm) then snd kv else n0)) rw)
         ++ (if skip then flat_map (fun id => dvisit id :: map (tvisit D) (row T (fst id))) d
             else hess_list_all T d))).
    { induction rw as [|[[a b] x] rw IHrw]; intros dmax m jm dm p Em Ep Srw Hsub Hmode NE; [congruence|]. clear NE.
      destruct (Hcol _ (Hsub _ (or_introl eq_refl))) as (Ea & Lb & Hb). cbn in Ea, Lb, Hb. subst a.
      assert (Lm : forall k, In k (map fst m) -> (jm < k)%Z).
      { intros k Hk. apply klt_lt. rewrite Ep, Em in Sd'. apply msorted_app_inv in Sd' as (_ & S2 & _).
        apply msorted_inv in S2 as [_ L2]. now apply L2. }
      assert (Lim : (i < jm)%Z).
      { apply Li. rewrite Ep, Em, map_app. apply in_app_iff; right. now left. }
      assert (Dm : mget diag0 jm D = dm).
      { apply mget_In; [exact SD|]. subst D. apply in_app_iff; right. right. rewrite Ep, Em. apply in_app_iff; right. now left. }
      assert (Di : mget diag0 i D = di).
      { apply mget_In; [exact SD|]. subst D. apply in_app_iff; right. now left. }
      assert (NEQ : it_eqb ((i, di) :: d) dmax = false).
      { unfold it_eqb. apply Nat.eqb_neq. rewrite Ep. cbn [length]. rewrite app_length. lia. }
      (* the remaining elements of the row *)
      assert (Lrw : forall kv, In kv rw -> fst (fst kv) = i /\ (b < snd (fst kv))%Z).
      { intros kv H. destruct (Hcol kv (Hsub kv (or_intror H))) as (E & _ & _). split; [exact E|].
        apply msorted_inv in Srw as [_ L]. specialize (L _ (in_map fst _ _ H)). apply klt_ZZ in L; cbn in L. lia. }
      assert (Bm : (jm <= b)%Z).
      { destruct skip; [cbn in Hmode; lia|]. subst p. cbn [app] in Ep. rewrite Ep, Em in Hb. cbn in Hb.
        destruct Hb as [Hb|Hb]; [lia|]. apply Lm in Hb. lia. }
      (* operator++ from here *)
      assert (NX : hess_next (mkIt ((i, di) :: d) dmax ((((i, b), x) :: rw) ++ rest T d) skip)
        = Ret (match rw with
               | [] => mkIt d d (rest T d) skip
               | kv :: _ => mkIt ((i, di) :: d) (if skip then advance_to (snd (fst kv)) dmax else dmax) (rw ++ rest T d) skip
               end)).
      { unfold hess_next. cbn [it_min it_max it_tri it_skip at_end negb andb assert_ bind].
        rewrite NEQ. rewrite Em at 1. cbn [at_end negb andb assert_ bind app it_next].
        rewrite Em at 1. cbn [at_end negb orb assert_ bind].
        destruct rw as [|[[a b'] x'] rw].
        - cbn [app]. destruct (rest T d) as [|[[a b'] x'] tl0] eqn:Er.
          + cbn [bind]. cbn [it_next bind].
            rewrite orb_comm. destruct (at_end d); reflexivity.
          + rewrite Em at 1. cbn [bind].
            assert (La : (i < a)%Z) by (apply (Hrest ((a, b'), x')); now left).
            assert (Lp : pleb (i, jm) (a, b') = true) by (apply pleb_le; rewrite klt_ZZ; cbn; lia).
            rewrite Lp. cbn [assert_ bind fst snd]. rewrite (proj2 (Z.ltb_lt i a) La).
            cbn [it_next bind]. destruct (at_end d); reflexivity.
        - cbn [app]. rewrite Em at 1. cbn [bind].
          destruct (Lrw ((a, b'), x') (or_introl eq_refl)) as [Ea Lb']. cbn in Ea, Lb'. subst a.
          assert (Lp : pleb (i, jm) (i, b') = true) by (apply pleb_le; rewrite klt_ZZ; cbn; lia).
          rewrite Lp. cbn [assert_ bind fst snd]. rewrite Z.ltb_irrefl.
          destruct skip.
          + assert (Hb' : In b' (map fst m)).
            { destruct (Hcol _ (Hsub _ (or_intror (or_introl eq_refl)))) as (_ & _ & Hb'). cbn in Hb'.
              rewrite Ep, Em, map_app in Hb'. apply in_app_iff in Hb' as [Hb'|[Hb'|Hb']]; [exfalso|cbn in Hb', Hmode; lia|exact Hb'].
              rewrite Ep, Em in Sd'. apply msorted_app_inv in Sd' as (_ & _ & L).
              assert (L' := klt_lt _ _ (L b' jm Hb' (or_introl eq_refl))). lia. }
            assert (Sm : msorted m).
            { rewrite Ep, Em in Sd'. apply msorted_app_inv in Sd' as (_ & S2 & _). now apply msorted_inv in S2. }
            destruct (split_at m b' Sm Hb') as (p2 & xb & q2 & Eq & Lp2 & _).
            assert (AD : advance_to b' dmax = (b', xb) :: q2).
            { rewrite Em, Eq. change ((jm, dm) :: p2 ++ (b', xb) :: q2) with (((jm, dm) :: p2) ++ (b', xb) :: q2).
              rewrite advance_skip; [apply advance_here|]. intros k [<-|Hk']; [cbn in *; lia|now apply Lp2]. }
            rewrite AD. cbn [at_key bind assert_ at_end negb orb]. rewrite Z.eqb_refl. reflexivity.
          + cbn [bind]. rewrite Em at 1. cbn [at_end negb orb assert_ bind]. reflexivity. }
      destruct rw as [|[[a b'] x'] rw].
      - destruct skip; cbn [map app]; (econstructor; [rewrite Em; reflexivity| |exact NX|exact IH]).
        + unfold hess_visit. cbn [it_min it_max]. rewrite Em at 1. cbn [it_skip it_tri at_end negb orb].
          rewrite NEQ. cbn [orb assert_ bind app]. cbn in Hmode; subst jm. unfold tvisit; cbn. now rewrite Di, Dm.
        + unfold hess_visit. cbn [it_min it_max]. rewrite Em at 1. cbn [it_skip it_tri at_end negb orb].
          rewrite NEQ. reflexivity.
      - destruct (Lrw ((a, b'), x') (or_introl eq_refl)) as [Ea Lb']. cbn in Ea, Lb'. subst a.
        apply msorted_inv in Srw as [Srw _].
        destruct skip.
        + assert (Hb' : In b' (map fst m)).
          { destruct (Hcol _ (Hsub _ (or_intror (or_introl eq_refl)))) as (_ & _ & Hb'). cbn in Hb'.
            rewrite Ep, Em, map_app in Hb'. apply in_app_iff in Hb' as [Hb'|[Hb'|Hb']]; [exfalso|cbn in Hb', Hmode; lia|exact Hb'].
            rewrite Ep, Em in Sd'. apply msorted_app_inv in Sd' as (_ & _ & L).
            assert (L' := klt_lt _ _ (L b' jm Hb' (or_introl eq_refl))). lia. }
          assert (Sm : msorted m).
          { rewrite Ep, Em in Sd'. apply msorted_app_inv in Sd' as (_ & S2 & _). now apply msorted_inv in S2. }
          destruct (split_at m b' Sm Hb') as (p2 & xb & q2 & Eq & Lp2 & _).
          assert (AD : advance_to b' dmax = (b', xb) :: q2).
          { rewrite Em, Eq. change ((jm, dm) :: p2 ++ (b', xb) :: q2) with (((jm, dm) :: p2) ++ (b', xb) :: q2).
            rewrite advance_skip; [apply advance_here|]. intros k [<-|Hk']; [cbn in *; lia|now apply Lp2]. }
          cbn [map app fst snd] in NX |- *. rewrite AD in NX.
          econstructor; [rewrite Em; reflexivity| |exact NX|
            eapply (IHrw ((b', xb) :: q2) q2 b' xb (p ++ (jm, dm) :: p2) eq_refl)].
          * unfold hess_visit. cbn [it_min it_max]. rewrite Em at 1. cbn [it_skip it_tri at_end negb orb].
            rewrite NEQ. cbn [orb assert_ bind app]. cbn in Hmode; subst jm. unfold tvisit; cbn. now rewrite Di, Dm.
          * rewrite Ep, Em, Eq. now rewrite <- app_assoc.
          * exact Srw.
          * intros kv H. apply Hsub. now right.
          * reflexivity.
          * discriminate.
        + cbn [map app fst snd] in NX |- *.
          econstructor; [rewrite Em; reflexivity| |exact NX|
            eapply (IHrw dmax m jm dm p Em Ep Srw)].
          * unfold hess_visit. cbn [it_min it_max]. rewrite Em at 1. cbn [it_skip it_tri at_end negb orb].
            rewrite NEQ. reflexivity.
          * intros kv H. apply Hsub. now right.
          * exact Hmode.
          * discriminate. }
    (* the diagonal element *)
    assert (V : hess_visit (mkIt ((i, di) :: d) ((i, di) :: d) (row T i ++ rest T d) skip) = Ret (dvisit (i, di))).
    { unfold hess_visit. cbn [it_min it_max]. unfold it_eqb. rewrite Nat.eqb_refl. reflexivity. }
    assert (NX : hess_next (mkIt ((i, di) :: d) ((i, di) :: d) (row T i ++ rest T d) skip)
      = Ret (match row T i with
             | [] => mkIt d d (rest T d) skip
             | kv :: _ => mkIt ((i, di) :: d) (if skip then advance_to (snd (fst kv)) d else d) (row T i ++ rest T d) skip
             end)).
    { unfold hess_next. cbn [it_min it_max it_tri it_skip at_end negb andb assert_ bind].
      unfold it_eqb. rewrite Nat.eqb_refl. cbn [it_next bind].
      destruct (row T i) as [|[[a b] x] rw] eqn:Er; cbn [app].
      - assert (E0 : d = [] -> rest T d = []) by (intros ->; reflexivity).
        destruct (rest T d) as [|[[a b] x] tl0] eqn:Et.
        + rewrite orb_comm. cbn [at_end orb assert_ bind it_next]. destruct (at_end d); reflexivity.
        + destruct d as [|[j dj] d]; [discriminate (E0 eq_refl)|]. cbn [at_end negb orb assert_ bind].
          assert (La : (i < a)%Z) by (apply (Hrest ((a, b), x)); now left).
          assert (Lj := Li j (or_introl eq_refl)).
          assert (Ha : In a (map fst ((j, dj) :: d))).
          { apply (rest_keys T ((j, dj) :: d) ((a, b), x)). rewrite Et. now left. }
          assert (Lp : pleb (i, j) (a, b) = true) by (apply pleb_le; rewrite klt_ZZ; cbn; lia).
          rewrite Lp. cbn [assert_ bind fst snd]. rewrite (proj2 (Z.ltb_lt i a) La). reflexivity.
      - destruct (Hcol ((a, b), x)) as (Ea & Lb & Hb); [now left|]. cbn in Ea, Lb, Hb. subst a.
        destruct d as [|[j dj] d]; [destruct Hb|]. cbn [at_end negb orb assert_ bind].
        assert (Lj : (j <= b)%Z).
        { destruct Hb as [<-|Hb]; [cbn; lia|]. apply msorted_inv in Sd' as [_ L]. specialize (klt_lt _ _ (L b Hb)). cbn; lia. }
        assert (Lp : pleb (i, j) (i, b) = true) by (apply pleb_le; rewrite klt_ZZ; cbn; lia).
        rewrite Lp. cbn [assert_ bind fst snd]. rewrite Z.ltb_irrefl.
        destruct skip.
        + destruct (split_at ((j, dj) :: d) b Sd' Hb) as (p2 & xb & q2 & Eq & Lp2 & _).
          assert (AD : advance_to b ((j, dj) :: d) = (b, xb) :: q2).
          { rewrite Eq. rewrite advance_skip; [apply advance_here|exact Lp2]. }
          rewrite AD. cbn [at_key bind assert_ at_end negb orb]. rewrite Z.eqb_refl. reflexivity.
        + cbn [bind at_end negb orb assert_]. reflexivity. }
    destruct (row T i) as [|[[a b] x] rw] eqn:Er.
    - cbn [app] in *. destruct skip.
      + cbn [flat_map fst map app]. rewrite ?Er. cbn [map app]. econstructor; [reflexivity|exact V|exact NX|exact IH].
      + cbn [hess_list_all]. rewrite ?Er. replace (match d with [] => [] | (j, dj) :: _ => _ end) with (@nil (visit N)) by (destruct d as [|[? ?] ?]; reflexivity).
        cbn [app]. econstructor; [reflexivity|exact V|exact NX|exact IH].
    - destruct (Hcol ((a, b), x)) as (Ea & Lb & Hb); [now left|]. cbn in Ea, Lb, Hb. subst a.
      cbn [fst snd] in NX.
      destruct skip.
      + destruct (split_at d b Sd' Hb) as (p2 & xb & q2 & Eq & Lp2 & _).
        assert (AD : advance_to b d = (b, xb) :: q2).
        { rewrite Eq. rewrite advance_skip; [apply advance_here|exact Lp2]. }
        rewrite AD in NX. cbn [flat_map fst]. rewrite ?Er.
        econstructor; [reflexivity|exact V|exact NX|].
        eapply (ROW _ _ q2 b xb p2 eq_refl Eq Srow); [auto|reflexivity|discriminate].
      + destruct d as [|[j dj] d]; [destruct Hb|]. cbn [hess_list_all]. rewrite ?Er.
        econstructor; [reflexivity|exact V|exact NX|].
        eapply (ROW _ _ d j dj [] eq_refl eq_refl Srow); [auto|reflexivity|discriminate].
  Qed.

  Lemma rest_all D T : msorted D -> msorted T -> tri_keys_in D T -> rest T D = T.
  Proof.
    intros SD ST HK. unfold rest. apply rows_concat; auto.
    intros [[i j] x] H. now destruct (HK i j (in_map fst _ _ H)) as (_ & Hi & _).
  Qed.

  Lemma hess_list_skip_length D T (d : list (Z * diag N)) :
    length (flat_map (fun id => dvisit id :: map (tvisit D) (row T (fst id))) d) = (length d + length (rest T d))%nat.
  Proof.
    unfold rest. induction d as [|[i di] d IH]; cbn [flat_map map length fst app]; [reflexivity|].
    rewrite !app_length, map_length, IH. lia.
  Qed.
  Lemma hess_list_all_length T (d : list (Z * diag N)) :
    (length (hess_list_all T d) <= length d + length (rest T d))%nat.
  Proof.
    unfold rest. induction d as [|[i di] d IH]; cbn [hess_list_all flat_map map length fst app]; [lia|].
    rewrite !app_length. destruct d as [|[j dj] d]; [cbn; lia|]. rewrite map_length. cbn [length] in *. lia.
  Qed.

  Theorem hess_visits_skip h : hg_ok h -> hess_visits h true = Ret (hess_list_skip (diagmap h) (trimap h)).
  Proof.
    intros (SD & ST & HK & _). assert (C := hess_chain _ _ true SD ST HK (diagmap h) [] eq_refl).
    unfold hess_visits, hess_begin. rewrite rest_all in C by assumption.
    apply (chain_walk _ _ _ _ C). rewrite hess_list_skip_length, rest_all by assumption. unfold walk_fuel. lia.
  Qed.
  Theorem hess_visits_all h : hg_ok h -> hess_visits h false = Ret (hess_list_all (trimap h) (diagmap h)).
  Proof.
    intros (SD & ST & HK & _). assert (C := hess_chain _ _ false SD ST HK (diagmap h) [] eq_refl).
    unfold hess_visits, hess_begin. rewrite rest_all in C by assumption.
    apply (chain_walk _ _ _ _ C).
    eapply Nat.le_lt_trans; [apply hess_list_all_length|]. rewrite rest_all by assumption. unfold walk_fuel. lia.
  Qed.
End Hess.
