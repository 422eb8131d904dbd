(** * U2Facts: what unary and binary of UReal2 store, key by key *)

From Coq Require Import List ZArith Bool Sorted Lia.
From Verif Require Import Base Num Map UReal HessGrad Moments CheckMoments UReal2 HessProofs.
Import ListNotations.

Section MapFacts.
  Context {K V : Type} {KO : KeyOrd K}.

  Lemma mset_mset k (v v' : V) m : mset k v (mset k v' m) = mset k v m.
  Proof.
    induction m as [|[k0 v0] m IH]; cbn.
    - now rewrite kcmp_refl.
    - destruct (kcmp k k0) eqn:E; cbn; rewrite ?kcmp_refl, ?E; try reflexivity. now f_equal.
  Qed.
  Lemma mget_mset_same d k (v : V) m : mget d k (mset k v m) = v.
  Proof.
    unfold mget. induction m as [|[k0 v0] m IH]; cbn.
    - now rewrite kcmp_refl.
    - destruct (kcmp k k0) eqn:E; cbn; rewrite ?kcmp_refl, ?E; auto.
  Qed.
  Lemma mupd_mupd d k (f f' : V -> V) m : mupd d k f (mupd d k f' m) = mupd d k (fun x => f (f' x)) m.
  Proof. unfold mupd. now rewrite mget_mset_same, mset_mset. Qed.

  Definition keqb (a b : K) : bool := match kcmp a b with Eq => true | _ => false end.
  Lemma keqb_eq a b : keqb a b = true <-> a = b.
  Proof. unfold keqb. rewrite <- kcmp_eq. destruct (kcmp a b); intuition congruence. Qed.
  Lemma keqb_refl a : keqb a a = true.
  Proof. now apply keqb_eq. Qed.
  Lemma keqb_neq a b : keqb a b = false <-> a <> b.
  Proof. rewrite <- keqb_eq. destruct (keqb a b); intuition congruence. Qed.

  Lemma filter_key (m : list (K * V)) k : msorted m ->
    filter (fun kv => keqb (fst kv) k) m = match mfind k m with Some v => [(k, v)] | None => [] end.
  Proof.
    induction m as [|[k0 v0] m IH]; intro S; [reflexivity|].
    apply msorted_inv in S as [S L]. cbn [filter mfind fst].
    assert (E0 : forall k', (forall x, In x (map fst m) -> klt k' x) -> filter (fun kv => keqb (fst kv) k') m = []).
    { intros k' L'. clear -L'. induction m as [|[k1 v1] m IH]; [reflexivity|]. cbn [filter fst].
      destruct (keqb k1 k') eqn:E; [|apply IH; intros x Hx; apply L'; now right].
      apply keqb_eq in E; subst. destruct (klt_irrefl k' (L' k' (or_introl eq_refl))). }
    destruct (kcmp k k0) eqn:E.
    - apply kcmp_eq in E; subst. rewrite keqb_refl. rewrite E0 by exact L. reflexivity.
    - destruct (keqb k0 k) eqn:E'; [apply keqb_eq in E'; subst; rewrite kcmp_refl in E; discriminate|].
      apply E0. intros x Hx. eapply klt_trans; [exact E|]. now apply L.
    - destruct (keqb k0 k) eqn:E'; [apply keqb_eq in E'; subst; rewrite kcmp_refl in E; discriminate|].
      now apply IH.
  Qed.
End MapFacts.

Lemma peqb_keqb (a b : Z * Z) : peqb a b = keqb a b.
Proof. reflexivity. Qed.

(** ** Writes to the storage *)
Section Writes.
  Context {N : Num}.
  Local Open Scope num_scope.

  Record wr : Type := mkWr { wk : Z * Z; wd : diag N -> diag N; wt : N -> N }.

  Definition apply_w (r : hessgrad N) (w : wr) : outcome (hessgrad N) :=
    if (fst (wk w) =? snd (wk w))%Z then Ret (hg_diag (fst (wk w)) (wd w) r)
    else hg_tri (fst (wk w)) (snd (wk w)) (wt w) r.

  Definition at_k (k : Z * Z) (w : wr) : bool := keqb (wk w) k.

  Definition wr_ok (w : wr) : Prop := (fst (wk w) <= snd (wk w))%Z.

  (** Lookups after a sequence of writes. *)
  Lemma apply_all ws : forall r, List.Forall wr_ok ws -> msorted (diagmap r) -> msorted (trimap r) ->
    exists r', ofold apply_w ws r = Ret r' /\ msorted (diagmap r') /\ msorted (trimap r') /\
      (forall i, mfind i (diagmap r') =
         match filter (at_k (i, i)) ws with
         | [] => mfind i (diagmap r)
         | l => Some (fold_left (fun d w => wd w d) l (mget diag0 i (diagmap r)))
         end) /\
      (forall i j, i <> j -> mfind (i, j) (trimap r') =
         match filter (at_k (i, j)) ws with
         | [] => mfind (i, j) (trimap r)
         | l => Some (fold_left (fun x w => wt w x) l (mget n0 (i, j) (trimap r)))
         end) /\
      (forall i, mfind (i, i) (trimap r') = mfind (i, i) (trimap r)).
  Proof.
    induction ws as [|w ws IH]; intros r OK SD ST.
    { exists r. cbn [ofold filter]. repeat split; auto. }
    inversion OK as [|? ? Ow Ows]; subst. destruct w as [[a b] fd ft]. unfold wr_ok in Ow; cbn in Ow.
    cbn [ofold]. unfold apply_w at 1. cbn [wk wd wt fst snd].
    destruct (Z.eqb_spec a b) as [<-|NE].
    - cbn [bind]. unfold hg_diag.
      destruct (IH (mkHG (mupd diag0 a fd (diagmap r)) (trimap r)) Ows) as (r' & E & S1 & S2 & HD & HT & HE);
        [cbn; now apply msorted_mupd|exact ST|].
      exists r'. split; [exact E|]. split; [exact S1|]. split; [exact S2|]. cbn [diagmap trimap] in *.
      split; [|split].
      + intro i. rewrite HD. cbn [filter]. unfold at_k at 2; cbn [wk].
        unfold mupd. rewrite mfind_mset, mget_mset by exact SD.
        destruct (keqb (a, a) (i, i)) eqn:EK.
        * apply keqb_eq in EK. injection EK as ->. 
          destruct (keq_dec i i) as [_|X]; [|congruence]. cbn [fold_left wd].
          destruct (filter (at_k (i, i)) ws); reflexivity.
        * apply keqb_neq in EK. destruct (keq_dec i a) as [->|_]; [congruence|]. reflexivity.
      + intros i j Hij. rewrite HT by exact Hij. cbn [filter]. unfold at_k at 2; cbn [wk].
        destruct (keqb (a, a) (i, j)) eqn:EK; [apply keqb_eq in EK; congruence|]. reflexivity.
      + exact HE.
    - unfold hg_tri. rewrite (proj2 (Z.ltb_lt a b)) by lia. cbn [assert_ bind].
      destruct (IH (mkHG (diagmap r) (mupd n0 (a, b) ft (trimap r))) Ows) as (r' & E & S1 & S2 & HD & HT & HE);
        [exact SD|cbn; now apply msorted_mupd|].
      exists r'. split; [exact E|]. split; [exact S1|]. split; [exact S2|]. cbn [diagmap trimap] in *.
      split; [|split].
      + intro i. rewrite HD. cbn [filter]. unfold at_k at 2; cbn [wk].
        destruct (keqb (a, b) (i, i)) eqn:EK; [apply keqb_eq in EK; congruence|]. reflexivity.
      + intros i j Hij. rewrite HT by exact Hij. cbn [filter]. unfold at_k at 2; cbn [wk].
        unfold mupd. rewrite mfind_mset, mget_mset by exact ST.
        destruct (keqb (a, b) (i, j)) eqn:EK.
        * apply keqb_eq in EK. injection EK as -> ->. 
          destruct (keq_dec (i, j) (i, j)) as [_|X]; [|congruence]. cbn [fold_left wt].
          destruct (filter (at_k (i, j)) ws); reflexivity.
        * apply keqb_neq in EK. destruct (keq_dec (i, j) (a, b)) as [X|_]; [congruence|]. reflexivity.
      + intro i. rewrite HE. unfold mupd. rewrite mfind_mset by exact ST.
        destruct (keq_dec (i, i) (a, b)) as [X|_]; [congruence|]. reflexivity.
  Qed.

  (** ** The loops as writes *)
  Definition wX (df hdd : N) (v : visit N) : wr :=
    mkWr (vid v)
      (fun _ => mkD (df * dgrad (vd1 v)) (hdd * dgrad (vd1 v) * dgrad (vd2 v) + df * vval v) (dmom (vd1 v)))
      (fun _ => hdd * dgrad (vd1 v) * dgrad (vd2 v) + df * vval v).
  Definition wYn (df hdd : N) (v : visit N) : wr :=
    mkWr (vid v)
      (fun d => mkD (dgrad d + df * dgrad (vd1 v))
                    (dhh d + hdd * dgrad (vd1 v) * dgrad (vd2 v) + df * vval v) (dmom d))
      (fun h => h + hdd * dgrad (vd1 v) * dgrad (vd2 v) + df * vval v).
  Definition wYf (df hdd : N) (v : visit N) : wr :=
    mkWr (vid v)
      (fun d => mkD (dgrad d + df * dgrad (vd1 v))
                    (n0 + hdd * dgrad (vd1 v) * dgrad (vd2 v) + df * vval v) (dmom (vd1 v)))
      (fun _ => n0 + hdd * dgrad (vd1 v) * dgrad (vd2 v) + df * vval v).

  Lemma unary_step_w df hdd r v : unary_step df hdd r v = apply_w r (wX df hdd v).
  Proof.
    unfold unary_step, apply_w, wX, vid, hg_hhess. cbn [wk wd wt fst snd].
    destruct (Z.eqb_spec (vid1 v) (vid2 v)) as [E|E]; cbn [negb bind].
    - unfold hg_diag. cbn [diagmap trimap]. rewrite mupd_mupd. cbn [dgrad dhh dmom]. reflexivity.
    - unfold hg_tri. destruct (vid1 v <? vid2 v)%Z; reflexivity.
  Qed.
  Lemma bin_y_w df hdd v (fresh : bool) r :
    bin_y df hdd v fresh r = apply_w r ((if fresh then wYf else wYn) df hdd v).
  Proof.
    unfold bin_y, apply_w, wYf, wYn, vid, hg_hhess.
    destruct fresh; cbn [wk wd wt fst snd];
    (destruct (Z.eqb_spec (vid1 v) (vid2 v)) as [E|E]; cbn [negb bind];
     [unfold hg_diag; cbn [diagmap trimap]; rewrite !mupd_mupd; cbn [dgrad dhh dmom]; reflexivity|
      unfold hg_tri; destruct (vid1 v <? vid2 v)%Z; cbn [assert_ bind diagmap trimap]; rewrite ?mupd_mupd; reflexivity]).
  Qed.

  Lemma unary_writes df hdd vs : forall r,
    ofold (unary_step df hdd) vs r = ofold apply_w (map (wX df hdd) vs) r.
  Proof.
    induction vs as [|v vs IH]; intro r; cbn [ofold map]; [reflexivity|].
    rewrite unary_step_w. destruct (apply_w r (wX df hdd v)); cbn [bind]; auto.
  Qed.

  Section Merge.
    Variables dfdx dfdy hxx hyy : N.
    Local Notation X := (wX dfdx hxx).
    Local Notation Yn := (wYn dfdy hyy).
    Local Notation Yf := (wYf dfdy hyy).

    Fixpoint merge_writes (xs : list (visit N)) : list (visit N) -> list wr :=
      fix inner (ys : list (visit N)) : list wr :=
        match xs, ys with
        | [], _ => map Yf ys
        | _, [] => map X xs
        | vx :: xs', vy :: ys' =>
            match kcmp (vid vx) (vid vy) with
            | Lt => X vx :: merge_writes xs' ys
            | Eq => X vx :: Yn vy :: merge_writes xs' ys'
            | Gt => Yf vy :: inner ys'
            end
        end.

    Fixpoint kz (xs ys : list (visit N)) : list wr :=
      match xs, ys with
      | [], _ => map Yf ys
      | _, [] => map X xs
      | vx :: xs', vy :: ys' => X vx :: Yn vy :: kz xs' ys'
      end.

    Definition below_max (v : visit N) : Prop := klt (vid v) pmaxid.

    Lemma merge_writes_ok xs : forall ys r, List.Forall below_max xs -> List.Forall below_max ys ->
      bin_merge dfdx dfdy hxx hyy xs ys r = ofold apply_w (merge_writes xs ys) r.
    Proof.
      induction xs as [|vx xs IHx].
      - induction ys as [|vy ys IHy]; intros r Bx By; [reflexivity|].
        inversion By as [|? ? B1 B2]; subst. cbn -[pleb peqb maxid].
        assert (E1 : pleb pmaxid (vid vy) = false).
        { unfold pleb. assert (G : kcmp pmaxid (vid vy) = Gt) by (apply kcmp_gt; exact B1). now rewrite G. }
        rewrite E1.
        assert (E2 : peqb pmaxid (vid vy) = false).
        { unfold peqb. assert (G : kcmp pmaxid (vid vy) = Gt) by (apply kcmp_gt; exact B1). now rewrite G. }
        rewrite E2. cbn [negb]. rewrite bin_y_w.
        destruct (apply_w r (Yf vy)) as [r2| | |] eqn:E; cbn [bind]; auto.
        specialize (IHy r2 Bx B2). etransitivity; [exact IHy|]. destruct ys; reflexivity.
      - induction ys as [|vy ys IHy]; intros r Bx By.
        + inversion Bx as [|? ? B1 B2]; subst. cbn -[pleb peqb maxid].
          assert (E1 : pleb (vid vx) pmaxid = true) by (unfold pleb; unfold below_max, klt in B1; now rewrite B1).
          assert (E2 : pleb pmaxid (vid vx) = false).
          { unfold pleb. assert (G : kcmp pmaxid (vid vx) = Gt) by (apply kcmp_gt; exact B1). now rewrite G. }
          rewrite E1, E2. unfold bin_x. rewrite unary_step_w.
          destruct (apply_w r (X vx)) as [r2| | |] eqn:E; cbn [bind]; auto.
          rewrite IHx by assumption. destruct xs; reflexivity.
        + inversion Bx as [|? ? B1 B2]; subst. inversion By as [|? ? B3 B4]; subst.
          cbn -[pleb peqb maxid kcmp]. unfold pleb, peqb.
          assert (O := kcmp_opp (vid vx) (vid vy)).
          destruct (kcmp (vid vx) (vid vy)); cbn [CompOpp] in O; rewrite ?O.
          * unfold bin_x. rewrite unary_step_w. cbn [ofold].
            destruct (apply_w r (X vx)) as [r1| | |]; cbn [bind]; auto.
            cbn [negb]. rewrite bin_y_w. destruct (apply_w r1 (Yn vy)) as [r2| | |]; cbn [bind]; auto.
          * unfold bin_x. rewrite unary_step_w. cbn [ofold].
            destruct (apply_w r (X vx)) as [r1| | |]; cbn [bind]; auto.
          * cbn [negb]. rewrite bin_y_w. cbn [ofold]. destruct (apply_w r (Yf vy)) as [r1| | |]; cbn [bind]; auto.
    Qed.

    (** Keys are visited in nondecreasing order. *)
    Definition vle (a b : visit N) : Prop := kcmp (vid a) (vid b) <> Gt.
    Definition vis (k : Z * Z) (v : visit N) : bool := keqb (vid v) k.

    Lemma filter_map_w (f : visit N -> wr) k vs : (forall v, wk (f v) = vid v) ->
      filter (at_k k) (map f vs) = map f (filter (vis k) vs).
    Proof.
      intro E. induction vs as [|v vs IH]; [reflexivity|]. cbn [map filter].
      unfold at_k at 1, vis at 1. rewrite E. destruct (keqb (vid v) k); cbn [map]; now rewrite IH.
    Qed.

    Lemma vis_nil (k : Z * Z) vs : (forall v, In v vs -> klt k (vid v)) -> filter (vis k) vs = [].
    Proof.
      induction vs as [|v vs IH]; intro L; [reflexivity|]. cbn [filter]. unfold vis at 1.
      destruct (keqb (vid v) k) eqn:E; [|apply IH; auto with datatypes].
      apply keqb_eq in E. specialize (L v (or_introl eq_refl)). rewrite E in L. now apply klt_irrefl in L.
    Qed.

    Lemma klt_le_trans (a b c : Z * Z) : klt a b -> kcmp b c <> Gt -> klt a c.
    Proof.
      intros H1 H2. destruct (kcmp b c) eqn:E; [apply kcmp_eq in E; now subst|now apply (klt_trans a b c)|congruence].
    Qed.

    Lemma kz_nil_r xs : kz xs [] = map X xs.
    Proof. destruct xs; reflexivity. Qed.

    Lemma merge_filter xs : forall ys, StronglySorted vle xs -> StronglySorted vle ys ->
      forall k, filter (at_k k) (merge_writes xs ys) = kz (filter (vis k) xs) (filter (vis k) ys).
    Proof.
      induction xs as [|vx xs IHx].
      - intros ys _ _ k. replace (merge_writes [] ys) with (map Yf ys) by (destruct ys; reflexivity).
        rewrite filter_map_w by reflexivity. reflexivity.
      - induction ys as [|vy ys IHy]; intros Sx Sy k.
        + cbn [merge_writes]. rewrite filter_map_w by reflexivity. cbn [filter]. now rewrite kz_nil_r.
        + assert (Sx0 := Sx). assert (Sy0 := Sy).
          inversion Sx as [|? ? Sx' Lx]; subst. inversion Sy as [|? ? Sy' Ly]; subst.
          rewrite Forall_forall in Lx, Ly. cbn [merge_writes].
          destruct (kcmp (vid vx) (vid vy)) eqn:E.
          * apply kcmp_eq in E. cbn [filter]. change (at_k k (X vx)) with (keqb (vid vx) k). change (at_k k (Yn vy)) with (keqb (vid vy) k). rewrite IHx by assumption.
            change (vis k vx) with (keqb (vid vx) k). change (vis k vy) with (keqb (vid vy) k). rewrite E. destruct (keqb (vid vy) k); reflexivity.
          * cbn [filter]. change (at_k k (X vx)) with (keqb (vid vx) k). rewrite IHx by assumption. cbn [filter].
            change (vis k vx) with (keqb (vid vx) k). destruct (keqb (vid vx) k) eqn:Ek; [|reflexivity].
            apply keqb_eq in Ek. subst k.
            change (if vis (vid vx) vy then _ else _) with (filter (vis (vid vx)) (vy :: ys)).
            rewrite (vis_nil (vid vx) (vy :: ys)).
            { now rewrite kz_nil_r. }
            intros v [<-|Hv]; [exact E|]. eapply klt_le_trans; [exact E|]. now apply Ly.
          * apply kcmp_gt in E.
            specialize (IHy Sx0 Sy' k). cbn [merge_writes] in IHy. cbn [filter] in IHy |- *.
            change (at_k k (Yf vy)) with (keqb (vid vy) k). rewrite IHy.
            change (vis k vy) with (keqb (vid vy) k). destruct (keqb (vid vy) k) eqn:Ek; [|reflexivity].
            apply keqb_eq in Ek. subst k.
            change (if vis (vid vy) vx then vx :: filter (vis (vid vy)) xs else filter (vis (vid vy)) xs)
              with (filter (vis (vid vy)) (vx :: xs)).
            rewrite (vis_nil (vid vy) (vx :: xs)); [reflexivity|].
            intros v [<-|Hv]; [exact E|]. eapply klt_le_trans; [exact E|]. now apply Lx.
  Qed.
  End Merge.
End Writes.

(** ** The visits of a stored polynomial *)
Section Visits.
  Context {N : Num}.
  Implicit Types (D : list (Z * diag N)) (T : list ((Z * Z) * N)).

  Fixpoint vrows (Rf : Z * diag N -> list (Z * diag N) -> list (visit N)) (d : list (Z * diag N)) : list (visit N) :=
    match d with
    | [] => []
    | p :: d' => dvisit p :: Rf p d' ++ vrows Rf d'
    end.

  Definition row_skip D T (p : Z * diag N) (_ : list (Z * diag N)) := map (tvisit D) (row T (fst p)).
  Definition row_all T (p : Z * diag N) (d' : list (Z * diag N)) : list (visit N) :=
    match d' with
    | [] => []
    | q :: _ => map (fun kv => mkV (fst p) (fst q) (snd p) (snd q) (if peqb (fst kv) (fst p, fst q) then snd kv else n0)) (row T (fst p))
    end.

  Lemma hess_list_skip_rows D T : hess_list_skip D T = vrows (row_skip D T) D.
  Proof.
    unfold hess_list_skip.
    assert (G : forall d, flat_map (fun id => dvisit id :: map (tvisit D) (row T (fst id))) d = vrows (row_skip D T) d).
    { induction d as [|p d IH]; [reflexivity|]. cbn [flat_map vrows app]. now rewrite IH. }
    apply G.
  Qed.
  Lemma hess_list_all_rows T d : hess_list_all T d = vrows (row_all T) d.
  Proof.
    induction d as [|[i di] d IH]; [reflexivity|]. cbn [hess_list_all vrows]. rewrite IH.
    destruct d as [|[j dj] d]; reflexivity.
  Qed.

  (** What a row must satisfy. *)
  Definition rows_ok D (Rf : Z * diag N -> list (Z * diag N) -> list (visit N)) : Prop :=
    forall pre p d, D = pre ++ p :: d ->
      StronglySorted vle (Rf p d) /\
      forall v, In v (Rf p d) -> vid1 v = fst p /\ vd1 v = snd p /\ (fst p < vid2 v)%Z /\ In (vid2 v, vd2 v) d.

  Lemma vle_lt (a b : visit N) : klt (vid a) (vid b) -> vle a b.
  Proof. unfold klt, vle. intros ->. discriminate. Qed.

  Lemma vrows_facts D Rf : msorted D -> rows_ok D Rf -> forall d pre, D = pre ++ d ->
    StronglySorted vle (vrows Rf d) /\
    (forall v, In v (vrows Rf d) -> In (vid1 v, vd1 v) d /\ In (vid2 v, vd2 v) d /\ (vid1 v <= vid2 v)%Z) /\
    (forall i, filter (vis (i, i)) (vrows Rf d) = match mfind i d with Some x => [dvisit (i, x)] | None => [] end).
  Proof.
    intros SD OK. induction d as [|[i di] d IH]; intros pre ED.
    { split; [constructor|]. split; [intros v []|reflexivity]. }
    destruct (OK pre (i, di) d ED) as [SR HR]. cbn [fst snd] in HR.
    destruct (IH (pre ++ [(i, di)])) as (S & HV & HF); [now rewrite <- app_assoc|].
    assert (Sd : msorted ((i, di) :: d)) by (subst D; now apply msorted_app_inv in SD).
    destruct (msorted_inv _ _ _ Sd) as [Sd' L].
    assert (Li : forall k x, In (k, x) d -> (i < k)%Z) by (intros k x H; apply klt_lt, L; exact (in_map fst _ _ H)).
    cbn [vrows]. split; [|split].
    - constructor.
      + (* app *)
        assert (G : forall a b, StronglySorted vle a -> StronglySorted vle b ->
          (forall x y, In x a -> In y b -> vle x y) -> StronglySorted (@vle N) (a ++ b)).
        { clear. induction a as [|x a IH]; intros b Sa Sb H; [exact Sb|].
          inversion Sa as [|? ? Sa' La]; subst. cbn [app]. constructor; [apply IH; auto with datatypes|].
          apply Forall_forall. intros y Hy. apply in_app_iff in Hy as [Hy|Hy].
          - rewrite Forall_forall in La. now apply La.
          - apply H; [now left|exact Hy]. }
        apply G; [exact SR|exact S|]. intros x y Hx Hy. apply vle_lt, klt_ZZ. left.
        destruct (HR x Hx) as (E & _). destruct (HV y Hy) as (Hy1 & _). cbn. rewrite E. apply (Li _ _ Hy1).
      + apply Forall_forall. intros v Hv. apply vle_lt, klt_ZZ. cbn. apply in_app_iff in Hv as [Hv|Hv].
        * destruct (HR v Hv) as (E & _ & L2 & _). lia.
        * destruct (HV v Hv) as (Hy1 & _). left. apply (Li _ _ Hy1).
    - intros v [<-|Hv]; [cbn; split; [now left|split; [now left|lia]]|].
      apply in_app_iff in Hv as [Hv|Hv].
      + destruct (HR v Hv) as (E & E2 & L2 & H2). rewrite E, E2. split; [now left|]. split; [now right|lia].
      + destruct (HV v Hv) as (H1 & H2 & H3). split; [now right|]. split; [now right|exact H3].
    - intro k. cbn [filter]. unfold vis at 1, vid at 1. cbn [dvisit vid1 vid2 fst].
      rewrite filter_app.
      assert (E0 : filter (vis (k, k)) (Rf (i, di) d) = []).
      { clear -HR. induction (Rf (i, di) d) as [|v l IHl]; [reflexivity|]. cbn [filter].
        destruct (HR v (or_introl eq_refl)) as (E & _ & L2 & _).
        unfold vis at 1. destruct (keqb (vid v) (k, k)) eqn:Ek.
        - apply keqb_eq in Ek. unfold vid in Ek. injection Ek as E1 E2. lia.
        - apply IHl. auto with datatypes. }
      rewrite E0. cbn [app]. rewrite HF. cbn [mfind].
      destruct (kcmp k i) eqn:E.
      + apply kcmp_eq in E; subst k. rewrite keqb_refl.
        rewrite (proj2 (mfind_None_iff i d Sd')); [reflexivity|]. intro H. apply L in H. now apply klt_irrefl in H.
      + destruct (keqb (i, i) (k, k)) eqn:Ek; [apply keqb_eq in Ek; injection Ek as ->; rewrite kcmp_refl in E; discriminate|].
        rewrite (proj2 (mfind_None_iff k d Sd')); [reflexivity|]. intro H. apply L in H.
        apply (klt_irrefl k). now apply (klt_trans k i k).
      + destruct (keqb (i, i) (k, k)) eqn:Ek; [apply keqb_eq in Ek; injection Ek as ->; rewrite kcmp_refl in E; discriminate|].
        reflexivity.
  Qed.

  Lemma row_skip_ok D T : msorted D -> msorted T -> tri_keys_in D T -> rows_ok D (row_skip D T).
  Proof.
    intros SD ST HK pre [i di] d ED. unfold row_skip; cbn [fst snd]. split.
    - assert (S : msorted (row T i)) by now apply msorted_filter. clear -S.
      induction (row T i) as [|[k x] l IH]; cbn [map]; [constructor|].
      apply msorted_inv in S as [S L]. constructor; [auto|].
      apply Forall_forall. intros v Hv. apply in_map_iff in Hv as ([k' x'] & <- & H).
      apply vle_lt. unfold vid, tvisit; cbn. specialize (L k' (in_map fst _ _ H)).
      destruct k, k'; exact L.
    - intros v Hv. apply in_map_iff in Hv as ([[a b] x] & <- & H). apply row_key in H as [E H]. cbn in E; subst a.
      destruct (HK i b (in_map fst _ _ H)) as (L & _ & Hb).
      unfold tvisit; cbn. split; [reflexivity|]. split; [|split].
      + apply mget_In; [exact SD|]. subst D. apply in_app_iff; right; now left.
      + exact L.
      + subst D. rewrite map_app in Hb. destruct (msorted_app_inv _ _ SD) as (_ & _ & L0).
        apply in_app_iff in Hb as [Hb|[Hb|Hb]].
        * assert (L1 := klt_lt _ _ (L0 b i Hb (or_introl eq_refl))). lia.
        * cbn in Hb. lia.
        * apply in_map_iff in Hb as ([b' xb] & E & Hb). cbn in E; subst b'.
          rewrite (mget_In _ b xb); [exact Hb|exact SD|]. apply in_app_iff; right; now right.
  Qed.

  Lemma row_all_ok D T : msorted D -> rows_ok D (row_all T).
  Proof.
    intros SD pre [i di] d ED. unfold row_all; cbn [fst snd]. destruct d as [|[j dj] d]; [split; [constructor|intros v []]|].
    cbn [fst snd].
    assert (L : (i < j)%Z).
    { subst D. apply msorted_app_inv in SD as (_ & SD & _). apply msorted_inv in SD as [_ L]. apply klt_lt, L. now left. }
    split.
    - induction (row T i) as [|kv l IH]; cbn [map]; [constructor|]. constructor; [exact IH|].
      apply Forall_forall. intros v Hv. apply in_map_iff in Hv as (kv' & <- & _). unfold vle, vid; cbn [vid1 vid2].
      rewrite kcmp_refl. discriminate.
    - intros v Hv. apply in_map_iff in Hv as (kv' & <- & _). cbn. repeat split; auto.
  Qed.

  (** The visits in either mode. *)
  Lemma visits_facts (h : hessgrad N) (skip : bool) : hg_ok h -> exists vs, hess_visits h skip = Ret vs /\
    StronglySorted vle vs /\
    (forall v, In v vs -> In (vid1 v, vd1 v) (diagmap h) /\ In (vid2 v, vd2 v) (diagmap h) /\ (vid1 v <= vid2 v)%Z) /\
    (forall i, filter (vis (i, i)) vs =
       match mfind i (diagmap h) with Some x => [dvisit (i, x)] | None => [] end) /\
    (skip = true -> forall i j, i <> j -> filter (vis (i, j)) vs =
       match mfind (i, j) (trimap h) with Some x => [tvisit (diagmap h) ((i, j), x)] | None => [] end).
  Proof.
    intro OK. assert (OK' := OK). destruct OK' as (SD & ST & HK & _). destruct skip.
    - exists (hess_list_skip (diagmap h) (trimap h)). split; [now apply hess_visits_skip|].
      rewrite hess_list_skip_rows.
      destruct (vrows_facts (diagmap h) _ SD (row_skip_ok _ _ SD ST HK) (diagmap h) [] eq_refl) as (S & HV & HF).
      split; [exact S|]. split; [exact HV|]. split; [exact HF|]. intros _ i j Hij.
      assert (G : forall d, filter (vis (i, j)) (vrows (row_skip (diagmap h) (trimap h)) d) =
        map (tvisit (diagmap h)) (filter (fun kv => keqb (fst kv) (i, j)) (rest (trimap h) d))).
      { induction d as [|p d IH]; [reflexivity|]. cbn [vrows filter]. unfold vis at 1, vid at 1. cbn [dvisit vid1 vid2].
        destruct (keqb (fst p, fst p) (i, j)) eqn:E; [apply keqb_eq in E; congruence|].
        rewrite filter_app, IH. unfold rest; cbn [map flat_map]. rewrite filter_app, map_app. f_equal.
        unfold row_skip. clear. induction (row (trimap h) (fst p)) as [|[[a b] x] l IH]; [reflexivity|].
        cbn [map filter]. rewrite IH. unfold vis at 1, vid, tvisit at 1 2. cbn [vid1 vid2 fst snd].
        destruct (keqb (a, b) (i, j)); reflexivity. }
      rewrite G, rest_all by assumption. rewrite filter_key by exact ST.
      destruct (mfind (i, j) (trimap h)); reflexivity.
    - exists (hess_list_all (trimap h) (diagmap h)). split; [now apply hess_visits_all|].
      rewrite hess_list_all_rows.
      destruct (vrows_facts (diagmap h) _ SD (row_all_ok _ (trimap h) SD) (diagmap h) [] eq_refl) as (S & HV & HF).
      split; [exact S|]. split; [exact HV|]. split; [exact HF|]. discriminate.
  Qed.
End Visits.

(** ** Results of the merge loop *)
Section Results.
  Context {N : Num}.
  Local Open Scope num_scope.

  (** What a list of visits must satisfy to describe [h]; [exact]: also the
      off-diagonal elements are visited once each. *)
  Definition visits_of (h : hessgrad N) (vs : list (visit N)) : Prop :=
    StronglySorted vle vs /\
    (forall v, In v vs -> In (vid1 v, vd1 v) (diagmap h) /\ In (vid2 v, vd2 v) (diagmap h) /\ (vid1 v <= vid2 v)%Z) /\
    (forall i, filter (vis (i, i)) vs =
       match mfind i (diagmap h) with Some x => [dvisit (i, x)] | None => [] end).
  Definition visits_exact (h : hessgrad N) (vs : list (visit N)) : Prop :=
    forall i j, i <> j -> filter (vis (i, j)) vs =
       match mfind (i, j) (trimap h) with Some x => [tvisit (diagmap h) ((i, j), x)] | None => [] end.

  Lemma visits_of_nil : visits_of hg_empty [].
  Proof. split; [constructor|]. split; [intros v []|]. reflexivity. Qed.
  Lemma visits_exact_nil : visits_exact hg_empty [].
  Proof. intros i j _. reflexivity. Qed.

  Definition cellX (df hdd : N) (d : diag N) : diag N :=
    mkD (df * dgrad d) (hdd * dgrad d * dgrad d + df * dhh d) (dmom d).
  Definition cellYn (df hdd : N) (d0 d : diag N) : diag N :=
    mkD (dgrad d0 + df * dgrad d) (dhh d0 + hdd * dgrad d * dgrad d + df * dhh d) (dmom d0).
  Definition cellYf (df hdd : N) (d : diag N) : diag N :=
    mkD (n0 + df * dgrad d) (n0 + hdd * dgrad d * dgrad d + df * dhh d) (dmom d).

  Section M.
    Variables dfdx dfdy hxx hyy : N.
    Variables hx hy : hessgrad N.
    Hypothesis (OKx : hg_ok hx) (OKy : hg_ok hy).

    Definition mcell (i : Z) : option (diag N) :=
      match mfind i (diagmap hx), mfind i (diagmap hy) with
      | None, None => None
      | Some dx, None => Some (cellX dfdx hxx dx)
      | None, Some dy => Some (cellYf dfdy hyy dy)
      | Some dx, Some dy => Some (cellYn dfdy hyy (cellX dfdx hxx dx) dy)
      end.
    Definition tX (i j : Z) (x : N) : N :=
      hxx * dgrad (mget diag0 i (diagmap hx)) * dgrad (mget diag0 j (diagmap hx)) + dfdx * x.
    Definition tY (i j : Z) (acc x : N) : N :=
      acc + hyy * dgrad (mget diag0 i (diagmap hy)) * dgrad (mget diag0 j (diagmap hy)) + dfdy * x.
    Definition mtri (i j : Z) : option N :=
      match mfind (i, j) (trimap hx), mfind (i, j) (trimap hy) with
      | None, None => None
      | Some x, None => Some (tX i j x)
      | None, Some y => Some (tY i j n0 y)
      | Some x, Some y => Some (tY i j (tX i j x) y)
      end.

    Lemma merge_result xs ys : visits_of hx xs -> visits_of hy ys ->
      exists r, ofold apply_w (merge_writes dfdx dfdy hxx hyy xs ys) hg_empty = Ret r /\ hg_ok r /\
        (forall i, mfind i (diagmap r) = mcell i) /\
        (visits_exact hx xs -> visits_exact hy ys -> forall i j, i <> j -> mfind (i, j) (trimap r) = mtri i j).
    Proof.
      intros (Sx & Vx & Fx) (Sy & Vy & Fy).
      assert (INW : forall w, In w (merge_writes dfdx dfdy hxx hyy xs ys) ->
        exists v, wk w = vid v /\ (In v xs \/ In v ys)).
      { intros w Hw. assert (H : In w (filter (at_k (wk w)) (merge_writes dfdx dfdy hxx hyy xs ys))).
        { apply filter_In. split; [exact Hw|]. unfold at_k. apply keqb_refl. }
        rewrite merge_filter in H by assumption.
        assert (G : forall xs ys w, In w (kz dfdx dfdy hxx hyy xs ys) -> exists v, wk w = vid v /\ (In v xs \/ In v ys)).
        { clear. induction xs as [|x xs IH]; intros ys w H.
          - cbn in H. apply in_map_iff in H as (v & <- & H). exists v. split; [reflexivity|now right].
          - destruct ys as [|y ys].
            + cbn [kz] in H. apply in_map_iff in H as (v & <- & H). exists v. split; [reflexivity|now left].
            + cbn [kz] in H. destruct H as [<-|[<-|H]].
              * exists x. split; [reflexivity|left; now left].
              * exists y. split; [reflexivity|right; now left].
              * destruct (IH _ _ H) as (v & E & [H'|H']); exists v; (split; [exact E|]); [left|right]; now right. }
        destruct (G _ _ _ H) as (v & E & H'). exists v. split; [exact E|].
        destruct H' as [H'|H']; apply filter_In in H' as [H' _]; auto. }
      assert (WOK : List.Forall wr_ok (merge_writes dfdx dfdy hxx hyy xs ys)).
      { apply Forall_forall. intros w Hw. destruct (INW w Hw) as (v & E & [H|H]); unfold wr_ok; rewrite E; cbn.
        - now apply Vx. - now apply Vy. }
      destruct (apply_all (merge_writes dfdx dfdy hxx hyy xs ys) hg_empty WOK msorted_nil msorted_nil)
        as (r & E & SD & ST & HD & HT & HE).
      exists r. split; [exact E|].
      assert (HD' : forall i, mfind i (diagmap r) = mcell i).
      { intro i. rewrite HD, merge_filter by assumption. rewrite Fx, Fy. unfold mcell.
        destruct (mfind i (diagmap hx)) as [dx|], (mfind i (diagmap hy)) as [dy|]; reflexivity. }
      assert (KEYS : forall i, (In i (map fst (diagmap hx)) \/ In i (map fst (diagmap hy))) -> In i (map fst (diagmap r))).
      { intros i H. destruct OKx as (SDx & _), OKy as (SDy & _).
        destruct (in_dec Z.eq_dec i (map fst (diagmap r))) as [Y|Nn]; [exact Y|exfalso].
        apply (mfind_None_iff i _ SD) in Nn. rewrite HD' in Nn. unfold mcell in Nn.
        destruct (mfind i (diagmap hx)) eqn:E1, (mfind i (diagmap hy)) eqn:E2; try discriminate.
        destruct H as [H|H]; revert H; now apply mfind_None_iff. }
      split; [|split; [exact HD'|]].
      - split; [exact SD|]. split; [exact ST|]. split.
        + intros i j H.
          destruct (mfind (i, j) (trimap r)) as [x|] eqn:Ef.
          2:{ exfalso. revert H. now apply (mfind_None_iff (i, j) _ ST). }
          destruct (Z.eq_dec i j) as [<-|NE]; [rewrite HE in Ef; discriminate|].
          rewrite HT in Ef by exact NE.
          destruct (filter (at_k (i, j)) _) as [|w l] eqn:Ew in Ef; [discriminate|].
          assert (Hw : In w (filter (at_k (i, j)) (merge_writes dfdx dfdy hxx hyy xs ys))) by (rewrite Ew; now left).
          apply filter_In in Hw as [Hw Hk]. unfold at_k in Hk. apply keqb_eq in Hk.
          destruct (INW w Hw) as (v & E' & Hv). rewrite Hk in E'. unfold vid in E'. injection E' as -> ->.
          destruct Hv as [Hv|Hv]; [destruct (Vx v Hv) as (H1 & H2 & H3)|destruct (Vy v Hv) as (H1 & H2 & H3)];
            apply (in_map fst) in H1, H2; cbn [fst] in H1, H2; (split; [lia|]); split; apply KEYS; auto.
        + intros i x H. apply (In_mfind _ _ _ SD) in H. rewrite HD' in H. unfold mcell in H.
          destruct OKx as (_ & _ & _ & Mx), OKy as (_ & _ & _ & My).
          destruct (mfind i (diagmap hx)) as [dx|] eqn:E1, (mfind i (diagmap hy)) as [dy|] eqn:E2;
            try discriminate; injection H as <-; cbn [cellX cellYn cellYf dmom].
          * apply mfind_In in E1. now apply (Mx i).
          * apply mfind_In in E1. now apply (Mx i).
          * apply mfind_In in E2. now apply (My i).
      - intros Ex Ey i j NE. rewrite HT by exact NE. rewrite merge_filter by assumption.
        rewrite Ex, Ey by exact NE. unfold mtri.
        destruct (mfind (i, j) (trimap hx)) as [x|], (mfind (i, j) (trimap hy)) as [y|]; reflexivity.
    Qed.
  End M.

  (** ** The loop over the mixed derivative *)
  Definition wC (hxy : N) (px py : Z * diag N) : wr :=
    let a := hxy * dgrad (snd px) * dgrad (snd py) in
    mkWr (Z.min (fst px) (fst py), Z.max (fst px) (fst py))
      (fun d => mkD (dgrad d) (dhh d + nofZ 2 * a) (dmom d)) (fun h => h + a).
  Definition cross_writes (hxy : N) (dx dy : list (Z * diag N)) : list wr :=
    flat_map (fun px => map (wC hxy px) dy) dx.

  Lemma ofold_app {A B : Type} (f : A -> B -> outcome A) l1 l2 a :
    ofold f (l1 ++ l2) a = bind (ofold f l1 a) (ofold f l2).
  Proof.
    revert a; induction l1 as [|b l1 IH]; intro a; cbn [app ofold bind]; [reflexivity|].
    destruct (f a b); cbn [bind]; auto.
  Qed.

  Lemma cross_is_writes hxy dx dy r : cross hxy dx dy r = ofold apply_w (cross_writes hxy dx dy) r.
  Proof.
    unfold cross, cross_writes. revert r; induction dx as [|px dx IH]; intro r; [reflexivity|].
    cbn [ofold flat_map]. rewrite ofold_app.
    assert (E : forall r, ofold (fun r py => cross_step hxy px py r) dy r = ofold apply_w (map (wC hxy px) dy) r).
    { clear. induction dy as [|py dy IH]; intro r; [reflexivity|]. cbn [ofold map].
      assert (E : cross_step hxy px py r = apply_w r (wC hxy px py)).
      { unfold cross_step, apply_w, wC. cbn [wk fst snd wd wt].
        destruct (Z.min (fst px) (fst py) =? Z.max (fst px) (fst py))%Z; reflexivity. }
      rewrite E. destruct (apply_w r (wC hxy px py)); cbn [bind]; auto. }
    rewrite E. destruct (ofold apply_w (map (wC hxy px) dy) r); cbn [bind]; auto.
  Qed.

  Lemma filter_flat_map {A B : Type} (p : B -> bool) (f : A -> list B) l :
    filter p (flat_map f l) = flat_map (fun a => filter p (f a)) l.
  Proof. induction l as [|a l IH]; [reflexivity|]. cbn [flat_map]. now rewrite filter_app, IH. Qed.

  Lemma flat_map_one {B : Type} (F : Z * diag N -> list B) (dx : list (Z * diag N)) i : msorted dx ->
    (forall p, fst p <> i -> F p = []) ->
    flat_map F dx = match mfind i dx with Some d => F (i, d) | None => [] end.
  Proof.
    intros S H. induction dx as [|[k d] dx IH]; [reflexivity|].
    apply msorted_inv in S as [S L]. cbn [flat_map mfind]. rewrite IH by exact S.
    destruct (kcmp i k) eqn:E.
    - apply kcmp_eq in E; subst k. rewrite (proj2 (mfind_None_iff i dx S)).
      + now rewrite app_nil_r.
      + intro Hi. apply L in Hi. now apply klt_irrefl in Hi.
    - rewrite H by (cbn; intros ->; rewrite kcmp_refl in E; discriminate).
      rewrite (proj2 (mfind_None_iff i dx S)); [reflexivity|].
      intro Hi. apply L in Hi. apply (klt_irrefl i). now apply (klt_trans i k i).
    - rewrite H by (cbn; intros ->; rewrite kcmp_refl in E; discriminate). reflexivity.
  Qed.

  Lemma mfind_cons_ne {V : Type} (i k : Z) (d : V) m : msorted ((k, d) :: m) -> i <> k ->
    mfind i ((k, d) :: m) = mfind i m.
  Proof.
    intros S NE. apply msorted_inv in S as [S L]. cbn [mfind]. destruct (kcmp i k) eqn:E.
    - apply kcmp_eq in E. contradiction.
    - symmetry. apply mfind_None_iff; [exact S|]. intro H. apply L in H.
      apply (klt_irrefl i). now apply (klt_trans i k i).
    - reflexivity.
  Qed.
  Lemma mfind_head {V : Type} (k : Z) (d : V) m : mfind k ((k, d) :: m) = Some d.
  Proof. cbn [mfind]. now rewrite kcmp_refl. Qed.
  Lemma mfind_tail {V : Type} (k : Z) (d : V) m : msorted ((k, d) :: m) -> mfind k m = None.
  Proof.
    intro S. apply msorted_inv in S as [S L]. apply mfind_None_iff; [exact S|].
    intro H. apply L in H. now apply klt_irrefl in H.
  Qed.

  Lemma flat_map_two {B : Type} (F : Z * diag N -> list B) (dx : list (Z * diag N)) i j : msorted dx -> (i < j)%Z ->
    (forall p, fst p <> i -> fst p <> j -> F p = []) ->
    flat_map F dx = match mfind i dx with Some d => F (i, d) | None => [] end ++
                    match mfind j dx with Some d => F (j, d) | None => [] end.
  Proof.
    intros S Lij H. induction dx as [|[k d] dx IH]; [reflexivity|].
    cbn [flat_map]. assert (S' := S). apply msorted_inv in S' as [S' L]. rewrite IH by exact S'.
    destruct (Z.eq_dec k i) as [->|NI].
    - rewrite mfind_head, (mfind_cons_ne j i d dx S) by lia. now rewrite (mfind_tail i d dx S).
    - rewrite (mfind_cons_ne i k d dx S) by congruence. destruct (Z.eq_dec k j) as [->|NJ].
      + rewrite mfind_head, (mfind_tail j d dx S).
        assert (E : mfind i dx = None).
        { apply mfind_None_iff; [exact S'|]. intro Hi. apply L, klt_lt in Hi. lia. }
        rewrite E. now rewrite app_nil_r.
      + rewrite (mfind_cons_ne j k d dx S) by congruence. rewrite H; auto.
  Qed.

  Lemma filter_wC hxy px dy k : 
    filter (at_k k) (map (wC hxy px) dy) =
    map (wC hxy px) (filter (fun py => keqb (Z.min (fst px) (fst py), Z.max (fst px) (fst py)) k) dy).
  Proof.
    induction dy as [|py dy IH]; [reflexivity|]. cbn [map filter]. unfold at_k at 1. cbn [wC wk].
    destruct (keqb _ k); cbn [map]; now rewrite IH.
  Qed.

  Lemma filter_one (dy : list (Z * diag N)) (p : Z * diag N -> bool) j : msorted dy ->
    (forall d, p (j, d) = true) -> (forall q, fst q <> j -> p q = false) ->
    filter p dy = match mfind j dy with Some d => [(j, d)] | None => [] end.
  Proof.
    intros S H1 H2. rewrite <- filter_key by exact S. clear S.
    induction dy as [|[k d] dy IH]; [reflexivity|]. cbn [filter fst]. rewrite IH.
    destruct (keqb k j) eqn:E.
    - apply keqb_eq in E; subst. now rewrite H1.
    - apply keqb_neq in E. now rewrite H2.
  Qed.
  Lemma filter_none {A : Type} (p : A -> bool) l : (forall a, p a = false) -> filter p l = [].
  Proof. intro H. induction l as [|a l IH]; [reflexivity|]. cbn [filter]. now rewrite H. Qed.

  (** The writes to one element. *)
  Lemma cross_filter_tri hxy dx dy i j : msorted dx -> msorted dy -> (i < j)%Z ->
    filter (at_k (i, j)) (cross_writes hxy dx dy) =
      match mfind i dx, mfind j dy with Some a, Some b => [wC hxy (i, a) (j, b)] | _, _ => [] end ++
      match mfind j dx, mfind i dy with Some a, Some b => [wC hxy (j, a) (i, b)] | _, _ => [] end.
  Proof.
    intros Sx Sy L. unfold cross_writes. rewrite filter_flat_map.
    rewrite (flat_map_two _ dx i j Sx L).
    - f_equal.
      + destruct (mfind i dx) as [a|]; [|reflexivity]. rewrite filter_wC.
        rewrite (filter_one dy _ j Sy).
        * destruct (mfind j dy); reflexivity.
        * intro d. cbn [fst]. apply keqb_eq. f_equal; lia.
        * intros [q d] Hq. cbn [fst] in *. apply keqb_neq. intro E. injection E as E1 E2. lia.
      + destruct (mfind j dx) as [a|]; [|reflexivity]. rewrite filter_wC.
        rewrite (filter_one dy _ i Sy).
        * destruct (mfind i dy); reflexivity.
        * intro d. cbn [fst]. apply keqb_eq. f_equal; lia.
        * intros [q d] Hq. cbn [fst] in *. apply keqb_neq. intro E. injection E as E1 E2. lia.
    - intros p Hi Hj. rewrite filter_wC, filter_none; [reflexivity|].
      intros [q d]. cbn [fst]. apply keqb_neq. intro E. injection E as E1 E2. lia.
  Qed.
  Lemma cross_filter_diag hxy dx dy i : msorted dx -> msorted dy ->
    filter (at_k (i, i)) (cross_writes hxy dx dy) =
      match mfind i dx, mfind i dy with Some a, Some b => [wC hxy (i, a) (i, b)] | _, _ => [] end.
  Proof.
    intros Sx Sy. unfold cross_writes. rewrite filter_flat_map.
    rewrite (flat_map_one _ dx i Sx).
    - destruct (mfind i dx) as [a|]; [|reflexivity]. rewrite filter_wC.
      rewrite (filter_one dy _ i Sy).
      + destruct (mfind i dy); reflexivity.
      + intro d. cbn [fst]. apply keqb_eq. f_equal; lia.
      + intros [q d] Hq. cbn [fst] in *. apply keqb_neq. intro E. injection E as E1 E2. lia.
    - intros p Hi. rewrite filter_wC, filter_none; [reflexivity|].
      intros [q d]. cbn [fst]. apply keqb_neq. intro E. injection E as E1 E2. lia.
  Qed.
  Lemma cross_result (hxy : N) (hx hy r : hessgrad N) : msorted (diagmap hx) -> msorted (diagmap hy) -> hg_ok r ->
    (forall i, In i (map fst (diagmap r)) <-> In i (map fst (diagmap hx)) \/ In i (map fst (diagmap hy))) ->
    exists r', cross hxy (diagmap hx) (diagmap hy) r = Ret r' /\ hg_ok r' /\
      (forall i, mfind i (diagmap r') =
         match mfind i (diagmap hx), mfind i (diagmap hy) with
         | Some a, Some b => Some (wd (wC hxy (i, a) (i, b)) (mget diag0 i (diagmap r)))
         | _, _ => mfind i (diagmap r)
         end) /\
      (forall i j, (i < j)%Z -> mget n0 (i, j) (trimap r') =
         let t0 := mget n0 (i, j) (trimap r) in
         let t1 := match mfind i (diagmap hx), mfind j (diagmap hy) with
                   | Some a, Some b => t0 + hxy * dgrad a * dgrad b | _, _ => t0 end in
         match mfind j (diagmap hx), mfind i (diagmap hy) with
         | Some a, Some b => t1 + hxy * dgrad a * dgrad b | _, _ => t1 end).
  Proof.
    intros Sx Sy (SD & ST & HK & HM) KEYS. rewrite cross_is_writes.
    assert (INW : forall w, In w (cross_writes hxy (diagmap hx) (diagmap hy)) ->
      exists px py, In px (diagmap hx) /\ In py (diagmap hy) /\ w = wC hxy px py).
    { intros w Hw. unfold cross_writes in Hw. apply in_flat_map in Hw as (px & Hx & Hw).
      apply in_map_iff in Hw as (py & <- & Hy). eauto. }
    assert (WOK : List.Forall wr_ok (cross_writes hxy (diagmap hx) (diagmap hy))).
    { apply Forall_forall. intros w Hw. destruct (INW w Hw) as (px & py & _ & _ & ->).
      unfold wr_ok, wC; cbn. lia. }
    destruct (apply_all _ r WOK SD ST) as (r' & E & SD' & ST' & HD & HT & HE).
    exists r'. split; [exact E|].
    assert (HD' : forall i, mfind i (diagmap r') =
         match mfind i (diagmap hx), mfind i (diagmap hy) with
         | Some a, Some b => Some (wd (wC hxy (i, a) (i, b)) (mget diag0 i (diagmap r)))
         | _, _ => mfind i (diagmap r)
         end).
    { intro i. rewrite HD, cross_filter_diag by assumption.
      destruct (mfind i (diagmap hx)), (mfind i (diagmap hy)); reflexivity. }
    assert (K' : forall i, In i (map fst (diagmap r)) -> In i (map fst (diagmap r'))).
    { intros i H. destruct (in_dec Z.eq_dec i (map fst (diagmap r'))) as [Y|Nn]; [exact Y|exfalso].
      apply (mfind_None_iff i _ SD') in Nn. rewrite HD' in Nn.
      revert H. apply (mfind_None_iff i _ SD).
      destruct (mfind i (diagmap hx)), (mfind i (diagmap hy)); congruence. }
    split; [|split; [exact HD'|]].
    - split; [exact SD'|]. split; [exact ST'|]. split.
      + intros i j H. destruct (mfind (i, j) (trimap r')) as [x|] eqn:Ef.
        2:{ exfalso. revert H. now apply (mfind_None_iff (i, j) _ ST'). }
        destruct (Z.eq_dec i j) as [<-|NE].
        { rewrite HE in Ef. apply mfind_In, (in_map fst) in Ef. apply HK in Ef. lia. }
        rewrite HT in Ef by exact NE.
        destruct (filter (at_k (i, j)) _) as [|w l] eqn:Ew in Ef.
        { apply mfind_In, (in_map fst) in Ef. apply HK in Ef as (L & Hi & Hj). auto. }
        assert (Hw : In w (filter (at_k (i, j)) (cross_writes hxy (diagmap hx) (diagmap hy)))) by (rewrite Ew; now left).
        apply filter_In in Hw as [Hw Hk]. unfold at_k in Hk. apply keqb_eq in Hk.
        destruct (INW w Hw) as ([a da] & [b db] & Ha & Hb & ->). cbn [wC wk fst] in Hk. injection Hk as E1 E2.
        apply (in_map fst) in Ha, Hb. cbn [fst] in Ha, Hb.
        assert (Ra := proj2 (KEYS a) (or_introl Ha)). assert (Rb := proj2 (KEYS b) (or_intror Hb)).
        apply K' in Ra, Rb. split; [lia|].
        destruct (Z.min_spec a b) as [[L1 M1]|[L1 M1]], (Z.max_spec a b) as [[L2 M2]|[L2 M2]]; 
          try (exfalso; lia); rewrite M1 in E1; rewrite M2 in E2; subst; auto.
      + intros i x H. apply (In_mfind _ _ _ SD') in H. rewrite HD' in H.
        assert (H0 : exists x0, mfind i (diagmap r) = Some x0 /\ dmom x = dmom x0).
        { destruct (mfind i (diagmap hx)) as [a|] eqn:E1, (mfind i (diagmap hy)) as [b|] eqn:E2; try (exists x; split; [exact H|reflexivity]).
          assert (Hi : In i (map fst (diagmap r))).
          { apply KEYS. left. apply mfind_In in E1. exact (in_map fst _ _ E1). }
          destruct (mfind i (diagmap r)) as [x0|] eqn:E0; [|exfalso; revert Hi; now apply mfind_None_iff].
          exists x0. split; [reflexivity|]. injection H as <-. unfold mget. now rewrite E0. }
        destruct H0 as (x0 & H0 & ->). apply mfind_In in H0. now apply (HM i).
    - intros i j L. unfold mget at 1. rewrite HT by lia. rewrite cross_filter_tri by assumption.
      cbv zeta. destruct (mfind i (diagmap hx)), (mfind j (diagmap hy)), (mfind j (diagmap hx)), (mfind i (diagmap hy)); reflexivity.
  Qed.
End Results.
