(** * MomProofs: the moments reported by a UReal2 are those of the polynomial *)

From Coq Require Import List ZArith Bool Reals Lra Lia Permutation Sorted.
From Verif Require Import Base Num Map UReal HessGrad Moments CheckMoments UReal2 HessProofs U2Facts World2 U2World.
From Verif Require Import Sums SpecU2 U2Values U2Ret SpecProb MomSums MomSpec MomPoly MomCode MomLoops MomMatch.
Import ListNotations.
Local Open Scope R_scope.

(** ** The set of variables a sum ranges over *)
Lemma rprod_support (I : list Z) f : NoDup I -> forall L, NoDup L -> incl I L ->
  (forall i, In i L -> ~ In i I -> f i = 1) -> rprod L f = rprod I f.
Proof.
  induction I as [|a I IH]; intros NI L NL IL H.
  - cbn. assert (H' : forall i, In i L -> f i = 1) by (intros; apply H; auto). clear -H'.
    induction L as [|a L IH]; cbn; [reflexivity|]. rewrite IH by (intros; apply H'; now right). rewrite H' by now left. ring.
  - inversion NI as [|? ? Na NI']; subst. assert (Ha : In a L) by (apply IL; now left).
    apply in_split in Ha as (L1 & L2 & ->).
    rewrite (rprod_perm _ (a :: L1 ++ L2)) by (symmetry; apply Permutation_middle).
    cbn [rprod]. f_equal. apply IH; [exact NI'|now apply NoDup_remove_1 in NL| |].
    + intros x Hx. assert (Hx' := IL x (or_intror Hx)). apply in_app_iff. apply in_app_iff in Hx' as [H'|[H'|H']]; auto.
      subst. contradiction.
    + intros i Hi Hn. apply H; [apply in_app_iff in Hi as [Hi|Hi]; apply in_app_iff; cbn; auto|].
      intros [<-|Hi']; [|contradiction]. apply NoDup_remove_2 in NL. contradiction.
Qed.

Lemma mu_sub V V' (L I : list Z) w : NoDup L -> NoDup I -> incl I L -> incl w I ->
  (forall i, In i L -> V i 0%nat = 1) -> (forall i k, In i I -> (k <= length w)%nat -> V i k = V' i k) -> mu V L w = mu V' I w.
Proof.
  intros NL NI IL Iw V0 E. unfold mu. rewrite (rprod_support I _ NI L NL IL).
  - apply rprod_ext. intros i Hi. apply E; [exact Hi|]. apply count_occ_bound.
  - intros i Hi Hn. rewrite (proj1 (count_occ_not_In Z.eq_dec w i)); [now apply V0|]. intro H. apply Hn, Iw, H.
Qed.

Definition inter (L L' : list Z) : list Z := filter (fun i => if in_dec Z.eq_dec i L' then true else false) L.
Lemma in_inter L L' i : In i (inter L L') <-> In i L /\ In i L'.
Proof. unfold inter. rewrite filter_In. destruct (in_dec Z.eq_dec i L'); intuition congruence. Qed.

Lemma qS_change qs V V' (L L' : list Z) : NoDup L -> NoDup L' ->
  List.Forall (qsup L) qs -> List.Forall (qsup L') qs ->
  (forall i, In i L -> V i 0%nat = 1) -> (forall i, In i L' -> V' i 0%nat = 1) ->
  (forall i k, In i L -> In i L' -> (k <= 2 * length qs)%nat -> V i k = V' i k) ->
  qS qs L (mu V L) = qS qs L' (mu V' L').
Proof.
  intros NL NL' F F' V0 V0' E. set (I := inter L L').
  assert (NI : NoDup I) by now apply NoDup_filter.
  assert (FI : List.Forall (qsup I) qs).
  { rewrite Forall_forall in *. intros q Hq. destruct (F q Hq) as [G H]. destruct (F' q Hq) as [G' H']. split.
    - intros i Hi. destruct (in_dec Z.eq_dec i L); [|auto]. destruct (in_dec Z.eq_dec i L'); [|auto].
      exfalso. apply Hi, in_inter. auto.
    - intros i j Hij. destruct (in_dec Z.eq_dec i L); [|auto]. destruct (in_dec Z.eq_dec i L'); [|auto].
      destruct (in_dec Z.eq_dec j L); [|auto]. destruct (in_dec Z.eq_dec j L'); [|auto].
      exfalso. destruct Hij as [H1|H1]; apply H1, in_inter; auto. }
  assert (IL : incl I L) by (intros i Hi; now apply in_inter in Hi).
  assert (IL' : incl I L') by (intros i Hi; now apply in_inter in Hi).
  rewrite (qS_sup qs I L NI NL IL FI), (qS_sup qs I L' NI NL' IL' FI).
  apply qS_ext. intros w Hw Hl. rewrite (mu_sub V V' L I w), (mu_sub V' V' L' I w); auto.
  intros i k Hi Hk. apply in_inter in Hi as [H1 H2]. apply E; auto. lia.
Qed.

(** ** Reading the storage *)
Section Storage.
  Variables (x : ureal2 RN) (env : Z -> moms RN).
  Hypothesis OK : hg_ok (u2hg x).
  Hypothesis MO : forall i d, In (i, d) (diagmap (u2hg x)) -> dmom d = Some (env i).

  Let D := diagmap (u2hg x).
  Let TM := trimap (u2hg x).
  Let g := j_g (jet_of x).
  Let h := j_h (jet_of x).
  Let L := map fst D.
  Let keys := map fst TM.

  Lemma st_sorted : StronglySorted Z.lt L.
  Proof.
    assert (S := proj1 OK). unfold msorted in S. fold D in S. fold L in S. clear - S.
    induction S as [|a l S IH F]; constructor; [exact IH|]. rewrite Forall_forall in *. intros y Hy. apply klt_lt. now apply F.
  Qed.
  Lemma st_diag i d : In (i, d) D -> read_diag d = Ret (rd g h env i).
  Proof.
    intro Hd. unfold read_diag. rewrite (MO i d Hd). unfold rd, g, h. rewrite jh_diag.
    cbn [jet_of j_g]. now rewrite (In_mfind _ _ _ (proj1 OK) Hd).
  Qed.
  Lemma st_mget i : In i L -> read_diag (mget diag0 i D) = Ret (rd g h env i).
  Proof.
    intro Hi. apply in_map_iff in Hi as ([k d] & E & Hd). cbn in E; subst k.
    rewrite (mget_In _ _ d _ (proj1 OK) Hd). now apply st_diag.
  Qed.
  Lemma omapM_map {A B C : Type} (f : A -> outcome B) (k : A -> C) (e : C -> B) (l : list A) :
    (forall a, In a l -> f a = Ret (e (k a))) -> omapM f l = Ret (map e (map k l)).
  Proof.
    induction l as [|a l IH]; intro H; cbn [omapM map]; [reflexivity|]. rewrite (H a (or_introl eq_refl)). cbn [bind].
    rewrite IH by (intros; apply H; now right). reflexivity.
  Qed.

  Lemma st_entries : omapM read_entry D = Ret (map (ent g h env) L).
  Proof.
    apply omapM_map. intros [i d] Hd. unfold read_entry. cbn [fst snd]. rewrite (st_diag i d Hd). reflexivity.
  Qed.
  Lemma st_keys i j : In (i, j) keys -> In i L /\ In j L /\ (i < j)%Z.
  Proof. intro H. destruct OK as (_ & _ & HK & _). destruct (HK i j H) as (A & B & C). auto. Qed.
  Lemma st_find i j : i <> j -> match hg_tri_find (u2hg x) i j with Some v => v = h i j | None => h i j = 0 end.
  Proof.
    intro Hij. unfold hg_tri_find, h. cbn [jet_of j_h]. destruct (Z.eqb_spec i j); [contradiction|].
    destruct (mfind _ _); reflexivity.
  Qed.
  Lemma st_get i j : (i < j)%Z -> hg_tri_get (u2hg x) i j = Ret (h i j).
  Proof.
    intro Hij. unfold hg_tri_get. assert (E := proj2 (Z.ltb_lt i j) Hij). rewrite E. cbn [assert_ bind]. f_equal.
    unfold h. rewrite jh_lt by exact Hij. unfold mget. destruct (mfind _ _); reflexivity.
  Qed.
  Lemma st_all i j : (i < j)%Z -> ~ In (i, j) keys -> h i j = 0.
  Proof.
    intros Hij Hn. unfold h. rewrite jh_lt by exact Hij.
    fold TM. rewrite (proj2 (mfind_None_iff (i, j) TM (proj1 (proj2 OK))) Hn). reflexivity.
  Qed.
  Lemma st_skip : omapM read_visit (map (tvisit D) TM) = Ret (map (tent g h env) keys).
  Proof.
    assert (E : map (tent g h env) keys = map (fun v : visit RN => tent g h env (vid v)) (map (tvisit D) TM)).
    { unfold keys. rewrite !map_map. apply map_ext. intros [[i j] v]. reflexivity. }
    rewrite E, <- (map_id (map (fun v : visit RN => tent g h env (vid v)) _)), map_map.
    etransitivity; [apply (omapM_map read_visit (fun v => v) (fun v => tent g h env (vid v)))|now rewrite map_id].
    intros v Hv. apply in_map_iff in Hv as ([[i j] y] & <- & Hy). unfold read_visit, tvisit. cbn [vd1 vd2 vid1 vid2 vval fst snd].
    destruct (st_keys i j (in_map fst _ _ Hy)) as (Hi & Hj & Hij). rewrite (st_mget i Hi), (st_mget j Hj). cbn [bind].
    unfold tent, vid. cbn [fst snd vid1 vid2]. do 2 f_equal. unfold h. rewrite jh_lt by exact Hij.
    now rewrite (In_mfind _ _ _ (proj1 (proj2 OK)) Hy).
  Qed.
  Lemma tpairs_reads d : msorted d -> incl d D -> omapM read_visit (tpairs TM d) = Ret (map (tent g h env) (pairs (map fst d))).
  Proof.
    intros S I.
    assert (Eid : map vid (tpairs TM d) = pairs (map fst d)).
    { clear. induction d as [|[i di] d IH]; cbn [tpairs pairs map]; [reflexivity|]. rewrite map_app, IH. f_equal.
      rewrite !map_map. reflexivity. }
    rewrite <- Eid. apply omapM_map. intros v Hv.
    assert (H : In (vid1 v, vd1 v) D /\ In (vid2 v, vd2 v) D /\ (vid1 v < vid2 v)%Z /\ vval v = mget n0 (vid1 v, vid2 v) TM).
    { clear Eid. induction d as [|[i di] d IH]; [destruct Hv|]. cbn [tpairs] in Hv. apply in_app_iff in Hv as [Hv|Hv].
      - apply in_map_iff in Hv as ([j dj] & <- & Hj). cbn [vid1 vid2 vd1 vd2 fst snd vval]. split; [apply I; now left|].
        split; [apply I; now right|]. split; [|reflexivity].
        apply klt_lt. inversion S as [|? ? S' F]; subst. rewrite Forall_forall in F. apply F. now apply (in_map fst) in Hj.
      - apply IH; [now inversion S|intros y Hy; apply I; now right|exact Hv]. }
    destruct H as (H1 & H2 & H3 & H4). unfold read_visit. rewrite (st_diag _ _ H1), (st_diag _ _ H2). cbn [bind].
    unfold tent, vid. cbn [fst snd]. do 2 f_equal. rewrite H4. unfold h. rewrite jh_lt by exact H3.
    unfold mget. destruct (mfind _ _); reflexivity.
  Qed.

  Definition Vs (i : Z) (k : nat) : R := stdmom (env i) k.

  (** moments.hpp 41-51 *)
  Lemma m1_ok : compute_m1 (u2hg x) = qS (repeat (g, h) 1) L (mu Vs L).
  Proof.
    etransitivity; [|exact (m1_match g h env L st_sorted)]. unfold compute_m1. fold D.
    assert (E : forall (d : list (Z * diag RN)) m, for_each (fun it (m : RN) => nadd m (dhh (snd it))) d m = m + rsum d (fun it => dhh (snd it))).
    { induction d as [|a d IH]; intro m; cbn [for_each fold_left rsum]; [symmetry; apply Rplus_0_r|].
      fold (for_each (fun it (m : RN) => nadd m (dhh (snd it))) d (nadd m (dhh (snd a)))).
      rewrite IH. cbn [nadd RN]. change (T RN) with R in *. ring. }
    rewrite E. unfold L. rewrite rsum_map. cbn [n0 RN]. rewrite Rplus_0_l. apply rsum_ext. intros [i d] Hd. cbn [fst snd].
    unfold h. rewrite jh_diag. now rewrite (In_mfind _ _ _ (proj1 OK) Hd).
  Qed.
  Lemma h_sym i j : h i j = h j i. Proof. apply jh_sym. Qed.
  Lemma m2_ok : compute_m2 (u2hg x) = Ret (qS (repeat (g, h) 2) L (mu Vs L)).
  Proof.
    unfold compute_m2. fold D. rewrite st_entries. cbn [bind]. rewrite (tri_visits_all _ OK). cbn [bind].
    fold TM. fold D. rewrite (tpairs_reads D (proj1 OK) (incl_refl _)). cbn [bind]. f_equal.
    etransitivity; [apply m2_sum|]. apply (m2_match g h env h_sym L st_sorted).
  Qed.
  Lemma st_nd : NoDup keys.
  Proof.
    assert (S := proj1 (proj2 OK)). unfold msorted in S. fold TM in S. fold keys in S. clear - S.
    induction S as [|a l S IH F]; constructor; [|exact IH]. intro H. rewrite Forall_forall in F. apply F in H.
    now apply klt_irrefl in H.
  Qed.
  Lemma st_lex : StronglySorted (fun a b : Z * Z => (fst a < fst b)%Z \/ fst a = fst b /\ (snd a < snd b)%Z) keys.
  Proof.
    assert (S := proj1 (proj2 OK)). unfold msorted in S. fold TM in S. fold keys in S. clear - S.
    induction S as [|a l S IH F]; constructor; [exact IH|]. rewrite Forall_forall in *. intros y Hy. apply klt_ZZ. now apply F.
  Qed.
  Lemma m3_ok : compute_m3 (u2hg x) = Ret (qS (repeat (g, h) 3) L (mu Vs L)).
  Proof.
    unfold compute_m3. fold D. rewrite st_entries. cbn [bind]. rewrite (tri_visits_skip _ OK). cbn [bind].
    fold TM. fold D. rewrite st_skip. cbn [bind].
    rewrite (m3_sum L g h env (u2hg x) keys st_sorted st_nd st_keys (fun i j _ _ => st_all i j) st_lex (fun i j _ _ => st_get i j)).
    f_equal. apply (m3_match g h env h_sym L st_sorted).
  Qed.
  Lemma m4_ok : compute_m4 (u2hg x) = Ret (qS (repeat (g, h) 4) L (mu Vs L)).
  Proof.
    unfold compute_m4. fold D. rewrite st_entries. cbn [bind]. rewrite (tri_visits_skip _ OK). cbn [bind].
    fold TM. fold D. rewrite st_skip. cbn [bind]. f_equal.
    etransitivity; [apply (m4_sum L g h env (u2hg x) keys st_sorted st_nd st_keys (fun i j _ _ => st_all i j) (fun i j _ _ => st_find i j))|].
    apply (m4_match g h env h_sym L st_sorted).
  Qed.
  Lemma st_sup : qsup L (g, h).
  Proof.
    split; cbn [fst snd].
    - intros i Hi. unfold g. cbn [jet_of j_g]. fold D. rewrite (proj2 (mfind_None_iff i D (proj1 OK)) Hi). reflexivity.
    - intros i j Hij. destruct (Z.eq_dec i j) as [->|N].
      + unfold h. rewrite jh_diag. assert (Hj : ~ In j L) by tauto. fold D. rewrite (proj2 (mfind_None_iff j D (proj1 OK)) Hj). reflexivity.
      + destruct (Z_lt_ge_dec i j) as [Hl|Hl].
        * apply st_all; [exact Hl|]. intro Hk. apply st_keys in Hk. tauto.
        * rewrite h_sym. apply st_all; [lia|]. intro Hk. apply st_keys in Hk. tauto.
  Qed.
End Storage.

(** ** The moments of the random variable *)
Section Moments.
  Variables (x : ureal2 RN) (env : Z -> moms RN) (P : expect) (ids : list Z) (X : Z -> Om P -> R) (V : Z -> nat -> R).
  Hypothesis OK : hg_ok (u2hg x).
  Hypothesis MO : forall i d, In (i, d) (diagmap (u2hg x)) -> dmom d = Some (env i).
  Hypothesis ND : NoDup ids.
  Hypothesis IND : independent P ids X V.
  Hypothesis VE : forall i, In i ids -> j_dep (jet_of x) i -> forall k, (k <= 8)%nat -> V i k = stdmom (env i) k.
  Hypothesis SUP : qsup ids (j_g (jet_of x), j_h (jet_of x)).

  Let y := quad ids (j_g (jet_of x)) (j_h (jet_of x)) X.

  Lemma indep_V0 i : In i ids -> V i 0%nat = 1.
  Proof.
    intro Hi. destruct (IND [i] (fun _ => 0%nat)) as [I E].
    - repeat constructor; auto.
    - intros j [<-|[]]. exact Hi.
    - intros; lia.
    - cbn [rprod pow] in E. destruct (Ex_ext P _ (fun _ => 1) (fun _ => Rmult_1_r 1) I) as [_ E1].
      rewrite E1 in E. rewrite (proj2 (Ex_const P 1)) in E. lra.
  Qed.

  Lemma qprod_pow q n o : qprod (repeat q n) ids X o = quad ids (fst q) (snd q) X o ^ n.
  Proof. induction n as [|n IH]; cbn [repeat qprod pow]; [reflexivity|]. now rewrite IH. Qed.

  Lemma Ex_pow n : (n <= 4)%nat -> int P (fun o => y o ^ n) /\
    Ex P (fun o => y o ^ n) = qS (repeat (j_g (jet_of x), j_h (jet_of x)) n) (map fst (diagmap (u2hg x))) (mu (Vs env) (map fst (diagmap (u2hg x)))).
  Proof.
    intro Hn. destruct (Ex_qprod V P ids X ND IND (repeat (j_g (jet_of x), j_h (jet_of x)) n) []) as [I E].
    - intros i [].
    - rewrite repeat_length. cbn. lia.
    - apply Ex_eq with (f := fun o => rprod [] (fun i => X i o) * qprod (repeat (j_g (jet_of x), j_h (jet_of x)) n) ids X o).
      + intro o. cbn [rprod]. rewrite qprod_pow. unfold y. cbn [fst snd]. ring.
      + split; [exact I|]. rewrite E. apply (qS_change _ V (Vs env)).
        * exact ND.
        * exact (sorted_nodup _ (st_sorted x OK)).
        * apply Forall_forall. intros q Hq. apply repeat_spec in Hq. now subst.
        * apply Forall_forall. intros q Hq. apply repeat_spec in Hq. subst. apply st_sup. exact OK.
        * exact indep_V0.
        * reflexivity.
        * intros i k Hi Hd Hk. apply VE; auto. rewrite repeat_length in Hk. lia.
  Qed.

  Lemma mom_ok n : (1 <= n <= 4)%nat -> compute_mom (u2hg x) (Z.of_nat n) = Ret (Ex P (fun o => y o ^ n)).
  Proof.
    intro Hn. rewrite (proj2 (Ex_pow n (proj2 Hn))).
    assert (H : n = 1%nat \/ n = 2%nat \/ n = 3%nat \/ n = 4%nat) by lia. unfold compute_mom.
    destruct H as [-> | [-> | [-> | ->]]]; vm_compute Z.of_nat;
      cbn [Z.leb Z.eqb andb Z.compare Pos.compare Pos.compare_cont assert_ bind Pos.eqb].
    - f_equal. now apply m1_ok.
    - now apply m2_ok.
    - now apply m3_ok.
    - now apply m4_ok.
  Qed.

  Lemma Ex_poly (z : Om P -> R) : (forall n, (n <= 4)%nat -> int P (fun o => z o ^ n)) -> forall c0 c1 c2 c3 c4,
    int P (fun o => c0 + c1 * z o ^ 1 + c2 * z o ^ 2 + c3 * z o ^ 3 + c4 * z o ^ 4) /\
    Ex P (fun o => c0 + c1 * z o ^ 1 + c2 * z o ^ 2 + c3 * z o ^ 3 + c4 * z o ^ 4) =
      c0 + c1 * Ex P (fun o => z o ^ 1) + c2 * Ex P (fun o => z o ^ 2) + c3 * Ex P (fun o => z o ^ 3) + c4 * Ex P (fun o => z o ^ 4).
  Proof.
    intros H c0 c1 c2 c3 c4.
    destruct (Ex_const P c0) as [I0 E0].
    destruct (Ex_scal P c1 _ (H 1%nat ltac:(lia))) as [I1 E1].
    destruct (Ex_scal P c2 _ (H 2%nat ltac:(lia))) as [I2 E2].
    destruct (Ex_scal P c3 _ (H 3%nat ltac:(lia))) as [I3 E3].
    destruct (Ex_scal P c4 _ (H 4%nat ltac:(lia))) as [I4 E4].
    destruct (Ex_plus P _ _ I0 I1) as [J1 F1].
    destruct (Ex_plus P _ _ J1 I2) as [J2 F2].
    destruct (Ex_plus P _ _ J2 I3) as [J3 F3].
    destruct (Ex_plus P _ _ J3 I4) as [J4 F4].
    split; [exact J4|]. rewrite F4, F3, F2, F1, E0, E1, E2, E3, E4. reflexivity.
  Qed.

  (** The reported moments. *)
  Definition Yv (o : Om P) : R := j_mean (jet_of x) + y o.
  Lemma ex1 : Ex P (fun o => y o ^ 1) = Ex P y /\ int P y.
  Proof.
    destruct (Ex_ext P (fun o => y o ^ 1) y) as [A B]; [intro; cbn; ring|apply Ex_pow; lia|]. auto.
  Qed.
  Lemma exY : int P Yv /\ Ex P Yv = j_mean (jet_of x) + Ex P y.
  Proof.
    destruct (Ex_const P (j_mean (jet_of x))) as [I0 E0]. destruct (Ex_plus P _ _ I0 (proj2 ex1)) as [I E].
    split; [exact I|]. unfold Yv. rewrite E, E0. reflexivity.
  Qed.
  Lemma central n : (n <= 4)%nat -> int P (fun o => (Yv o - Ex P Yv) ^ n) /\
    Ex P (fun o => (Yv o - Ex P Yv) ^ n) =
    let e := fun k => Ex P (fun o => y o ^ k) in
    match n with
    | 0%nat => 1 | 1%nat => 0 | 2%nat => e 2%nat - e 1%nat ^ 2 | 3%nat => e 3%nat - 3 * e 1%nat * e 2%nat + 2 * e 1%nat ^ 3
    | _ => e 4%nat - 4 * e 1%nat * e 3%nat + 6 * e 1%nat ^ 2 * e 2%nat - 3 * e 1%nat ^ 4 end.
  Proof.
    intro Hn. assert (H := fun n Hn => proj1 (Ex_pow n Hn)). assert (Q := Ex_poly y H).
    rewrite (proj2 exY). set (a := Ex P y). cbv zeta beta. rewrite (proj1 ex1). fold a.
    assert (H' : n = 0%nat \/ n = 1%nat \/ n = 2%nat \/ n = 3%nat \/ n = 4%nat) by lia.
    destruct H' as [-> | [-> | [-> | [-> | ->]]]].
    - eapply Ex_eq; [|exact (Ex_const P 1)]. intro; cbn; ring.
    - eapply Ex_eq; [|destruct (Q (-a) 1 0 0 0) as [I E]; split; [exact I|rewrite E]].
      + intro o. unfold Yv. cbv beta. ring.
      + rewrite (proj1 ex1). fold a. ring.
    - eapply Ex_eq; [|destruct (Q (a ^ 2) (-2 * a) 1 0 0) as [I E]; split; [exact I|rewrite E]].
      + intro o. unfold Yv. cbv beta. ring.
      + rewrite (proj1 ex1). fold a. ring.
    - eapply Ex_eq; [|destruct (Q (- a ^ 3) (3 * a ^ 2) (-3 * a) 1 0) as [I E]; split; [exact I|rewrite E]].
      + intro o. unfold Yv. cbv beta. ring.
      + rewrite (proj1 ex1). fold a. ring.
    - eapply Ex_eq; [|destruct (Q (a ^ 4) (-4 * a ^ 3) (6 * a ^ 2) (-4 * a) 1) as [I E]; split; [exact I|rewrite E]].
      + intro o. unfold Yv. cbv beta. ring.
      + rewrite (proj1 ex1). fold a. ring.
  Qed.

  Lemma u2_m1 : u2_m x 1 = Ret (Ex P Yv - j_mean (jet_of x)).
  Proof.
    unfold u2_m, update_mom. cbn [Z.leb Z.eqb andb Z.compare Pos.compare Pos.compare_cont assert_ bind Pos.eqb Z.add].
    assert (M1 := mom_ok 1 ltac:(lia)). vm_compute Z.of_nat in M1.
    rewrite M1. cbn [bind]. f_equal. rewrite (proj2 exY), (proj1 ex1). cbn [T RN]. ring.
  Qed.
  Lemma u2_mc n : (2 <= n <= 4)%nat -> u2_m x (Z.of_nat n) = Ret (Ex P (fun o => (Yv o - Ex P Yv) ^ n)).
  Proof.
    intro Hn. rewrite (proj2 (central n (proj2 Hn))). unfold u2_m, update_mom.
    assert (H' : n = 2%nat \/ n = 3%nat \/ n = 4%nat) by lia.
    assert (M1 := mom_ok 1 ltac:(lia)). assert (M2 := mom_ok 2 ltac:(lia)). assert (M3 := mom_ok 3 ltac:(lia)). assert (M4 := mom_ok 4 ltac:(lia)).
    vm_compute Z.of_nat in M1, M2, M3, M4.
    destruct H' as [-> | [-> | ->]]; vm_compute Z.of_nat;
      cbn [Z.leb Z.eqb andb Z.compare Pos.compare Pos.compare_cont assert_ bind Pos.eqb Z.add Pos.add Pos.succ];
      rewrite M1; cbn [bind]; rewrite M2; cbn [bind]; try (rewrite M3; cbn [bind]); try (rewrite M4; cbn [bind]); f_equal;
      cbv zeta; cbn [nsub nmul nadd nofZ RN T]; ring.
  Qed.
End Moments.
