(** * U2Mixed: exactly which mixed second derivatives unary propagates (C27) *)

From Coq Require Import List ZArith Bool Sorted Lia Reals Lra.
From Verif Require Import Base Num Map HessGrad Moments CheckMoments UReal UReal2 World World2 URealProofs2 URealProofs HessProofs U2Facts
  U2World U2Values SpecU2 SpecU2Run SpecU2Mixed U2Proofs.
Import ListNotations.

Section Mixed.
  Context {N : Num}.
  Implicit Types (D : list (Z * diag N)) (T : list ((Z * Z) * N)).

  Lemma vis_row_other T i j p d : i <> fst p -> filter (vis (i, j)) (row_all T p d) = [].
  Proof.
    intro NE. unfold row_all. destruct d as [|q d]; [reflexivity|].
    induction (row T (fst p)) as [|kv l IH]; [reflexivity|]. cbn [map filter]. rewrite IH.
    unfold vis, vid; cbn [vid1 vid2]. destruct (keqb (fst p, fst q) (i, j)) eqn:E; [|reflexivity].
    apply keqb_eq in E. congruence.
  Qed.

  Lemma vis_absent T i j d : ~ In i (map fst d) -> filter (vis (i, j)) (vrows (row_all T) d) = [].
  Proof.
    induction d as [|p d IH]; [reflexivity|]. cbn [map vrows filter]. intro H.
    assert (NE : i <> fst p) by (intro; subst; apply H; now left).
    unfold vis at 1, vid; cbn [dvisit vid1 vid2].
    destruct (keqb (fst p, fst p) (i, j)) eqn:E; [apply keqb_eq in E; congruence|].
    rewrite filter_app, vis_row_other, IH; auto. intro H'. apply H. now right.
  Qed.

  Lemma vis_present T i j di pre d : i <> j -> msorted (pre ++ (i, di) :: d) ->
    filter (vis (i, j)) (vrows (row_all T) (pre ++ (i, di) :: d)) =
    filter (vis (i, j)) (row_all T (i, di) d).
  Proof.
    intro NE. induction pre as [|p pre IH]; cbn [app vrows filter]; intro S.
    - unfold vis at 1, vid; cbn [dvisit vid1 vid2 fst].
      destruct (keqb (i, i) (i, j)) eqn:E; [apply keqb_eq in E; congruence|].
      rewrite filter_app, vis_absent, app_nil_r; [reflexivity|].
      destruct (msorted_inv _ _ _ S) as [_ H]. intro Hi. apply H in Hi. apply klt_lt in Hi. lia.
    - destruct p as [a da]. destruct (msorted_inv _ _ _ S) as [S' H].
      assert (L : (a < i)%Z). { apply klt_lt, H. rewrite map_app. apply in_or_app. right. now left. }
      unfold vis at 1, vid; cbn [dvisit vid1 vid2 fst].
      destruct (keqb (a, a) (i, j)) eqn:E; [apply keqb_eq in E; injection E; lia|].
      rewrite filter_app, vis_row_other by (cbn; lia). now apply IH.
  Qed.

  Lemma vis_succ T i j di dj d : filter (vis (i, j)) (row_all T (i, di) ((j, dj) :: d)) =
    map (fun kv => mkV i j di dj (if peqb (fst kv) (i, j) then snd kv else n0)) (row T i).
  Proof.
    unfold row_all; cbn [fst snd]. induction (row T i) as [|kv l IH]; [reflexivity|].
    cbn [map filter]. rewrite IH. unfold vis, vid; cbn [vid1 vid2].
    destruct (keqb (i, j) (i, j)) eqn:E; [reflexivity|].
    assert (keqb (i, j) (i, j) = true) by (now apply keqb_eq). congruence.
  Qed.

  Lemma vis_not_succ T i j k di dk d : k <> j -> filter (vis (i, j)) (row_all T (i, di) ((k, dk) :: d)) = [].
  Proof.
    intro NE. unfold row_all; cbn [fst snd]. induction (row T i) as [|kv l IH]; [reflexivity|].
    cbn [map filter]. rewrite IH. unfold vis, vid; cbn [vid1 vid2].
    destruct (keqb (i, k) (i, j)) eqn:E; [apply keqb_eq in E; congruence|reflexivity].
  Qed.

  (** A sequence of overwrites leaves the last one. *)
  Lemma fold_last (g : visit N -> N) (wf : visit N -> wr) vs v : (forall u x, wt (wf u) x = g u) ->
    forall a, fold_left (fun x w => wt w x) (map wf (vs ++ [v])) a = g v.
  Proof.
    intros H. induction vs as [|u vs IH]; intro a; cbn; [apply H|]. apply IH.
  Qed.
  Lemma fold_last_match (g : visit N -> N) (wf : visit N -> wr) vs v a : (forall u x, wt (wf u) x = g u) ->
    match vs ++ [v] with
    | [] => None
    | l => Some (fold_left (fun x w => wt w x) (map wf l) a)
    end = Some (g v).
  Proof.
    intro H. destruct (vs ++ [v]) as [|u l] eqn:E; [destruct vs; discriminate|]. rewrite <- E. f_equal. now apply fold_last.
  Qed.
End Mixed.

(** The mixed coefficients of unary when the second derivative is not zero. *)
Lemma unary_mixed (x : ureal2 RN) f f1 f2 z : hg_ok (u2hg x) -> f2 <> 0%R -> u2_unary x f f1 f2 = Ret z ->
  forall i j, (i < j)%Z -> mfind (i, j) (trimap (u2hg z)) =
    match filter (vis (i, j)) (hess_list_all (trimap (u2hg x)) (diagmap (u2hg x))) with
    | [] => None
    | l => Some (fold_left (fun a w => wt w a) (map (wX f1 (f2 / 2)%R) l) 0%R)
    end.
Proof.
  intros OK F E i j L. unfold u2_unary in E.
  assert (NB : neqb (ndiv f2 (nofZ 2)) n0 = false).
  { destruct (neqb (ndiv f2 (nofZ 2)) n0) eqn:B; [|reflexivity]. apply Reqb_true in B. exfalso. apply F.
    cbn in B. change (f2 / 2 = 0)%R in B. lra. }
  rewrite NB in E. rewrite (hess_visits_all _ OK) in E. cbn [bind] in E. rewrite unary_writes in E.
  destruct (visits_facts (u2hg x) false OK) as (vs & Ev & S & HV & _). rewrite (hess_visits_all _ OK) in Ev.
  injection Ev as <-.
  destruct (apply_all (map (wX f1 (ndiv f2 (nofZ 2))) (hess_list_all (trimap (u2hg x)) (diagmap (u2hg x)))) hg_empty)
    as (r & Er & _ & _ & _ & HT & _).
  - apply Forall_forall. intros w Hw. apply in_map_iff in Hw as (v & <- & Hv). apply HV in Hv. unfold wr_ok; cbn. tauto.
  - constructor.
  - constructor.
  - rewrite Er in E. cbn [bind] in E. injection E as <-. cbn [u2hg]. rewrite HT by lia.
    rewrite filter_map_w by reflexivity. cbn [trimap hg_empty mfind mget].
    destruct (filter (vis (i, j)) _); reflexivity.
Qed.

Lemma follows_split (x : ureal2 RN) i j : hg_ok (u2hg x) -> follows (jet_of x) i j ->
  exists pre di dj d, diagmap (u2hg x) = pre ++ (i, di) :: (j, dj) :: d.
Proof.
  intros OK (Di & Dj & L & B). cbn [jet_of j_dep] in *.
  apply in_map_iff in Di as ([i' di] & Ei & Hi). cbn in Ei. subst i'.
  apply in_split in Hi as (pre & d & ED). exists pre, di. assert (SD := proj1 OK). rewrite ED in SD.
  rewrite ED in Dj, B. rewrite map_app in Dj. cbn [map fst] in Dj. apply in_app_or in Dj.
  destruct (msorted_app_inv _ _ SD) as (_ & S2 & S3). destruct (msorted_inv _ _ _ S2) as [S4 S5].
  assert (Hj : In j (map fst d)).
  { destruct Dj as [H|[H|H]]; [|cbn in H; lia|exact H]. exfalso.
    assert (K : klt j i) by (apply S3; [exact H|now left]). apply klt_lt in K. lia. }
  destruct d as [|[k dk] d]; [destruct Hj|]. destruct (Z.eq_dec k j) as [->|NE].
  - now exists dk, d.
  - exfalso. destruct Hj as [H|H]; [cbn in H; congruence|].
    destruct (msorted_inv _ _ _ S4) as [_ S6]. apply S6 in H. apply klt_lt in H.
    assert (K : klt i k) by (apply S5; now left). apply klt_lt in K.
    apply (B k); [|lia]. rewrite map_app. apply in_or_app. right. right. now left.
Qed.

Lemma not_follows_none (x : ureal2 RN) i j : hg_ok (u2hg x) -> (i < j)%Z -> ~ follows (jet_of x) i j ->
  filter (vis (i, j)) (hess_list_all (trimap (u2hg x)) (diagmap (u2hg x))) = [].
Proof.
  intros OK L NF. rewrite hess_list_all_rows. assert (SD := proj1 OK).
  destruct (in_dec Z.eq_dec i (map fst (diagmap (u2hg x)))) as [Hi|Hi]; [|now apply vis_absent].
  assert (Hi' := Hi). apply in_map_iff in Hi as ([i' di] & Ei & Hi). cbn in Ei. subst i'.
  apply in_split in Hi as (pre & d & ED). rewrite ED in SD |- *. rewrite vis_present by (assumption || lia).
  destruct d as [|[k dk] d]; [reflexivity|]. apply vis_not_succ. intro E; subst k. apply NF.
  destruct (msorted_app_inv _ _ SD) as (_ & S2 & S3). destruct (msorted_inv _ _ _ S2) as [S4 S5].
  destruct (msorted_inv _ _ _ S4) as [_ S6].
  split; [exact Hi'|]. split; [|split; [exact L|]].
  - cbn [jet_of j_dep]. rewrite ED, map_app. apply in_or_app. right. right. now left.
  - intros k Hk B. cbn [jet_of j_dep] in Hk. rewrite ED, map_app in Hk. apply in_app_or in Hk as [H|[H|[H|H]]].
    + assert (K : klt k i) by (apply S3; [exact H|now left]). apply klt_lt in K. lia.
    + cbn in H. lia.
    + cbn in H. lia.
    + apply S6 in H. apply klt_lt in H. lia.
Qed.

Lemma empty_row_none (x : ureal2 RN) i j : hg_ok (u2hg x) -> (i < j)%Z -> row (trimap (u2hg x)) i = [] ->
  filter (vis (i, j)) (hess_list_all (trimap (u2hg x)) (diagmap (u2hg x))) = [].
Proof.
  intros OK L ER. rewrite hess_list_all_rows. assert (SD := proj1 OK).
  destruct (in_dec Z.eq_dec i (map fst (diagmap (u2hg x)))) as [Hi|Hi]; [|now apply vis_absent].
  apply in_map_iff in Hi as ([i' di] & Ei & Hi). cbn in Ei. subst i'.
  apply in_split in Hi as (pre & d & ED). rewrite ED in SD |- *. rewrite vis_present by (assumption || lia).
  unfold row_all. cbn [fst]. rewrite ER. destruct d; reflexivity.
Qed.

(** The last recorded element of a row. *)
Lemma row_last {N : Num} (T : list ((Z * Z) * N)) i : row T i = [] \/ exists l k v, row T i = l ++ [((i, k), v)].
Proof.
  destruct (row T i) as [|a l] eqn:E; [now left|]. right.
  destruct (@exists_last _ (a :: l)) as (l' & [[i' k] v] & E'); [discriminate|].
  assert (H : In ((i', k), v) (row T i)) by (rewrite E, E'; apply in_or_app; right; now left).
  apply row_key in H as [H _]. cbn in H. subst i'. eauto.
Qed.

Lemma in_row_iff {N : Num} (T : list ((Z * Z) * N)) i k v : In ((i, k), v) (row T i) <-> In ((i, k), v) T.
Proof. unfold row. rewrite filter_In. unfold in_row. cbn. rewrite Z.eqb_refl. tauto. Qed.

Lemma C27_mixed_exact_partial_proof : forall eig (w : world2 RN), reachable2 eig w -> forall (v : nat) (f f1 f2 : R) z,
  let x := w2_var w v in
  let good i j := (f1 * j_h (jet_of x) i j + f2 / 2 * (j_g (jet_of x) i * j_g (jet_of x) j))%R in
  f2 <> 0%R -> u2_unary x f f1 f2 = Ret z -> forall i j, (i < j)%Z ->
  (~ follows (jet_of x) i j -> j_h (jet_of z) i j = 0%R) /\
  ((forall k, ~ recorded x i k) -> j_h (jet_of z) i j = 0%R) /\
  (follows (jet_of x) i j -> recorded x i j -> (forall k, recorded x i k -> k = j) ->
   j_h (jet_of z) i j = good i j) /\
  (follows (jet_of x) i j -> forall k, recorded x i k -> k <> j ->
   j_h (jet_of z) i j = (good i j - f1 * j_h (jet_of x) i j)%R).
Proof.
  intros eig w R v f f1 f2 z x good F E i j L. destruct (reach_ok eig w R v) as [OK _]. fold x in OK.
  assert (HM := unary_mixed x f f1 f2 z OK F E i j L). rewrite jh_lt by exact L.
  assert (FO : follows (jet_of x) i j -> exists di dj, mfind i (diagmap (u2hg x)) = Some di /\ mfind j (diagmap (u2hg x)) = Some dj /\
    filter (vis (i, j)) (hess_list_all (trimap (u2hg x)) (diagmap (u2hg x))) =
    map (fun kv => mkV i j di dj (if peqb (fst kv) (i, j) then snd kv else @n0 RN)) (row (trimap (u2hg x)) i)).
  { intro Fo. destruct (follows_split x i j OK Fo) as (pre & di & dj & d & ED). exists di, dj.
    assert (SD := proj1 OK). split; [|split].
    - apply In_mfind; [exact SD|]. rewrite ED. apply in_or_app. right. now left.
    - apply In_mfind; [exact SD|]. rewrite ED. apply in_or_app. right. right. now left.
    - rewrite hess_list_all_rows. rewrite ED in SD |- *. rewrite vis_present by (assumption || lia). apply vis_succ. }
  assert (REC : forall k, recorded x i k <-> exists a, In ((i, k), a) (row (trimap (u2hg x)) i)).
  { intro k. unfold recorded. split.
    - intro H. apply in_map_iff in H as ([[a b] t] & Ek & H). cbn in Ek. injection Ek as -> ->. exists t. now apply in_row_iff.
    - intros [a H]. apply row_key in H as [_ H]. apply (in_map fst) in H. exact H. }
  assert (ST : msorted (trimap (u2hg x))) by apply OK.
  split; [|split; [|split]].
  - intro NF. rewrite HM, not_follows_none by assumption. reflexivity.
  - intro NR. rewrite HM, empty_row_none; [reflexivity|assumption|assumption|].
    destruct (row (trimap (u2hg x)) i) as [|[[a k] t] r] eqn:Er; [reflexivity|]. exfalso.
    assert (Hin : In ((a, k), t) (row (trimap (u2hg x)) i)) by (rewrite Er; now left).
    destruct (row_key _ _ _ Hin) as [Ha _]. cbn in Ha. subst a. apply (NR k). apply REC. exists t. now left.
  - intros Fo Rj Only. destruct (FO Fo) as (di & dj & Hi & Hj & Ef). rewrite HM, Ef.
    destruct (row_last (trimap (u2hg x)) i) as [Er|(l & k & t & Er)].
    + apply REC in Rj as [a Ha]. rewrite Er in Ha. destruct Ha.
    + assert (Hk : In ((i, k), t) (row (trimap (u2hg x)) i)) by (rewrite Er; apply in_or_app; right; now left).
      assert (k = j) by (apply Only, REC; eauto). subst k. rewrite Er, map_app.
      cbn [map fst snd]. rewrite (proj2 (peqb_eq (i, j) (i, j)) eq_refl).
      rewrite (fold_last_match (fun u => (f2 / 2 * dgrad (vd1 u) * dgrad (vd2 u) + f1 * vval u)%R) (wX f1 (f2 / 2)%R)) by reflexivity.
      cbn [vd1 vd2 vval]. unfold good. rewrite jh_lt by exact L. cbn [jet_of j_g]. rewrite Hi, Hj.
      apply row_key in Hk as [_ Hk]. rewrite (In_mfind _ _ _ ST Hk). ring.
  - intros Fo k Rk NE. destruct (FO Fo) as (di & dj & Hi & Hj & Ef). rewrite HM, Ef.
    destruct (row_last (trimap (u2hg x)) i) as [Er|(l & k' & t & Er)].
    + apply REC in Rk as [a Ha]. rewrite Er in Ha. destruct Ha.
    + assert (K' : k' <> j).
      { intro; subst k'. apply REC in Rk as [a Ha]. assert (Ha' := Ha). rewrite Er in Ha. apply in_app_or in Ha as [Ha|[Ha|[]]]; [|congruence].
        assert (S := msorted_filter (in_row i) _ ST). fold (row (trimap (u2hg x)) i) in S. rewrite Er in S.
        destruct (msorted_app_inv _ _ S) as (_ & _ & S3).
        assert (Q : klt (i, k) (i, j)) by (apply S3; [exact (in_map fst _ _ Ha)|now left]).
        apply klt_ZZ in Q. cbn in Q.
        apply row_key in Ha' as [_ Ha']. apply (in_map fst) in Ha'. cbn in Ha'.
        destruct OK as (_ & _ & HK & _). destruct (HK _ _ Ha') as (L1 & _ & L3).
        destruct Fo as (_ & _ & _ & B). apply (B k L3). lia. }
      rewrite Er, map_app. cbn [map fst snd].
      destruct (peqb (i, k') (i, j)) eqn:P; [apply peqb_eq in P; congruence|].
      rewrite (fold_last_match (fun u => (f2 / 2 * dgrad (vd1 u) * dgrad (vd2 u) + f1 * vval u)%R) (wX f1 (f2 / 2)%R)) by reflexivity.
      cbn [vd1 vd2 vval]. unfold good. cbn [jet_of j_g]. rewrite Hi, Hj. change (@n0 RN) with 0%R. ring.
Qed.

(** ** Programs made of sums *)
Definition flat (x : ureal2 RN) : Prop := trimap (u2hg x) = [].

Lemma nofind_nil (h : hessgrad RN) : hg_ok h -> (forall i j, (i < j)%Z -> mfind (i, j) (trimap h) = None) -> trimap h = [].
Proof.
  intros (_ & ST & HK & _) H. destruct (trimap h) as [|[[i j] t] T] eqn:E; [reflexivity|]. exfalso.
  destruct (HK i j) as (L & _); [now left|]. specialize (H i j L).
  rewrite (In_mfind _ _ _ ST (or_introl eq_refl)) in H. discriminate.
Qed.

Lemma skip_exact (h : hessgrad RN) vs : hg_ok h -> hess_visits h true = Ret vs -> visits_exact h vs.
Proof.
  intros OK E. destruct (visits_facts h true OK) as (vs' & E' & _ & _ & _ & X). rewrite E in E'. injection E' as <-.
  exact (X eq_refl).
Qed.

Lemma half0 : neqb (ndiv (@nofZ RN 0) (nofZ 2)) n0 = true.
Proof. apply Reqb_true. cbn. change (0 / 2 = 0)%R. lra. Qed.

Lemma flat_unary x f f1 z : hg_ok (u2hg x) -> flat x -> u2_unary x f f1 (@nofZ RN 0) = Ret z -> flat z.
Proof.
  intros OK Fx E. destruct (unary_result x f f1 (@nofZ RN 0) OK) as (r & E' & OKr & _ & HT). rewrite E' in E. injection E as <-.
  unfold flat. cbn [u2hg]. apply nofind_nil; [exact OKr|]. intros i j L.
  rewrite half0 in HT. destruct (visits_facts (u2hg x) true OK) as (vs & Ev & _).
  rewrite (HT vs Ev (skip_exact _ _ OK Ev)) by lia. unfold flat in Fx. rewrite Fx. reflexivity.
Qed.

Lemma flat_binary x y f fx fy z : hg_ok (u2hg x) -> hg_ok (u2hg y) -> kbelow (u2hg x) -> kbelow (u2hg y) -> flat x -> flat y ->
  u2_binary x y f fx fy (@nofZ RN 0) (@nofZ RN 0) (@nofZ RN 0) = Ret z -> flat z.
Proof.
  intros OKx OKy Kx Ky Fx Fy E.
  destruct (binary_result x y f fx fy (@nofZ RN 0) (@nofZ RN 0) (@nofZ RN 0) OKx OKy Kx Ky) as (r & E' & OKr & r0 & _ & _ & HT & HC).
  rewrite E' in E. injection E as <-. unfold flat. cbn [u2hg]. apply nofind_nil; [exact OKr|]. intros i j L.
  rewrite !half0 in *. subst r0.
  destruct (visits_facts (u2hg x) true OKx) as (xs & Ex & _). destruct (visits_facts (u2hg y) true OKy) as (ys & Ey & _).
  rewrite (HT xs ys Ex Ey (skip_exact _ _ OKx Ex) (skip_exact _ _ OKy Ey)) by lia. unfold mtri. unfold flat in Fx, Fy. rewrite Fx, Fy. reflexivity.
Qed.

Lemma exec_flat eig env (w : world2 RN) c : wwf2 env w -> thr_ok c -> (w2_last w + (if is_new2 c then 1 else 0) < maxid)%Z ->
  sums_only c -> (forall v, flat (w2_var w v)) -> forall v, flat (w2_var (fst (exec2 eig w c)) v).
Proof.
  intros [W1 W2] HT HB HS HF. assert (P := proj1 W1). fold (w2_last w) in P.
  assert (B : (w2_last w < maxid)%Z) by (destruct (is_new2 c); lia).
  assert (Set_ : forall v x, flat x -> forall u, flat (w2_var (fst (assign2 w v (Ret x))) u)).
  { intros v x Fx u. cbn [assign2 fst w2_var]. unfold upd2. destruct (Nat.eqb u v); auto. }
  assert (New : forall v r, new_spec (w2_last w) r ->
    forall u, flat (w2_var (fst (let '(last, o) := r in assign2 (set_last w last) v o)) u)).
  { intros v r [[e ->]|(n & g & m & ->)] u; cbn [assign2 fst w2_var set_last].
    - apply HF.
    - unfold upd2. destruct (Nat.eqb u v); [reflexivity|apply HF]. }
  assert (OK : forall x, hg_ok (u2hg (w2_var w x))) by (intro x; apply (proj1 (W2 x))).
  assert (KB : forall x, kbelow (u2hg (w2_var w x))) by (intro x; eapply wf2_below; [apply W2|lia]).
  destruct c; cbn [exec2 sums_only is_new2] in *; try contradiction;
    try (apply Set_; (reflexivity || apply HF));
    try (apply New; (apply (new2_ok) || apply (new2_std_ok)); auto; lia).
  - destruct (exec (w2_w w) c) as [w1 o]. exact HF.
  - unfold u2_neg. destruct (unary_wf2 _ _ _ (nopp (u2mu (w2_var w x))) (nofZ (-1)) (nofZ 0) (W2 x)) as (z & Ez & _).
    rewrite Ez. apply Set_. eapply flat_unary; [apply OK|apply HF|exact Ez].
  - unfold u2_add. edestruct (binary_wf2 _ _ _ _ (nadd (u2mu (w2_var w x)) (u2mu (w2_var w y))) (nofZ 1) (nofZ 1) (nofZ 0) (nofZ 0) (nofZ 0) (W2 x) (W2 y) B) as (z & Ez & _).
    rewrite Ez. apply Set_. eapply flat_binary; [apply OK|apply OK|apply KB|apply KB|apply HF|apply HF|exact Ez].
  - unfold u2_sub. edestruct (binary_wf2 _ _ _ _ (nsub (u2mu (w2_var w x)) (u2mu (w2_var w y))) (nofZ 1) (nofZ (-1)) (nofZ 0) (nofZ 0) (nofZ 0) (W2 x) (W2 y) B) as (z & Ez & _).
    rewrite Ez. apply Set_. eapply flat_binary; [apply OK|apply OK|apply KB|apply KB|apply HF|apply HF|exact Ez].
Qed.

Lemma run_flat eig cs : forall env (w : world2 RN), wwf2 env w -> List.Forall nary_ok2 cs -> List.Forall thr_ok cs ->
  (w2_last w + Z.of_nat (count_new2 cs) < maxid)%Z -> List.Forall sums_only cs -> (forall v, flat (w2_var w v)) ->
  forall w', run2 eig w cs = Ret w' -> forall v, flat (w2_var w' v).
Proof.
  induction cs as [|c cs IH]; intros env w W F F2 B S HF w' E.
  - injection E as <-. exact HF.
  - inversion F as [|? ? Fc Fcs]; subst. inversion F2 as [|? ? Tc Tcs]; subst. inversion S as [|? ? Sc Scs]; subst.
    rewrite count_new2_cons in *.
    assert (B1 : (w2_last w + (if is_new2 c then 1 else 0) < maxid)%Z) by (destruct (is_new2 c); lia).
    destruct (gen_exec2 Rltb_00 eig env w c W Fc Tc B1) as (env1 & W1 & _ & L1 & O & _).
    assert (HF1 := exec_flat eig env w c W Tc B1 Sc HF).
    cbn [run2] in E. destruct (exec2 eig w c) as [w1 o]. cbn [fst snd] in *.
    apply (IH env1 w1 W1 Fcs Tcs); [lia|exact Scs|exact HF1|]. destruct O as [-> | [e ->]]; exact E.
Qed.

Lemma C27_function_of_a_sum_partial_proof : forall eig cs (w : world2 RN), legal2 cs -> List.Forall sums_only cs ->
  run2 eig w2_init cs = Ret w -> forall (v : nat) (f f1 f2 : R), f2 <> 0%R ->
  let x := jet_of (w2_var w v) in
  exists z, u2_unary (w2_var w v) f f1 f2 = Ret z /\ forall i j, i <> j ->
    j_h (jet_unary x f f1 f2) i j = (f2 / 2 * (j_g x i * j_g x j))%R /\ j_h (jet_of z) i j = 0%R.
Proof.
  intros eig cs w (Ln & Lt & Lc) S E v f f1 f2 F x.
  assert (Fl : forall u, flat (w2_var w u)).
  { assert (Lc' := Lc). apply max_new_lt in Lc'. apply (run_flat eig cs (fun _ => mkM n0 n0 n0 n0 n0 n0) w2_init (wwf2_init _) Ln Lt); auto. intro u. reflexivity. }
  destruct (reach_ok eig w (ex_intro _ cs (conj (conj Ln (conj Lt Lc)) E)) v) as [OK _].
  destruct (unary_result (w2_var w v) f f1 f2 OK) as (r & Er & _). exists (mkU2 r f). split; [exact Er|].
  assert (G : forall i j, (i < j)%Z -> j_h (jet_unary x f f1 f2) i j = (f2 / 2 * (j_g x i * j_g x j))%R /\ j_h (jet_of (mkU2 r f)) i j = 0%R).
  { intros i j L. cbn [jet_unary j_h]. unfold x. rewrite !jh_lt by exact L. rewrite (Fl v). cbn [mfind]. split; [ring|].
    rewrite (unary_mixed _ f f1 f2 _ OK F Er i j L), empty_row_none; auto. rewrite (Fl v). reflexivity. }
  intros i j NE. destruct (Z.lt_total i j) as [L|[L|L]]; [auto|congruence|].
  destruct (G j i L) as [G1 G2]. split.
  - cbn [jet_unary j_h] in G1 |- *. unfold x in *. rewrite (jh_sym _ i j). rewrite (Rmult_comm (j_g _ i)). exact G1.
  - rewrite jh_sym. exact G2.
Qed.
