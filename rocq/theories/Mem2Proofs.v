(** * Mem2Proofs: the memory used by UReal2 *)

From Coq Require Import List ZArith Bool Sorted Lia Reals Lra.
From Verif Require Import Base Num Map HessGrad Moments CheckMoments UReal UReal2 World World2 URealProofs2 URealProofs HessProofs U2Facts
  U2World U2Values SpecU2 SpecU2Run SpecU2Mixed SpecU2Mixed2 U2Proofs U2Mixed U2Mixed2 SpecOrder Alloc SpecAlloc Alloc2 SpecAlloc2 Alloc2Proofs SpecMem2.
Import ListNotations.

Lemma some_key {K V : Type} {KO : KeyOrd K} (m : list (K * V)) k : msorted m -> (In k (map fst m) <-> mfind k m <> None).
Proof.
  intro S. assert (I := mfind_None_iff k m S). destruct (mfind k m) eqn:E.
  - split; [congruence|]. intros _. apply mfind_In in E. exact (in_map fst _ _ E).
  - split; [|congruence]. intro H. destruct (proj1 I eq_refl H).
Qed.

Lemma visit_keeps (x : ureal2 RN) f2 xs i j : hg_ok (u2hg x) ->
  hess_visits (u2hg x) (neqb (ndiv (n := RN) f2 (nofZ 2)) n0) = Ret xs -> (i < j)%Z ->
  (filter (vis (i, j)) xs <> [] <-> keeps f2 x i j).
Proof.
  intros OK Ex L. assert (ST : msorted (trimap (u2hg x))) by apply OK.
  destruct (neqb (ndiv (n := RN) f2 (nofZ 2)) n0) eqn:B.
  - apply Reqb_true in B. change (f2 / 2 = 0)%R in B. assert (F0 : f2 = 0%R) by lra.
    destruct (visits_facts (u2hg x) true OK) as (vs & Ev & _ & _ & _ & X). rewrite Ex in Ev. injection Ev as <-.
    rewrite X by (auto; lia). unfold keeps, recorded. rewrite (some_key _ (i, j) ST).
    destruct (mfind (i, j) (trimap (u2hg x))); intuition congruence.
  - assert (F : f2 <> 0%R). { intro F. rewrite (proj2 (Reqb_true _ _)) in B; [discriminate|]. subst f2. change (0 / 2 = 0)%R. lra. }
    rewrite hess_visits_all in Ex by exact OK. injection Ex as <-.
    assert (Dec : follows (jet_of x) i j \/ ~ follows (jet_of x) i j) by apply Classical_Prop.classic.
    destruct Dec as [Fo|Fo].
    + destruct (follows_split x i j OK Fo) as (pre & di & dj & d & ED).
      rewrite hess_list_all_rows. assert (SD := proj1 OK). rewrite ED in SD |- *. rewrite vis_present by (assumption || lia). rewrite vis_succ.
      unfold keeps. split.
      * intro H. right. split; [exact F|]. split; [exact Fo|].
        destruct (row (trimap (u2hg x)) i) as [|[[a k] t] l] eqn:ER; [now elim H|].
        assert (Hr : In ((a, k), t) (row (trimap (u2hg x)) i)) by (rewrite ER; now left).
        assert (A := row_key _ _ _ Hr). cbn [fst] in A. destruct A as [-> A]. exists k. exact (in_map fst _ _ A).
      * intros [[A _]|(_ & _ & k & Hk)]; [congruence|]. unfold recorded in Hk. apply in_map_iff in Hk as ([[a b] t] & E & Hk). cbn [fst] in E. injection E as -> ->.
        apply in_row_iff in Hk. destruct (row (trimap (u2hg x)) i); [destruct Hk|discriminate].
    + rewrite not_follows_none by assumption. unfold keeps. intuition congruence.
Qed.

Lemma kz_nil fx fy hx hy (a b : list (visit RN)) : kz (N := RN) fx fy hx hy a b = [] <-> a = [] /\ b = [].
Proof. destruct a, b; cbn; intuition congruence. Qed.

Lemma merge_keys (x y : ureal2 RN) fx fy hxx hyy xs ys r : hg_ok (u2hg x) -> hg_ok (u2hg y) ->
  visits_of (u2hg x) xs -> visits_of (u2hg y) ys ->
  ofold apply_w (merge_writes (N := RN) fx fy hxx hyy xs ys) hg_empty = Ret r -> forall i j, (i < j)%Z ->
  (In (i, j) (map fst (trimap r)) <-> filter (vis (i, j)) xs <> [] \/ filter (vis (i, j)) ys <> []).
Proof.
  intros OKx OKy (Sx & Hx & _) (Sy & Hy & _) Er i j L.
  destruct (apply_all (merge_writes (N := RN) fx fy hxx hyy xs ys) hg_empty) as (r1 & Er1 & _ & ST & _ & HT & _).
  - apply Forall_forall. intros w Hw. assert (H : In w (filter (at_k (wk w)) (merge_writes (N := RN) fx fy hxx hyy xs ys))).
    { apply filter_In. split; [exact Hw|]. unfold at_k. apply keqb_refl. }
    rewrite merge_filter in H by assumption.
    assert (G : forall xs ys w, In w (kz (N := RN) fx fy hxx hyy xs ys) -> exists v, wk w = vid v /\ (In v xs \/ In v ys)).
    { clear. induction xs as [|x xs IH]; intros ys w H.
      - cbn in H. apply in_map_iff in H as (v & <- & H). exists v. split; [reflexivity|now right].
      - destruct ys as [|y ys].
        + cbn [kz] in H. apply in_map_iff in H as (v & <- & H). exists v. split; [reflexivity|now left].
        + cbn [kz] in H. destruct H as [<-|[<-|H]].
          * exists x. split; [reflexivity|left; now left].
          * exists y. split; [reflexivity|right; now left].
          * destruct (IH _ _ H) as (v & E & [H'|H']); exists v; (split; [exact E|]); [left|right]; now right. }
    destruct (G _ _ _ H) as (v & E' & [H'|H']); apply filter_In in H' as [H' _]; unfold wr_ok; rewrite E'; cbn.
    + now apply Hx.
    + now apply Hy.
  - constructor.
  - constructor.
  - rewrite Er in Er1. injection Er1 as <-. rewrite (some_key _ (i, j) ST). rewrite HT by lia. rewrite merge_filter by assumption.
    cbn [trimap hg_empty mfind].
    assert (Q := kz_nil fx fy hxx hyy (filter (vis (i, j)) xs) (filter (vis (i, j)) ys)).
    destruct (kz _ _ _ _ _ _); destruct (filter (vis (i, j)) xs), (filter (vis (i, j)) ys); intuition congruence.
Qed.

Lemma cross_keys (hxy : R) (hx hy r r' : hessgrad RN) : msorted (diagmap hx) -> msorted (diagmap hy) -> hg_ok r ->
  cross (N := RN) hxy (diagmap hx) (diagmap hy) r = Ret r' -> forall i j, (i < j)%Z ->
  (In (i, j) (map fst (trimap r')) <-> In (i, j) (map fst (trimap r)) \/
    ((In i (map fst (diagmap hx)) /\ In j (map fst (diagmap hy))) \/ (In j (map fst (diagmap hx)) /\ In i (map fst (diagmap hy))))).
Proof.
  intros Sx Sy (SD & ST & _) E i j L. rewrite cross_is_writes in E.
  destruct (apply_all (cross_writes (N := RN) hxy (diagmap hx) (diagmap hy)) r) as (r1 & E1 & _ & ST' & _ & HT & _); [|exact SD|exact ST|].
  - apply Forall_forall. intros w Hw. unfold cross_writes in Hw. apply in_flat_map in Hw as (px & _ & Hw).
    apply in_map_iff in Hw as (py & <- & _). unfold wr_ok, wC; cbn. lia.
  - rewrite E in E1. injection E1 as <-. rewrite (some_key _ (i, j) ST'), (some_key _ (i, j) ST). rewrite HT by lia. rewrite cross_filter_tri by assumption.
    rewrite !some_key by assumption.
    destruct (mfind i (diagmap hx)), (mfind j (diagmap hy)), (mfind j (diagmap hx)), (mfind i (diagmap hy)); cbn [app]; intuition congruence.
Qed.

Lemma unary_pairs (x z : ureal2 RN) f f1 f2 : hg_ok (u2hg x) -> u2_unary x f f1 f2 = Ret z ->
  forall i j, recorded z i j <-> keeps f2 x i j.
Proof.
  intros OK E. destruct (unary_result x f f1 f2 OK) as (r' & E' & OKr & _). rewrite E' in E. injection E as <-.
  assert (P : forall i j, (i < j)%Z -> (recorded (mkU2 r' f) i j <-> keeps f2 x i j)).
  { intros i j L. unfold u2_unary in E'.
    destruct (visits_of_hg (u2hg x) (neqb (ndiv (n := RN) f2 (nofZ 2)) n0) OK) as (xs & Ex & Vx & _).
    rewrite Ex in E'. cbn [bind] in E'. rewrite unary_writes in E'. rewrite <- (merge_writes_nil f1 f1 (ndiv f2 (nofZ 2)) (ndiv f2 (nofZ 2)) xs) in E'.
    destruct (ofold apply_w _ hg_empty) as [r| | |] eqn:Er; cbn [bind] in E'; try discriminate. injection E' as ->.
    rewrite <- (visit_keeps x f2 xs i j OK Ex L). unfold recorded. cbn [u2hg].
    rewrite (merge_keys x (mkU2 hg_empty n0) f1 f1 _ _ xs [] r' OK hg_empty_ok Vx visits_of_nil Er i j L). cbn [filter]. intuition congruence. }
  intros i j. destruct (Z_lt_dec i j) as [L|L]; [now apply P|]. destruct OK as (_ & _ & K & _), OKr as (_ & _ & K' & _). split; intro H.
  - apply K' in H. lia.
  - destruct H as [[_ H]|(_ & (_ & _ & H & _) & _)]; [apply K in H|]; lia.
Qed.

Lemma binary_pairs (x y z : ureal2 RN) f fx fy fxx fyy fxy : hg_ok (u2hg x) -> hg_ok (u2hg y) -> kbelow (u2hg x) -> kbelow (u2hg y) ->
  u2_binary x y f fx fy fxx fyy fxy = Ret z ->
  forall i j, recorded z i j <-> keeps fxx x i j \/ keeps fyy y i j \/ (fxy <> 0%R /\ crossed x y i j).
Proof.
  intros OKx OKy Kx Ky E. destruct (binary_result x y f fx fy fxx fyy fxy OKx OKy Kx Ky) as (r' & E' & OKr & _). rewrite E' in E. injection E as <-.
  assert (P : forall i j, (i < j)%Z -> (recorded (mkU2 r' f) i j <-> keeps fxx x i j \/ keeps fyy y i j \/ (fxy <> 0%R /\ crossed x y i j))).
  { intros i j L. unfold u2_binary in E'.
    destruct (visits_of_hg (u2hg x) (neqb (ndiv (n := RN) fxx (nofZ 2)) n0) OKx) as (xs & Ex & Vx & _).
    destruct (visits_of_hg (u2hg y) (neqb (ndiv (n := RN) fyy (nofZ 2)) n0) OKy) as (ys & Ey & Vy & _).
    rewrite Ex, Ey in E'. cbn [bind] in E'.
    rewrite merge_writes_ok in E'; [|now apply (visits_below (u2hg x))|now apply (visits_below (u2hg y))].
    destruct (merge_result fx fy (ndiv fxx (nofZ 2)) (ndiv fyy (nofZ 2)) (u2hg x) (u2hg y) OKx OKy xs ys Vx Vy) as (r0 & Er & OK0 & _).
    rewrite Er in E'. cbn [bind] in E'.
    assert (M := merge_keys x y fx fy _ _ xs ys r0 OKx OKy Vx Vy Er i j L).
    rewrite (visit_keeps x fxx xs i j OKx Ex L), (visit_keeps y fyy ys i j OKy Ey L) in M.
    destruct (neqb (ndiv (n := RN) fxy (nofZ 2)) n0) eqn:B; cbn [negb bind] in E'.
    - injection E' as <-. apply Reqb_true in B. change (fxy / 2 = 0)%R in B. assert (F0 : fxy = 0%R) by lra.
      unfold recorded. cbn [u2hg]. rewrite M. intuition congruence.
    - assert (F : fxy <> 0%R). { intro F. rewrite (proj2 (Reqb_true _ _)) in B; [discriminate|]. subst fxy. change (0 / 2 = 0)%R. lra. }
      destruct (cross _ _ _ r0) as [r| | |] eqn:Ec; cbn [bind] in E'; try discriminate. injection E' as ->.
      unfold recorded. cbn [u2hg]. rewrite (cross_keys _ (u2hg x) (u2hg y) r0 r' (proj1 OKx) (proj1 OKy) OK0 Ec i j L). rewrite M.
      unfold crossed. cbn [jet_of j_dep]. tauto. }
  intros i j. destruct (Z_lt_dec i j) as [L|L]; [now apply P|]. destruct OKx as (_ & _ & K & _), OKy as (_ & _ & K2 & _), OKr as (_ & _ & K' & _). split; intro H.
  - apply K' in H. lia.
  - destruct H as [[[_ H]|(_ & (_ & _ & H & _) & _)]|[[[_ H]|(_ & (_ & _ & H & _) & _)]|(_ & H & _)]]; [apply K in H| |apply K2 in H| |]; lia.
Qed.

Lemma C88_recorded_pairs_proof : forall eig (w : world2 RN), reachable2 eig w -> forall u v : nat,
  let x := w2_var w u in let y := w2_var w v in
  (forall f f1 f2 z, u2_unary x f f1 f2 = Ret z -> forall i j, recorded z i j <-> keeps f2 x i j) /\
  (forall f fx fy fxx fyy fxy z, u2_binary x y f fx fy fxx fyy fxy = Ret z -> forall i j,
     recorded z i j <-> keeps fxx x i j \/ keeps fyy y i j \/ (fxy <> 0%R /\ crossed x y i j)).
Proof.
  intros eig w HR u v x y. destruct (reach_ok eig w HR u) as [OKx Kx], (reach_ok eig w HR v) as [OKy Ky]. split.
  - intros f f1 f2 z E. exact (unary_pairs x z f f1 f2 OKx E).
  - intros f fx fy fxx fyy fxy z E. exact (binary_pairs x y z f fx fy fxx fyy fxy OKx OKy Kx Ky E).
Qed.

(** ** Sizes *)
Definition dn (x : ureal2 RN) : nat := length (diagmap (u2hg x)).
Definition pn (x : ureal2 RN) : nat := length (trimap (u2hg x)).
Lemma size_ok (x : ureal2 RN) d p : hg_ok (u2hg x) -> (size_of x d p <-> d = dn x /\ p = pn x).
Proof.
  intros (SD & ST & _). assert (ND := msorted_NoDup _ SD). assert (NT := msorted_NoDup _ ST). unfold dn, pn, size_of, recorded. cbn [jet_of j_dep].
  split.
  - intros [(l & N1 & <- & H1) (l' & N2 & <- & H2)]. split.
    + rewrite <- (map_length fst (diagmap (u2hg x))). apply Nat.le_antisymm; apply NoDup_incl_length; auto; intros i Hi; now apply H1.
    + rewrite <- (map_length fst (trimap (u2hg x))). apply Nat.le_antisymm; apply NoDup_incl_length; auto; intros [i j] Hi; now apply H2.
  - intros [-> ->]. split; [exists (map fst (diagmap (u2hg x)))|exists (map fst (trimap (u2hg x)))]; rewrite map_length; (split; [assumption|]); (split; [reflexivity|]); reflexivity.
Qed.

Lemma legal2_app (N : Num) (cs : list (call2 N)) c : legal2 (cs ++ [c]) -> legal2 cs.
Proof.
  intros (A & B & C). apply Forall_app in A as [A _]. apply Forall_app in B as [B _]. split; [exact A|]. split; [exact B|].
  eapply Nat.le_trans; [|exact C]. clear. induction cs as [|d cs IH]; [apply Nat.le_0_l|]. cbn [app]. assert (A1 := count_new2_cons d cs). assert (A2 := count_new2_cons d (cs ++ [c])). lia.
Qed.

Lemma reach_step eig (cs : list (call2 RN)) c w : legal2 (cs ++ [c]) -> run2 eig w2_init cs = Ret w ->
  exists env, wwf2 env w /\ nary_ok2 c /\ thr_ok c /\ (w2_last w + (if is_new2 c then 1 else 0) < maxid)%Z.
Proof.
  intros (A & B & C) E. apply Forall_app in A as [A1 A2]. apply Forall_app in B as [B1 B2].
  rewrite count_new2_app in C. assert (C' := max_new_lt _ C).
  destruct (gen_run2 Rltb_00 eig cs (fun _ => mkM n0 n0 n0 n0 n0 n0) w2_init (wwf2_init _) A1 B1) as (env & w' & E' & W & _ & Lw); [cbn; lia|].
  rewrite E in E'. injection E' as <-. exists env. split; [exact W|]. inversion A2; subst. inversion B2; subst. split; [assumption|]. split; [assumption|].
  cbn in Lw. unfold count_new2 at 2 in C'. cbn [filter] in C'. destruct (is_new2 c); cbn [length] in C'; lia.
Qed.

Lemma result_allocates (w : world2 RN) v o k : snd (a2_result k w v o) = None <-> (k < a2_nodes o)%nat.
Proof.
  unfold a2_result. destruct (Nat.leb_spec (a2_nodes o) k); [destruct (assign2 w v o); cbn [snd]|cbn [snd]]; split; try congruence; lia.
Qed.
Lemma assign_nodes (w : world2 RN) v o : snd (assign2 w v o) = Ret tt -> w2_var (fst (assign2 w v o)) v = match o with Ret z => z | _ => u2_default end /\
  a2_nodes o = (dn (w2_var (fst (assign2 w v o)) v) + pn (w2_var (fst (assign2 w v o)) v))%nat.
Proof. destruct o; cbn [assign2 snd fst]; try discriminate. intros _. cbn [w2_var]. unfold upd2. rewrite Nat.eqb_refl. split; reflexivity. Qed.
Lemma assign_fails (w : world2 RN) v o : snd (assign2 w v o) <> Ret tt -> a2_nodes o = O.
Proof. destruct o; cbn [assign2 snd fst]; [intro H; now elim H| | |]; reflexivity. Qed.

Lemma half_pairs d p : (2 * p <= d * (d - 1))%nat -> (p <= d * (d - 1) / 2)%nat.
Proof. intro H. apply Nat.div_le_lower_bound; lia. Qed.

Lemma C88_allocations_proof : forall eig (L : libs RN) cs c w, legal2 (cs ++ [c]) -> run2 eig w2_init cs = Ret w ->
  (computes2 c = true -> snd (exec2 eig w c) = Ret tt ->
   exists d p, size_of (w2_var (fst (exec2 eig w c)) (writes2 c)) d p /\ (p <= d * (d - 1) / 2)%nat /\ allocates2 eig L w c (d + p)) /\
  (computes2 c = true -> snd (exec2 eig w c) <> Ret tt -> allocates2 eig L w c 0) /\
  (forall v x d p d' p', c = ECopy v x -> v <> x -> reuses (lib_diag L) -> reuses (lib_tri L) ->
   size_of (w2_var w v) d p -> size_of (w2_var w x) d' p' -> allocates2 eig L w c ((d' - d) + (p' - p))).
Proof.
  intros eig L cs c w Lg E. destruct (reach_step eig cs c w Lg E) as (env & W & HN & HT & B).
  destruct (gen_exec2 Rltb_00 eig env w c W HN HT B) as (env1 & W1 & _ & _ & _).
  assert (A : computes2 c = true -> exists w0 v o, writes2 c = v /\ exec2 eig w c = assign2 w0 v o /\ forall k, exec2_a eig L k w c = a2_result k w0 v o).
  { destruct c; cbn [computes2 exec2 exec2_a writes2]; try discriminate; intros _;
      try (do 3 eexists; split; [reflexivity|]; split; [reflexivity|]; intro k; reflexivity).
    - destruct (u2_new eig (w2_last w) n m thr) as [l r]. do 3 eexists; split; [reflexivity|]; split; [reflexivity|]; intro k; reflexivity.
    - destruct (u2_new_std eig (w2_last w) n s m thr) as [l r]. do 3 eexists; split; [reflexivity|]; split; [reflexivity|]; intro k; reflexivity. }
  split; [|split].
  - intros Hc HS. destruct (A Hc) as (w0 & v & o & Hv & Ee & Ea).
    assert (OK : hg_ok (u2hg (w2_var (fst (exec2 eig w c)) (writes2 c)))) by apply W1.
    exists (dn (w2_var (fst (exec2 eig w c)) (writes2 c))), (pn (w2_var (fst (exec2 eig w c)) (writes2 c))).
    split; [now apply size_ok|]. split; [apply half_pairs; now apply tri_room|].
    intro k. rewrite Ea, Hv, Ee. rewrite Ee in HS. destruct (assign_nodes w0 v o HS) as [_ <-]. apply result_allocates.
  - intros Hc HS k. destruct (A Hc) as (w0 & v & o & Hv & Ee & Ea). rewrite Ea, result_allocates. rewrite Ee in HS. now rewrite (assign_fails w0 v o HS).
  - intros v x d p d' p' -> NE Rd Rt Sv Sx k. assert (OK : forall u, hg_ok (u2hg (w2_var w u))) by (intro u; apply W).
    apply (size_ok _ _ _ (OK v)) in Sv as [-> ->]. apply (size_ok _ _ _ (OK x)) in Sx as [-> ->]. cbn [exec2_a].
    unfold a2_copy_assign. destruct (Nat.eqb_spec v x) as [|_]; [congruence|]. cbv zeta. rewrite !Rd, !Rt. unfold dn, pn.
    destruct (Nat.leb_spec (length (diagmap (u2hg (w2_var w x))) - length (diagmap (u2hg (w2_var w v)))) k); cbn [snd].
    + destruct (Nat.leb_spec (length (trimap (u2hg (w2_var w x))) - length (trimap (u2hg (w2_var w v))))
        (k - (length (diagmap (u2hg (w2_var w x))) - length (diagmap (u2hg (w2_var w v)))))); cbn [snd]; split; intros; (discriminate || reflexivity || lia).
    + split; intros; [lia|reflexivity].
Qed.

(** ** Sums and products *)
Lemma deps_bound (w : world2 RN) env cs v : wwf2 env w -> (w2_last w <= Z.of_nat (count_new2 (N := RN) cs))%Z -> (dn (w2_var w v) <= count_new2 cs)%nat.
Proof.
  intros [_ W] B. destruct (W v) as [(SD & _) H]. unfold dn. rewrite <- (map_length fst).
  assert (I : incl (map fst (diagmap (u2hg (w2_var w v)))) (map Z.of_nat (seq 1 (count_new2 cs)))).
  { intros i Hi. apply in_map_iff in Hi as ([j d] & <- & Hd). apply H in Hd as [Hd _]. cbn [fst]. apply in_map_iff. exists (Z.to_nat j).
    split; [lia|]. apply in_seq. lia. }
  apply NoDup_incl_length in I; [|now apply msorted_NoDup]. now rewrite (map_length Z.of_nat), seq_length in I.
Qed.

Lemma C88_sums_proof : forall eig cs (w : world2 RN), legal2 cs -> List.Forall sums_only cs -> run2 eig w2_init cs = Ret w ->
  forall v, exists d, size_of (w2_var w v) d 0 /\ (d <= count_new2 cs)%nat.
Proof.
  intros eig cs w (Ln & Lt & Lc) HS E v. assert (Lc' := max_new_lt _ Lc).
  destruct (gen_run2 Rltb_00 eig cs (fun _ => mkM n0 n0 n0 n0 n0 n0) w2_init (wwf2_init _) Ln Lt) as (env & w' & E' & W & _ & Lw); [cbn; lia|].
  rewrite E in E'. injection E' as <-. cbn in Lw.
  assert (Fl : flat (w2_var w v)).
  { apply (run_flat eig cs (fun _ => mkM n0 n0 n0 n0 n0 n0) w2_init (wwf2_init _) Ln Lt); auto. intro u. reflexivity. }
  exists (dn (w2_var w v)). split; [|apply (deps_bound w env cs v W); lia].
  apply size_ok; [apply W|]. split; [reflexivity|]. unfold pn. now rewrite Fl.
Qed.

Definition complete (x : ureal2 RN) : Prop := forall i j, j_dep (jet_of x) i -> j_dep (jet_of x) j -> (i < j)%Z -> recorded x i j.

Lemma unary_deps (x z : ureal2 RN) f f1 f2 : hg_ok (u2hg x) -> u2_unary x f f1 f2 = Ret z -> forall i, j_dep (jet_of z) i <-> j_dep (jet_of x) i.
Proof.
  intros OK E i. destruct (unary_result x f f1 f2 OK) as (r & E' & OKr & HD & _). rewrite E' in E. injection E as <-. cbn [jet_of j_dep u2hg].
  rewrite (some_key _ i (proj1 OKr)), (some_key _ i (proj1 OK)), HD. destruct (mfind i (diagmap (u2hg x))); cbn; intuition congruence.
Qed.
Lemma binary_deps (x y z : ureal2 RN) f fx fy fxx fyy fxy : hg_ok (u2hg x) -> hg_ok (u2hg y) -> kbelow (u2hg x) -> kbelow (u2hg y) ->
  u2_binary x y f fx fy fxx fyy fxy = Ret z -> forall i, j_dep (jet_of z) i <-> j_dep (jet_of x) i \/ j_dep (jet_of y) i.
Proof.
  intros OKx OKy Kx Ky E i. destruct (binary_result x y f fx fy fxx fyy fxy OKx OKy Kx Ky) as (r & E' & OKr & r0 & OK0 & HD & _ & HC).
  rewrite E' in E. injection E as <-. cbn [jet_of j_dep u2hg].
  assert (G : mfind i (diagmap r) <> None <-> mcell fx fy (ndiv (n := RN) fxx (nofZ 2)) (ndiv (n := RN) fyy (nofZ 2)) (u2hg x) (u2hg y) i <> None).
  { destruct (neqb _ n0); [subst r0; now rewrite HD|]. destruct HC as [HC _]. rewrite HC. rewrite HD. unfold mcell.
    destruct (mfind i (diagmap (u2hg x))), (mfind i (diagmap (u2hg y))); intuition congruence. }
  rewrite (some_key _ i (proj1 OKr)), (some_key _ i (proj1 OKx)), (some_key _ i (proj1 OKy)), G. unfold mcell.
  destruct (mfind i (diagmap (u2hg x))), (mfind i (diagmap (u2hg y))); intuition congruence.
Qed.

Lemma complete_neg x z : hg_ok (u2hg x) -> complete x -> u2_neg x = Ret z -> complete z.
Proof.
  intros OK C E i j Hi Hj L. unfold u2_neg in E. apply (unary_deps _ _ _ _ _ OK E) in Hi, Hj. apply (unary_pairs _ _ _ _ _ OK E).
  left. split; [reflexivity|]. now apply C.
Qed.
Lemma complete_mul x y z : hg_ok (u2hg x) -> hg_ok (u2hg y) -> kbelow (u2hg x) -> kbelow (u2hg y) -> complete x -> complete y -> u2_mul x y = Ret z -> complete z.
Proof.
  intros OKx OKy Kx Ky Cx Cy E i j Hi Hj L. unfold u2_mul in E. cbv zeta in E.
  apply (binary_deps _ _ _ _ _ _ _ _ _ OKx OKy Kx Ky E) in Hi, Hj. apply (binary_pairs _ _ _ _ _ _ _ _ _ OKx OKy Kx Ky E).
  assert (Z0 : @nofZ RN 0 = 0%R) by reflexivity. assert (Z1 : @nofZ RN 1 <> 0%R) by (change (1 <> 0)%R; lra).
  destruct Hi as [Hi|Hi], Hj as [Hj|Hj].
  - left. left. split; [exact Z0|]. now apply Cx.
  - right; right. split; [exact Z1|]. split; [exact L|]. now left.
  - right; right. split; [exact Z1|]. split; [exact L|]. now right.
  - right; left. left. split; [exact Z0|]. now apply Cy.
Qed.

Lemma exec_complete eig env (w : world2 RN) c : wwf2 env w -> thr_ok c -> (w2_last w + (if is_new2 c then 1 else 0) < maxid)%Z ->
  products_only c -> (forall v, complete (w2_var w v)) -> forall v, complete (w2_var (fst (exec2 eig w c)) v).
Proof.
  intros [W1 W] HT B P HF. assert (P0 := proj1 W1). fold (w2_last w) in P0.
  assert (B0 : (w2_last w < maxid)%Z) by (destruct (is_new2 c); lia).
  assert (OK : forall v, hg_ok (u2hg (w2_var w v))) by (intro v; apply W).
  assert (KB : forall v, kbelow (u2hg (w2_var w v))) by (intro v; exact (wf2_below _ _ _ (W v) B0)).
  assert (Set_ : forall v x, complete x -> forall u, complete (w2_var (fst (assign2 w v (Ret x))) u)).
  { intros v x Hx u. cbn. unfold upd2. destruct (Nat.eqb u v); auto. }
  assert (New : forall (v : nat) r, new_spec (w2_last w) r ->
    forall u, complete (w2_var (fst (let '(last, o) := r in assign2 (set_last w last) v o)) u)).
  { intros v r [[e ->]|(n & g & m & ->)] u; cbn; [apply HF|]. unfold upd2. destruct (Nat.eqb u v); [|apply HF].
    intros i j Hi Hj. cbn in Hi, Hj. destruct Hi as [<-|[]], Hj as [<-|[]]. lia. }
  destruct c; cbn [products_only] in P; try destruct P; cbn [exec2 is_new2] in *.
  - destruct (exec (w2_w w) c). exact HF.
  - apply New. apply new2_ok; auto; lia.
  - apply New. apply new2_std_ok; auto; lia.
  - apply Set_. intros i j Hi. destruct Hi.
  - apply Set_. intros i j Hi. destruct Hi.
  - apply Set_. apply HF.
  - destruct (u2_neg (w2_var w x)) eqn:Ez; try (intro u; exact (HF u)). apply Set_. eapply complete_neg; [apply OK|apply HF|exact Ez].
  - destruct (u2_mul (w2_var w x) (w2_var w y)) eqn:Ez; try (intro u; exact (HF u)). apply Set_.
    eapply complete_mul; [apply OK|apply OK|apply KB|apply KB|apply HF|apply HF|exact Ez].
Qed.

Lemma run_complete eig cs : forall env (w : world2 RN), wwf2 env w -> List.Forall nary_ok2 cs -> List.Forall thr_ok cs ->
  (w2_last w + Z.of_nat (count_new2 cs) < maxid)%Z -> List.Forall products_only cs -> (forall v, complete (w2_var w v)) ->
  forall w', run2 eig w cs = Ret w' -> forall v, complete (w2_var w' v).
Proof.
  induction cs as [|c cs IH]; intros env w W F F2 B S HF w' E.
  - injection E as <-. exact HF.
  - inversion F as [|? ? Fc Fcs]; subst. inversion F2 as [|? ? Tc Tcs]; subst. inversion S as [|? ? Sc Scs]; subst.
    rewrite count_new2_cons in *.
    assert (B1 : (w2_last w + (if is_new2 c then 1 else 0) < maxid)%Z) by (destruct (is_new2 c); lia).
    destruct (gen_exec2 Rltb_00 eig env w c W Fc Tc B1) as (env1 & W1 & _ & L1 & O & _).
    assert (HF1 := exec_complete eig env w c W Tc B1 Sc HF).
    cbn [run2] in E. destruct (exec2 eig w c) as [w1 o]. cbn [fst snd] in *.
    apply (IH env1 w1 W1 Fcs Tcs); [lia|exact Scs|exact HF1|]. destruct O as [-> | [e ->]]; exact E.
Qed.

Lemma kpairs_spec ks i j : StronglySorted klt ks -> In (i, j) (kpairs ks) -> In i ks /\ In j ks /\ (i < j)%Z.
Proof.
  induction ks as [|a ks IH]; [intros _ []|]. intros S H. apply StronglySorted_inv in S as [S F]. rewrite Forall_forall in F.
  cbn [kpairs] in H. apply in_app_iff in H as [H|H].
  - apply in_map_iff in H as (b & E & H). injection E as <- <-. split; [now left|]. split; [now right|]. now apply klt_lt, F.
  - destruct (IH S H) as (A & B & C). split; [now right|]. split; [now right|exact C].
Qed.
Lemma kpairs_nodup ks : StronglySorted klt ks -> NoDup (kpairs ks).
Proof.
  induction ks as [|a ks IH]; [constructor|]. intros S. assert (S0 := S). apply StronglySorted_inv in S as [S F]. rewrite Forall_forall in F.
  cbn [kpairs]. assert (ND : NoDup ks).
  { clear - S. induction ks as [|b ks IH]; [constructor|]. apply StronglySorted_inv in S as [S F]. rewrite Forall_forall in F. constructor; [|auto].
    intro H. apply F, klt_lt in H. lia. }
  assert (A : forall l : list Z, NoDup l -> NoDup (map (pair a) l)).
  { clear. induction 1 as [|b l H N IH]; [constructor|]. cbn [map]. constructor; [|exact IH]. intro X. apply in_map_iff in X as (c & E & X). congruence. }
  revert IH. specialize (A ks ND). revert A. generalize (kpairs_spec ks). intros K A IH. specialize (IH S).
  assert (D : forall q, In q (map (pair a) ks) -> ~ In q (kpairs ks)).
  { intros q Hq Hp. apply in_map_iff in Hq as (b & <- & _). destruct (K a b S Hp) as (Ha & _). apply F, klt_lt in Ha. lia. }
  revert A D. generalize (map (pair a) ks). clear - IH. induction l as [|q l IHl]; intros A D; [exact IH|]. cbn [app]. inversion A; subst.
  constructor; [|apply IHl; [assumption|intros p Hp; apply D; now right]]. intro H. apply in_app_iff in H as [H|H]; [contradiction|]. apply (D q); [now left|exact H].
Qed.

Lemma C88_products_proof : forall eig cs (w : world2 RN), legal2 cs -> List.Forall products_only cs -> run2 eig w2_init cs = Ret w ->
  forall v, exists d, size_of (w2_var w v) d (d * (d - 1) / 2) /\ (d <= count_new2 cs)%nat.
Proof.
  intros eig cs w (Ln & Lt & Lc) HS E v. assert (Lc' := max_new_lt _ Lc).
  destruct (gen_run2 Rltb_00 eig cs (fun _ => mkM n0 n0 n0 n0 n0 n0) w2_init (wwf2_init _) Ln Lt) as (env & w' & E' & W & _ & Lw); [cbn; lia|].
  rewrite E in E'. injection E' as <-. cbn in Lw.
  assert (C : complete (w2_var w v)).
  { apply (run_complete eig cs (fun _ => mkM n0 n0 n0 n0 n0 n0) w2_init (wwf2_init _) Ln Lt); auto. intros u i j Hi. destruct Hi. }
  exists (dn (w2_var w v)). split; [|apply (deps_bound w env cs v W); lia].
  assert (OK : hg_ok (u2hg (w2_var w v))) by apply W. apply size_ok; [exact OK|]. split; [reflexivity|].
  assert (T := tri_room _ OK). destruct OK as (SD & ST & K & _). unfold dn, pn in *. set (h := u2hg (w2_var w v)) in *.
  assert (G : (length (kpairs (map fst (diagmap h))) <= length (map fst (trimap h)))%nat).
  { apply NoDup_incl_length; [now apply kpairs_nodup|]. intros [i j] H. apply kpairs_spec in H as (Hi & Hj & L); [|exact SD]. now apply C. }
  assert (Q := kpairs_len (map fst (diagmap h))). rewrite !map_length in *. symmetry. apply Nat.div_unique with (r := 0%nat); lia.
Qed.
