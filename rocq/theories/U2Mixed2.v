(** * U2Mixed2: exactly which mixed second derivatives binary propagates (C27) *)

From Coq Require Import List ZArith Bool Arith Sorted Lia Reals Lra.
From Verif Require Import Base Num Map HessGrad Moments CheckMoments UReal UReal2 World World2 URealProofs2 URealProofs HessProofs U2Facts
  U2World U2Values SpecU2 SpecU2Run SpecU2Mixed SpecU2Mixed2 U2Proofs U2Mixed.
Import ListNotations.
Local Open Scope R_scope.

(** The number computed at the last visit. *)
Definition vterm (df hdd : R) (v : visit RN) : R := hdd * dgrad (vd1 v) * dgrad (vd2 v) + df * vval v.
Fixpoint lastv (df hdd : R) (l : list (visit RN)) : R :=
  match l with
  | [] => 0
  | v :: l' => match l' with [] => vterm df hdd v | _ => lastv df hdd l' end
  end.
Lemma lastv_cons df hdd v l : l <> [] -> lastv df hdd (v :: l) = lastv df hdd l.
Proof. destruct l; [congruence|reflexivity]. Qed.
Lemma fold_X df hdd l : forall a, fold_left (fun x w => wt w x) (map (wX (N := RN) df hdd) l) a = match l with [] => a | _ => lastv df hdd l end.
Proof.
  induction l as [|v l IH]; intro a; [reflexivity|]. cbn [map fold_left]. rewrite IH. destruct l; reflexivity.
Qed.
Lemma fold_Yf df hdd l : forall a, fold_left (fun x w => wt w x) (map (wYf (N := RN) df hdd) l) a = match l with [] => a | _ => lastv df hdd l end.
Proof.
  induction l as [|v l IH]; intro a; [reflexivity|]. cbn [map fold_left]. rewrite IH. destruct l; [|reflexivity].
  cbn [wYf wt lastv]. unfold vterm. change (0 + hdd * dgrad (vd1 v) * dgrad (vd2 v) + df * vval v = hdd * dgrad (vd1 v) * dgrad (vd2 v) + df * vval v). ring.
Qed.
Definition both (fx fy hx hy : R) (a b : list (visit RN)) : R :=
  (if (length b <=? length a)%nat then lastv fx hx a else 0) + (if (length a <=? length b)%nat then lastv fy hy b else 0).
Lemma fold_kz fx fy hx hy a : forall b c, fold_left (fun x w => wt w x) (kz (N := RN) fx fy hx hy a b) c =
  match a, b with [], [] => c | _, _ => both fx fy hx hy a b end.
Proof.
  induction a as [|va a IH]; intros b c.
  - cbn [kz]. rewrite fold_Yf. destruct b as [|vb b]; [reflexivity|]. unfold both. cbn [length Nat.leb]. rewrite Rplus_0_l. reflexivity.
  - destruct b as [|vb b].
    + cbn [kz]. rewrite fold_X. unfold both. cbn [length Nat.leb]. rewrite Rplus_0_r. reflexivity.
    + cbn [kz fold_left]. rewrite IH. destruct a as [|va' a], b as [|vb' b].
      * unfold both. cbn [length Nat.leb lastv]. unfold vterm. cbn [wX wYn wt].
        change (hx * dgrad (vd1 va) * dgrad (vd2 va) + fx * vval va + hy * dgrad (vd1 vb) * dgrad (vd2 vb) + fy * vval vb =
                hx * dgrad (vd1 va) * dgrad (vd2 va) + fx * vval va + (hy * dgrad (vd1 vb) * dgrad (vd2 vb) + fy * vval vb)). ring.
      * unfold both. cbn [length Nat.leb]. now rewrite (lastv_cons fy hy vb) by discriminate.
      * unfold both. cbn [length Nat.leb]. now rewrite (lastv_cons fx hx va) by discriminate.
      * unfold both. cbn [length Nat.leb]. rewrite (lastv_cons fy hy vb), (lastv_cons fx hx va) by discriminate. reflexivity.
Qed.

(** unary, with any second derivative *)
Lemma unary_last (x : ureal2 RN) f f1 f2 z xs : hg_ok (u2hg x) -> hess_visits (u2hg x) (neqb (ndiv (n := RN) f2 (nofZ 2)) n0) = Ret xs ->
  u2_unary x f f1 f2 = Ret z -> forall i j, (i < j)%Z -> j_h (jet_of z) i j = lastv f1 (f2 / 2) (filter (vis (i, j)) xs).
Proof.
  intros OK Ex E i j L. unfold u2_unary in E. rewrite Ex in E. cbn [bind] in E. rewrite unary_writes in E.
  destruct (visits_facts (u2hg x) (neqb (ndiv (n := RN) f2 (nofZ 2)) n0) OK) as (vs & Ev & S & HV & _). rewrite Ex in Ev. injection Ev as <-.
  destruct (apply_all (map (wX f1 (ndiv (n := RN) f2 (nofZ 2))) xs) hg_empty) as (r & Er & _ & _ & _ & HT & _).
  - apply Forall_forall. intros w Hw. apply in_map_iff in Hw as (v & <- & Hv). apply HV in Hv. unfold wr_ok; cbn. tauto.
  - constructor.
  - constructor.
  - rewrite Er in E. cbn [bind] in E. injection E as <-. rewrite jh_lt by exact L. cbn [u2hg]. rewrite HT by lia.
    rewrite filter_map_w by reflexivity. destruct (filter (vis (i, j)) xs) as [|v l] eqn:EF; [reflexivity|].
    cbn [map]. change (wX f1 (ndiv f2 (nofZ 2)) v :: map (wX f1 (ndiv f2 (nofZ 2))) l) with (map (wX (N := RN) f1 (f2 / 2)) (v :: l)). now rewrite fold_X.
Qed.

Lemma binary_last (x y : ureal2 RN) f fx fy fxx fyy fxy z xs ys : hg_ok (u2hg x) -> hg_ok (u2hg y) -> kbelow (u2hg x) -> kbelow (u2hg y) ->
  hess_visits (u2hg x) (neqb (ndiv (n := RN) fxx (nofZ 2)) n0) = Ret xs -> hess_visits (u2hg y) (neqb (ndiv (n := RN) fyy (nofZ 2)) n0) = Ret ys ->
  u2_binary x y f fx fy fxx fyy fxy = Ret z -> forall i j, (i < j)%Z ->
  j_h (jet_of z) i j = both fx fy (fxx / 2) (fyy / 2) (filter (vis (i, j)) xs) (filter (vis (i, j)) ys)
    + fxy / 2 * (j_g (jet_of x) i * j_g (jet_of y) j + j_g (jet_of x) j * j_g (jet_of y) i).
Proof.
  intros OKx OKy Kx Ky Ex Ey E i j L. unfold u2_binary in E. rewrite Ex, Ey in E. cbn [bind] in E.
  destruct (visits_of_hg (u2hg x) (neqb (ndiv (n := RN) fxx (nofZ 2)) n0) OKx) as (xs' & Ex' & Vx & _). rewrite Ex in Ex'. injection Ex' as <-.
  destruct (visits_of_hg (u2hg y) (neqb (ndiv (n := RN) fyy (nofZ 2)) n0) OKy) as (ys' & Ey' & Vy & _). rewrite Ey in Ey'. injection Ey' as <-.
  rewrite merge_writes_ok in E; [|now apply (visits_below (u2hg x))|now apply (visits_below (u2hg y))].
  destruct (merge_result fx fy (ndiv fxx (nofZ 2)) (ndiv fyy (nofZ 2)) (u2hg x) (u2hg y) OKx OKy xs ys Vx Vy) as (r0 & Er & OK0 & HD & _).
  rewrite Er in E. cbn [bind] in E.
  assert (T0 : mget (@n0 RN) (i, j) (trimap r0) = both fx fy (fxx / 2) (fyy / 2) (filter (vis (i, j)) xs) (filter (vis (i, j)) ys)).
  { destruct Vx as (Sx & Hx & _), Vy as (Sy & Hy & _).
    destruct (apply_all (merge_writes fx fy (ndiv fxx (nofZ 2)) (ndiv fyy (nofZ 2)) xs ys) hg_empty) as (r1 & Er1 & _ & _ & _ & HT & _).
    - apply Forall_forall. intros w Hw. assert (H : In w (filter (at_k (wk w)) (merge_writes fx fy (ndiv fxx (nofZ 2)) (ndiv fyy (nofZ 2)) xs ys))).
      { apply filter_In. split; [exact Hw|]. unfold at_k. apply keqb_refl. }
      rewrite merge_filter in H by assumption.
      assert (G : forall xs ys w, In w (kz (N := RN) fx fy (ndiv fxx (nofZ 2)) (ndiv fyy (nofZ 2)) xs ys) -> exists v, wk w = vid v /\ (In v xs \/ In v ys)).
      { clear. induction xs as [|x xs IH]; intros ys w H.
        - cbn in H. apply in_map_iff in H as (v & <- & H). exists v. split; [reflexivity|now right].
        - destruct ys as [|y ys].
          + cbn [kz] in H. apply in_map_iff in H as (v & <- & H). exists v. split; [reflexivity|now left].
          + cbn [kz] in H. destruct H as [<-|[<-|H]].
            * exists x. split; [reflexivity|left; now left].
            * exists y. split; [reflexivity|right; now left].
            * destruct (IH _ _ H) as (v & E & [H'|H']); exists v; (split; [exact E|]); [left|right]; now right. }
      destruct (G _ _ _ H) as (v & E' & [H'|H']); apply filter_In in H' as [H' _]; unfold wr_ok; rewrite E'; cbn.
      + now apply Hx.
      + now apply Hy.
    - constructor.
    - constructor.
    - rewrite Er in Er1. injection Er1 as <-. unfold mget. rewrite HT by lia. rewrite merge_filter by assumption.
      set (a := filter (vis (i, j)) xs). set (b := filter (vis (i, j)) ys).
      assert (K := fold_kz fx fy (fxx / 2) (fyy / 2) a b 0). change (ndiv fxx (nofZ 2)) with (fxx / 2). change (ndiv fyy (nofZ 2)) with (fyy / 2).
      destruct (kz (N := RN) fx fy (fxx / 2) (fyy / 2) a b) as [|w l] eqn:Ek.
      + destruct a as [|va a]; [|destruct b; discriminate Ek]. destruct b as [|vb b]; [|discriminate Ek]. cbn [trimap hg_empty mfind]. unfold both. cbn. change (0 = 0 + 0). ring.
      + cbn [trimap hg_empty mget mfind]. etransitivity; [exact K|]. destruct a as [|va a], b as [|vb b]; try reflexivity. discriminate Ek. }
  destruct (neqb (ndiv (n := RN) fxy (nofZ 2)) n0) eqn:Eh; cbn [negb bind] in E.
  - injection E as <-. apply Reqb_true in Eh. change (fxy / 2 = 0) in Eh. rewrite Eh, Rmult_0_l, Rplus_0_r. rewrite jh_lt by exact L. exact T0.
  - assert (KEYS : forall i, In i (map fst (diagmap r0)) <-> In i (map fst (diagmap (u2hg x))) \/ In i (map fst (diagmap (u2hg y)))).
    { clear - HD OKx OKy OK0. intro i. destruct OKx as (SDx & _), OKy as (SDy & _), OK0 as (SDr & _).
      assert (Q : forall m : list (Z * diag RN), msorted m -> (In i (map fst m) <-> mfind i m <> None)).
      { intros m S. assert (I := mfind_None_iff i m S). destruct (mfind i m) eqn:E.
        - split; [congruence|]. intros _. apply mfind_In in E. exact (in_map fst _ _ E).
        - split; [|congruence]. intro H. destruct (proj1 I eq_refl H). }
      rewrite !Q by assumption. rewrite HD. unfold mcell.
      destruct (mfind i (diagmap (u2hg x))), (mfind i (diagmap (u2hg y))); intuition congruence. }
    destruct (cross_result (ndiv fxy (nofZ 2)) (u2hg x) (u2hg y) r0 (proj1 OKx) (proj1 OKy) OK0 KEYS) as (r & Ec & _ & _ & HT').
    rewrite Ec in E. cbn [bind] in E. injection E as <-. rewrite jh_lt by exact L. cbn [u2hg].
    specialize (HT' i j L). unfold mget at 1 in HT'. etransitivity; [exact HT'|]. cbv zeta. rewrite T0.
    change (ndiv fxy (nofZ 2)) with (fxy / 2). cbn [jet_of j_g].
    destruct (mfind i (diagmap (u2hg x))), (mfind j (diagmap (u2hg y))), (mfind j (diagmap (u2hg x))), (mfind i (diagmap (u2hg y))); rgn.
Qed.

Lemma passes_length (x : ureal2 RN) f2 xs i j n : hg_ok (u2hg x) -> hess_visits (u2hg x) (neqb (ndiv (n := RN) f2 (nofZ 2)) n0) = Ret xs ->
  (i < j)%Z -> passes f2 x i j n -> length (filter (vis (i, j)) xs) = n.
Proof.
  intros OK Ex L [P0 P1].
  destruct (neqb (ndiv (n := RN) f2 (nofZ 2)) n0) eqn:B.
  - apply Reqb_true in B. change (f2 / 2 = 0) in B. destruct (P0 ltac:(lra)) as [Py Pn].
    destruct (visits_facts (u2hg x) true OK) as (vs & Ev & _ & _ & _ & X). rewrite Ex in Ev. injection Ev as <-.
    rewrite X by (auto; lia). unfold recorded in Py, Pn. assert (ST : msorted (trimap (u2hg x))) by apply OK.
    destruct (mfind (i, j) (trimap (u2hg x))) eqn:Ef.
    + apply mfind_In, (in_map fst) in Ef. now rewrite Py.
    + apply (mfind_None_iff _ _ ST) in Ef. now rewrite Pn.
  - assert (F : f2 <> 0). { intro F. rewrite (proj2 (Reqb_true _ _)) in B; [discriminate|]. subst f2. change (0 / 2 = 0). lra. }
    destruct (P1 F) as [Py Pn]. rewrite hess_visits_all in Ex by exact OK. injection Ex as <-.
    assert (Dec : follows (jet_of x) i j \/ ~ follows (jet_of x) i j) by apply Classical_Prop.classic.
    destruct Dec as [Fo|Fo].
    + rewrite (Py Fo). destruct (follows_split x i j OK Fo) as (pre & di & dj & d & ED).
      rewrite hess_list_all_rows. assert (SD := proj1 OK). rewrite ED in SD |- *. rewrite vis_present by (assumption || lia). rewrite vis_succ, map_length.
      unfold row_length, row. generalize (trimap (u2hg x)). intro T. induction T as [|[[a b] t] T IH]; [reflexivity|].
      cbn [filter map fst]. unfold in_row at 1. cbn [fst]. destruct (a =? i)%Z; cbn [length]; auto.
    + rewrite (Pn Fo), not_follows_none by assumption. reflexivity.
Qed.

Lemma C27_mixed_two_arguments_partial_proof : forall eig (w : world2 RN), reachable2 eig w -> forall (u v : nat) (f fx fy fxx fyy fxy : R) z zx zy,
  let x := w2_var w u in let y := w2_var w v in
  u2_binary x y f fx fy fxx fyy fxy = Ret z -> u2_unary x 0 fx fxx = Ret zx -> u2_unary y 0 fy fyy = Ret zy ->
  forall i j n m, (i < j)%Z -> passes fxx x i j n -> passes fyy y i j m ->
  j_h (jet_of z) i j = (if (m <=? n)%nat then j_h (jet_of zx) i j else 0) + (if (n <=? m)%nat then j_h (jet_of zy) i j else 0)
    + fxy / 2 * (j_g (jet_of x) i * j_g (jet_of y) j + j_g (jet_of x) j * j_g (jet_of y) i).
Proof.
  intros eig w R u v f fx fy fxx fyy fxy z zx zy x y E Ezx Ezy i j n m L Pn Pm.
  destruct (reach_ok eig w R u) as [OKx Kx]. destruct (reach_ok eig w R v) as [OKy Ky]. fold x in OKx, Kx. fold y in OKy, Ky.
  destruct (visits_of_hg (u2hg x) (neqb (ndiv (n := RN) fxx (nofZ 2)) n0) OKx) as (xs & Ex & _).
  destruct (visits_of_hg (u2hg y) (neqb (ndiv (n := RN) fyy (nofZ 2)) n0) OKy) as (ys & Ey & _).
  rewrite (binary_last x y f fx fy fxx fyy fxy z xs ys OKx OKy Kx Ky Ex Ey E i j L).
  rewrite (unary_last x 0 fx fxx zx xs OKx Ex Ezx i j L), (unary_last y 0 fy fyy zy ys OKy Ey Ezy i j L). unfold both.
  now rewrite (passes_length x fxx xs i j n OKx Ex L Pn), (passes_length y fyy ys i j m OKy Ey L Pm).
Qed.
