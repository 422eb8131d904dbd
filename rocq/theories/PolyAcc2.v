(** * PolyAcc2: simulation of polynomial programs on two numeric types (C76) *)

From Coq Require Import List ZArith Bool Reals Lra Lia Psatz.
From Flocq Require Import Core BinarySingleNaN.
From Verif Require Import Base Num Map UReal World HessGrad Moments CheckMoments UReal2 World2 HessProofs U2Facts URealFacts U2World U2Ret SpecU2Run SpecU2 U2Proofs SpecCast ConvProofs.
From Verif Require Import Ieee IeeeFacts SpecIeee IeeeProofs2 IeeeProofs3 SpecAcc2 Track AccMom AccMom2 SpecAcc3 PolyHom Track2 PolyAcc.
Import ListNotations.
Local Open Scope nat_scope.

Lemma new_call {M : Num} (c : DN -> M) thr k : is_new2 (call_on M c thr k) = true -> exists v n s m t, k = ENewStd v n s m t.
Proof. destruct k; cbn; try discriminate. eauto 10. Qed.
Lemma count_call {M : Num} (c : DN -> M) thr cs : List.Forall polynomial cs -> count_new2 (map (call_on M c thr) cs) = count_new2 cs.
Proof.
  induction 1 as [|k cs P _ IH]; [reflexivity|]. unfold count_new2 in *. cbn [map filter].
  assert (E : is_new2 (call_on M c thr k) = is_new2 k) by (destruct k; try reflexivity; destruct P). rewrite E. destruct (is_new2 k); cbn [length]; congruence.
Qed.

Section Sim.
  Context {N M : Num} (c : N -> M) (K : keeps_ring c).
  Hypothesis Kopp : forall a, c (nopp a) = nopp (c a).
  Hypothesis Hh : forall l, l = 0%Z \/ l = 1%Z -> halves c l (l =? 0)%Z.
  Variables (eN : DN -> N) (eM : DN -> M) (tN : N) (tM : M).
  Hypothesis eNM : forall d, c (eN d) = eM d.
  Hypothesis (negN : nltb tN n0 = true) (negM : nltb tM n0 = true).
  Hypothesis (posN : forall s : DN, nltb s n0 = false -> nltb (eN s) n0 = false) (posM : forall s : DN, nltb s n0 = false -> nltb (eM s) n0 = false).
  Hypothesis z0 : nltb (n0 : N) n0 = false.
  Variables (eigN : list (list N) -> option (list N)) (eigM : list (list M) -> option (list M)).

  Definition sim (w : world2 N) (w' : world2 M) : Prop := w2_last w' = w2_last w /\ forall v, w2_var w' v = cu c (w2_var w v).
  Lemma sim_assign w w' v o : sim w w' -> (exists z, o = Ret z) ->
    exists w1 w1', assign2 w v o = (w1, Ret tt) /\ assign2 w' v (omap (cu c) o) = (w1', Ret tt) /\ sim w1 w1'.
  Proof.
    intros [L S] (z & ->). do 2 eexists. split; [reflexivity|]. split; [reflexivity|]. split; [exact L|].
    intro u. cbn [w2_var]. unfold upd2. destruct (Nat.eqb u v); [reflexivity|apply S].
  Qed.
  Lemma conv_mom m : moms_convert (N := N) (M := M) c (moms_convert (N := DN) (M := N) eN m) = moms_convert (N := DN) (M := M) eM m.
  Proof. unfold moms_convert. cbn. now rewrite !eNM. Qed.
  Lemma new_eq {Q : Num} (eig : list (list Q) -> option (list Q)) last (n s : Q) m thr : nltb s n0 = false -> nltb thr n0 = true ->
    u2_new_std eig last n s m thr = (wrap32 (last + 1), Ret (mkU2 (hg_diag (wrap32 (last + 1)) (fun _ => mkD s n0 (Some m)) hg_empty) n)).
  Proof. intros S T. unfold u2_new_std. now rewrite S, T. Qed.

  Lemma sim_exec env w w' k : polynomial k -> wwf2 env w -> (w2_last w + (if is_new2 k then 1 else 0) < maxid)%Z -> sim w w' ->
    exists w1 w1', exec2 eigN w (call_on N eN tN k) = (w1, Ret tt) /\ exec2 eigM w' (call_on M eM tM k) = (w1', Ret tt) /\ sim w1 w1'.
  Proof.
    intros P [W1 W2] B S. assert (S' := S). destruct S' as [L V].
    assert (Bl : (w2_last w < maxid)%Z) by (destruct (is_new2 k); lia).
    assert (OK : forall v, hg_ok (u2hg (w2_var w v))) by (intro; apply W2). assert (OK' : forall v, hg_ok (u2hg (cu c (w2_var w v)))) by (intro; now apply ok_chg).
    assert (Bi : forall x y a b c0 d e f, exists z, u2_binary (w2_var w x) (w2_var w y) a b c0 d e f = Ret z)
      by (intros x y a b c0 d e f; destruct (binary_wf2 (w2_last w) env (w2_var w x) (w2_var w y) a b c0 d e f) as (z & E & _); [apply W2|apply W2|exact Bl|eauto]).
    destruct k; try contradiction; cbn [call_on exec2].
    - destruct P as [Ps Pt]. rewrite !new_eq by auto. rewrite L.
      set (id := wrap32 (w2_last w + 1)). cbn [assign2]. do 2 eexists. split; [reflexivity|]. split; [reflexivity|]. split; [reflexivity|].
      intro u. cbn [w2_var]. unfold upd2. destruct (Nat.eqb u v); [|apply V]. unfold cu, chg, hg_diag, mupd. cbn [u2hg u2mu diagmap trimap hg_empty mset map]. unfold ckd, cd. cbn [fst snd dgrad dhh dmom option_map].
      now rewrite !eNM, conv_mom, (c_0 c K).
    - rewrite <- eNM. change (Ret (u2_const (c (eN n)))) with (omap (cu c) (Ret (u2_const (eN n)))). apply (sim_assign w w' v (Ret (u2_const (eN n)))); eauto.
    - assert (E : Ret u2_default = omap (cu c) (Ret u2_default)) by (unfold omap; cbn [bind]; unfold u2_default, cu, chg; cbn; now rewrite (c_0 c K)).
      rewrite E. apply sim_assign; eauto.
    - rewrite V. apply (sim_assign w w' v (Ret (w2_var w x))); eauto.
    - rewrite V, hom_neg; auto; try (apply (Hh 0); auto). apply sim_assign; [exact S|]. destruct (unary_wf2 (w2_last w) env (w2_var w x) (nopp (u2mu (w2_var w x))) (nofZ (-1)) (nofZ 0)) as (z & E & _); [apply W2|]. exists z. exact E.
    - rewrite !V, hom_add; auto; try (apply (Hh 0); auto). apply sim_assign; [exact S|]. apply Bi.
    - rewrite !V, hom_sub; auto; try (apply (Hh 0); auto). apply sim_assign; [exact S|]. apply Bi.
    - rewrite !V, hom_mul; auto; try (apply (Hh 0); auto); try (apply (Hh 1); auto). apply sim_assign; [exact S|]. apply Bi.
  Qed.
  Lemma sim_run cs : List.Forall polynomial cs -> forall env w w', wwf2 env w -> (w2_last w + Z.of_nat (count_new2 cs) < maxid)%Z -> sim w w' ->
    exists w1 w1', run2 eigN w (map (call_on N eN tN) cs) = Ret w1 /\ run2 eigM w' (map (call_on M eM tM) cs) = Ret w1' /\ sim w1 w1'.
  Proof.
    induction 1 as [|k cs P Ps IH]; intros env w w' W B S; [exists w, w'; auto|]. rewrite count_new2_cons in B.
    destruct (sim_exec env w w' k P W) as (w1 & w1' & E & E' & S1); [lia|exact S|]. cbn [map run2]. rewrite E, E'.
    assert (En : is_new2 (call_on N eN tN k) = is_new2 k) by (destruct k; try reflexivity; destruct P).
    destruct (gen_exec2 z0 eigN env w (call_on N eN tN k) W) as (env1 & Wf & _ & Lf & _).
    - destruct k; exact I.
    - destruct k; try exact I; destruct P. cbn [call_on thr_ok]. rewrite negN. discriminate.
    - rewrite En. lia.
    - rewrite E in Wf, Lf. cbn [fst] in Wf, Lf. rewrite En in Lf. apply (IH env1 w1 w1' Wf); [lia|exact S1].
  Qed.
End Sim.

(** ** Counts along a program *)
Notation callP := (call_on PN t_exact (t_exact (dofZ (-1)))).
Lemma negP : nltb (n := PN) (t_exact (dofZ (-1))) n0 = true. Proof. vm_compute. reflexivity. Qed.
Lemma kb_fresh id (n s : PN) m : tk n = 0 -> tk s = 0 -> mz (Some m) -> kb 0 (mkU2 (hg_diag id (fun _ => mkD s n0 (Some m)) hg_empty) n).
Proof.
  intros En Es Z. split; [cbn [u2mu]; lia|]. split; [|intros ij t []]. intros i d [H|[]]. injection H as _ <-. split; [|exact Z]. split; [change (tk s <= 0); lia|]. change (0 <= 0). lia.
Qed.
Lemma kb_const k (n : PN) : tk n <= k -> kb k (mkU2 hg_empty n).
Proof. intro E. split; [exact E|]. split; [intros i d []|intros ij t []]. Qed.
Lemma kz1 : tk (nofZ (n := PN) 1) <= 0. Proof. vm_compute. lia. Qed.
Lemma kzm1 : tk (nofZ (n := PN) (-1)) <= 0. Proof. vm_compute. lia. Qed.
Lemma kstep eig env w k w1 f : polynomial k -> wwf2 env w -> (w2_last w + (if is_new2 k then 1 else 0) < maxid)%Z ->
  exec2 eig w (callP k) = (w1, Ret tt) -> (forall v, kb (f v) (w2_var w v)) -> forall v, kb (rounded f k v) (w2_var w1 v).
Proof.
  intros P [W1 W2] B E F. assert (Bl : (w2_last w < maxid)%Z) by (destruct (is_new2 k); lia).
  assert (OK : forall v, hg_ok (u2hg (w2_var w v))) by (intro; apply W2). assert (BL : forall v, kbelow (u2hg (w2_var w v))) by (intro; now apply (wf2_below (w2_last w) env)).
  assert (A : forall v o j, (forall z, o = Ret z -> kb j z) -> assign2 w v o = (w1, Ret tt) -> forall u, kb (put f v j u) (w2_var w1 u)).
  { intros v o j Hz Ea u. destruct o; try discriminate. cbn [assign2] in Ea. assert (Ew := f_equal fst Ea). cbn [fst] in Ew. rewrite <- Ew. cbn [w2_var]. unfold put, upd2. destruct (Nat.eqb u v); [now apply Hz|apply F]. }
  destruct k; try contradiction; cbn [call_on exec2 rounded] in E |- *.
  - destruct P as [Ps _]. rewrite (new_eq eig) in E by (exact Ps || exact negP). cbn [assign2] in E. assert (Ew := f_equal fst E). cbn [fst] in Ew. rewrite <- Ew. intro u. cbn [w2_var].
    unfold put, upd2. destruct (Nat.eqb u v); [apply kb_fresh; try reflexivity; repeat split|apply F].
  - refine (A v _ 0 _ E). intros z Hz. injection Hz as <-. apply kb_const. change (0 <= 0). lia.
  - refine (A v _ 0 _ E). intros z Hz. injection Hz as <-. apply kb_const. change (0 <= 0). lia.
  - refine (A v _ (f x) _ E). intros z Hz. injection Hz as <-. apply F.
  - refine (A v _ (f x + 1) _ E). intros z Hz. apply (kb_unary (f x) 0 (f x + 1) (w2_var w x) (nopp (n := PN) (u2mu (w2_var w x))) (nofZ (n := PN) (-1))); auto using kz1, kzm1; [|lia].
    change (tk (u2mu (w2_var w x)) <= f x + 1). destruct (F x) as [Q _]. lia.
  - refine (A v _ (Nat.max (f x) (f y) + 2) _ E). intros z Hz. replace (Nat.max (f x) (f y) + 2) with (S (S (Nat.max (f x) (f y)))) by lia.
    apply (kb_sum (w2_var w x) (w2_var w y) (f x) (f y) 0 0 (S (Nat.max (f x) (f y))) (nadd (n := PN) (u2mu (w2_var w x)) (u2mu (w2_var w y))) (nofZ (n := PN) 1) (nofZ (n := PN) 1)); auto using kz1, kzm1; try lia.
    destruct (F x) as [Qx _], (F y) as [Qy _]. apply (k_le _ _ (Nat.max (f x) (f y))); lia.
  - refine (A v _ (Nat.max (f x) (f y) + 2) _ E). intros z Hz. replace (Nat.max (f x) (f y) + 2) with (S (S (Nat.max (f x) (f y)))) by lia.
    apply (kb_sum (w2_var w x) (w2_var w y) (f x) (f y) 0 0 (S (Nat.max (f x) (f y))) (nsub (n := PN) (u2mu (w2_var w x)) (u2mu (w2_var w y))) (nofZ (n := PN) 1) (nofZ (n := PN) (-1))); auto using kz1, kzm1; try lia.
    destruct (F x) as [Qx _], (F y) as [Qy _]. change (tk (nadd (n := PN) (u2mu (w2_var w x)) (u2mu (w2_var w y))) <= S (S (Nat.max (f x) (f y)))). apply (k_le _ _ (Nat.max (f x) (f y))); lia.
  - refine (A v _ (f x + f y + 4) _ E). intros z Hz. replace (f x + f y + 4) with (S (f x + f y) + 3) by lia. destruct (F x) as [Qx _], (F y) as [Qy _].
    apply (kb_prod (w2_var w x) (w2_var w y) (f x) (f y) (f y) (f x) (S (f x + f y)) (nmul (n := PN) (u2mu (w2_var w x)) (u2mu (w2_var w y))) (u2mu (w2_var w y)) (u2mu (w2_var w x))); auto; try lia.
    eapply k_mull; [exact Qx|exact Qy|lia].
Qed.
