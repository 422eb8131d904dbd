(** * MomDeg: variables of zero deviation do not contribute *)

From Coq Require Import List ZArith Bool Reals Lra Lia Sorted.
From Verif Require Import Base Num Map UReal World HessGrad Moments CheckMoments UReal2 HessProofs U2Facts World2 U2World SpecObs SpecU2Run U2Proofs U2Proofs2.
From Verif Require Import URealFacts URealProofs Sums URealR SpecU2 U2Values U2Ret SpecProb SpecMom MomCode MomGiven.
Import ListNotations.
Local Open Scope R_scope.

Section Deg.
  Variable e : Z.

  Definition dzero (d : diag RN) : Prop := (dgrad d : R) = 0 /\ (dhh d : R) = 0.
  Definition dz (h : hessgrad RN) : Prop :=
    dzero (mget diag0 e (diagmap h)) /\
    forall j, (mget n0 (e, j) (trimap h) : R) = 0 /\ (mget n0 (j, e) (trimap h) : R) = 0.

  Definition wz (w : wr (N := RN)) : Prop :=
    (wk w = (e, e) -> forall d, dzero d -> dzero (wd w d)) /\
    (fst (wk w) = e \/ snd (wk w) = e -> fst (wk w) <> snd (wk w) -> (wt w 0 : R) = 0).

  Lemma apply_z r w r' : msorted (diagmap r) -> msorted (trimap r) -> wz w -> dz r -> apply_w r w = Ret r' ->
    msorted (diagmap r') /\ msorted (trimap r') /\ dz r'.
  Proof.
    intros SD ST [W1 W2] [Z1 Z2] E. destruct w as [[a b] fd ft]. unfold apply_w in E. cbn [wk fst snd wd wt] in *.
    destruct (Z.eqb_spec a b) as [<-|NE].
    - injection E as <-. unfold hg_diag. cbn [diagmap trimap]. split; [now apply msorted_mupd|]. split; [exact ST|].
      split; cbn [diagmap trimap]; [|exact Z2].
      rewrite mget_mupd by exact SD. destruct (keq_dec e a) as [<-|]; [|exact Z1]. apply W1; auto.
    - unfold hg_tri in E. destruct (a <? b)%Z; cbn [assert_ bind] in E; [|discriminate]. injection E as <-. cbn [diagmap trimap].
      split; [exact SD|]. split; [now apply msorted_mupd|]. split; cbn [diagmap trimap]; [exact Z1|].
      intro j. rewrite !mget_mupd by exact ST. destruct (Z2 j) as [Z3 Z4].
      split.
      + destruct (keq_dec (e, j) (a, b)) as [[= <- <-]|]; [|exact Z3].
        etransitivity; [exact (f_equal ft Z3)|]. apply W2; auto.
      + destruct (keq_dec (j, e) (a, b)) as [[= <- <-]|]; [|exact Z4].
        etransitivity; [exact (f_equal ft Z4)|]. apply W2; auto.
  Qed.

  Lemma apply_zs ws : forall r r', msorted (diagmap r) -> msorted (trimap r) -> List.Forall wz ws -> dz r ->
    ofold apply_w ws r = Ret r' -> msorted (diagmap r') /\ msorted (trimap r') /\ dz r'.
  Proof.
    induction ws as [|w ws IH]; intros r r' SD ST F Z E.
    - injection E as <-. auto.
    - inversion F; subst. cbn [ofold] in E. destruct (apply_w r w) as [r1| | |] eqn:E1; try discriminate. cbn [bind] in E.
      destruct (apply_z r w r1) as (A & B & C); auto. now apply (IH r1).
  Qed.

  Lemma dz_empty : dz hg_empty.
  Proof. split; [split; reflexivity|]. intro j; split; reflexivity. Qed.

  (** Visits *)
  Definition vz (v : visit RN) : Prop :=
    (vid1 v = e -> (dgrad (vd1 v) : R) = 0) /\ (vid2 v = e -> (dgrad (vd2 v) : R) = 0) /\
    (vid1 v = e \/ vid2 v = e -> (vval v : R) = 0).

  Lemma dz_In h i d : msorted (diagmap h) -> dz h -> In (i, d) (diagmap h) -> i = e -> dzero d.
  Proof. intros S [Z _] H ->. apply In_mfind in H; [|exact S]. unfold mget in Z. now rewrite H in Z. Qed.
  Lemma dz_Int h i j x : msorted (trimap h) -> dz h -> In ((i, j), x) (trimap h) -> i = e \/ j = e -> (x : R) = 0.
  Proof.
    intros S [_ Z] H [-> | ->]; apply In_mfind in H; try exact S.
    - destruct (Z j) as [Z1 _]. unfold mget in Z1. now rewrite H in Z1.
    - destruct (Z i) as [_ Z1]. unfold mget in Z1. now rewrite H in Z1.
  Qed.

  Lemma vrows_in (Rf : _ -> _ -> list (visit RN)) d v : In v (vrows Rf d) -> exists pre p d', d = pre ++ p :: d' /\ (v = dvisit p \/ In v (Rf p d')).
  Proof.
    induction d as [|p d IH]; cbn [vrows]; [intros []|]. intros [<-|H]; [now exists [], p, d; auto|].
    apply in_app_or in H as [H|H]; [now exists [], p, d; auto|].
    destruct (IH H) as (pre & q & d' & -> & O). exists (p :: pre), q, d'. auto.
  Qed.

  Lemma visits_z h skip vs : hg_ok h -> dz h -> hess_visits h skip = Ret vs -> List.Forall vz vs.
  Proof.
    intros OK Z E. destruct (visits_facts h skip OK) as (vs' & E' & _ & V & _). rewrite E in E'. injection E' as <-.
    destruct OK as (SD & ST & HK & HM). assert (OK : hg_ok h) by (split; [exact SD|split; [exact ST|split; [exact HK|exact HM]]]).
    apply Forall_forall. intros v Hv. destruct (V v Hv) as (H1 & H2 & L).
    split; [intro; now apply (dz_In h (vid1 v))|]. split; [intro; now apply (dz_In h (vid2 v))|]. intro O.
    destruct skip.
    - rewrite hess_visits_skip in E by exact OK. injection E as <-. rewrite hess_list_skip_rows in Hv.
      apply vrows_in in Hv as (pre & [i d] & d' & ED & [->|Hv]).
      + apply (dz_In h i d SD Z); [rewrite ED; apply in_elt|]. cbn in O. tauto.
      + unfold row_skip in Hv. apply in_map_iff in Hv as ([[a b] x] & <- & Hr). unfold row in Hr. apply filter_In in Hr as [Hr _].
        exact (dz_Int h a b x ST Z Hr O).
    - rewrite hess_visits_all in E by exact OK. injection E as <-. rewrite hess_list_all_rows in Hv.
      apply vrows_in in Hv as (pre & [i d] & d' & ED & [->|Hv]).
      + apply (dz_In h i d SD Z); [rewrite ED; apply in_elt|]. cbn in O. tauto.
      + unfold row_all in Hv. destruct d' as [|[j dj] d']; [destruct Hv|].
        apply in_map_iff in Hv as ([[a b] x] & <- & Hr). unfold row in Hr. apply filter_In in Hr as [Hr _].
        cbn [vid1 vid2 vval fst snd] in *. destruct (peqb (a, b) (i, j)) eqn:Ep; [|reflexivity].
        rewrite peqb_keqb in Ep. apply keqb_eq in Ep. injection Ep as -> ->. exact (dz_Int h i j x ST Z Hr O).
  Qed.

  Ltac zr := cbn [dgrad dhh dmom]; change (T RN) with R in *; cbn [nadd nmul RN]; change (@n0 RN) with 0.

  Lemma wX_z df hdd v : vz v -> wz (wX df hdd v).
  Proof.
    intros (A & B & C). split; unfold wX; cbn [wk wd wt].
    - unfold vid. intros [= E1 E2] d _. rewrite A, B, C by auto. split; zr; ring.
    - intros O _. rewrite C by exact O. assert (P : (dgrad (vd1 v) : R) * dgrad (vd2 v) = 0).
      { destruct O as [O|O]; [rewrite A by exact O|rewrite B by exact O]; ring. }
      zr. rewrite Rmult_assoc. etransitivity; [exact (f_equal (fun t => hdd * t + df * 0) P)|]. ring.
  Qed.
  Lemma wYn_z df hdd v : vz v -> wz (wYn df hdd v).
  Proof.
    intros (A & B & C). split; unfold wYn; cbn [wk wd wt].
    - unfold vid. intros [= E1 E2] d [D1 D2]. rewrite A, B, C by auto. unfold dzero. zr. rewrite D1, D2. split; ring.
    - intros O _. rewrite C by exact O. assert (P : (dgrad (vd1 v) : R) * dgrad (vd2 v) = 0).
      { destruct O as [O|O]; [rewrite A by exact O|rewrite B by exact O]; ring. }
      zr. rewrite Rmult_assoc. etransitivity; [exact (f_equal (fun t => 0 + hdd * t + df * 0) P)|]. ring.
  Qed.
  Lemma wYf_z df hdd v : vz v -> wz (wYf df hdd v).
  Proof.
    intros (A & B & C). split; unfold wYf; cbn [wk wd wt].
    - unfold vid. intros [= E1 E2] d [D1 D2]. rewrite A, B, C by auto. unfold dzero. zr. rewrite D1. split; ring.
    - intros O _. rewrite C by exact O. assert (P : (dgrad (vd1 v) : R) * dgrad (vd2 v) = 0).
      { destruct O as [O|O]; [rewrite A by exact O|rewrite B by exact O]; ring. }
      zr. rewrite Rmult_assoc. etransitivity; [exact (f_equal (fun t => 0 + hdd * t + df * 0) P)|]. ring.
  Qed.

  Lemma merge_z (dfdx dfdy hxx hyy : RN) xs : forall ys, List.Forall vz xs -> List.Forall vz ys ->
    List.Forall wz (merge_writes dfdx dfdy hxx hyy xs ys).
  Proof.
    assert (M : forall (f : visit RN -> wr) l, (forall v, vz v -> wz (f v)) -> List.Forall vz l -> List.Forall wz (map f l)).
    { intros f l H F. induction F; cbn; constructor; auto. }
    induction xs as [|vx xs IHx].
    - intros ys _ F. replace (merge_writes dfdx dfdy hxx hyy [] ys) with (map (wYf dfdy hyy) ys) by (destruct ys; reflexivity).
      apply M; [apply wYf_z|exact F].
    - induction ys as [|vy ys IHy]; intros Fx Fy.
      + cbn [merge_writes]. apply M; [apply wX_z|exact Fx].
      + assert (Fx0 := Fx). inversion Fx; subst. inversion Fy; subst. cbn [merge_writes].
        destruct (kcmp (vid vx) (vid vy)).
        * constructor; [now apply wX_z|]. constructor; [now apply wYn_z|]. now apply IHx.
        * constructor; [now apply wX_z|]. now apply IHx.
        * constructor; [now apply wYf_z|]. exact (IHy Fx0 H4).
  Qed.

  Lemma cross_z (hxy : RN) hx hy : msorted (diagmap hx) -> msorted (diagmap hy) -> dz hx -> dz hy ->
    List.Forall wz (cross_writes hxy (diagmap hx) (diagmap hy)).
  Proof.
    intros Sx Sy Zx Zy. apply Forall_forall. intros w Hw. unfold cross_writes in Hw.
    apply in_flat_map in Hw as ([i di] & Hi & Hw). apply in_map_iff in Hw as ([j dj] & <- & Hj).
    assert (Di : i = e -> (dgrad di : R) = 0) by (intro H; exact (proj1 (dz_In hx i di Sx Zx Hi H))).
    assert (Dj : j = e -> (dgrad dj : R) = 0) by (intro H; exact (proj1 (dz_In hy j dj Sy Zy Hj H))).
    assert (P : i = e \/ j = e -> (dgrad di : R) * dgrad dj = 0).
    { intros [H|H]; [rewrite Di by exact H|rewrite Dj by exact H]; ring. }
    split; unfold wC; cbn [wk wd wt fst snd].
    - intros [= E1 E2] d [D1 D2]. unfold dzero. zr. split; [exact D1|].
      rewrite D2. assert (P' : (hxy * dgrad di * dgrad dj : R) = 0).
      { rewrite Rmult_assoc. etransitivity; [apply (f_equal (fun t => hxy * t)), P; lia|]. ring. }
      etransitivity; [exact (f_equal (fun t => 0 + nofZ (n := RN) 2 * t) P')|]. ring.
    - intros O _. zr. rewrite Rmult_assoc. etransitivity; [apply (f_equal (fun t => 0 + hxy * t)), P; lia|]. ring.
  Qed.

  Lemma unary_z x f f1 f2 z : hg_ok (u2hg x) -> dz (u2hg x) -> u2_unary x f f1 f2 = Ret z -> dz (u2hg z).
  Proof.
    intros OK Z E. unfold u2_unary in E.
    destruct (hess_visits (u2hg x) _) as [vs| | |] eqn:Ev in E; try discriminate. cbn [bind] in E.
    rewrite unary_writes in E. destruct (ofold apply_w _ _) as [r| | |] eqn:Er in E; try discriminate.
    injection E as <-. cbn [u2hg]. apply (apply_zs _ hg_empty r msorted_nil msorted_nil) in Er; [apply Er| |apply dz_empty].
    assert (F := visits_z _ _ _ OK Z Ev). apply Forall_forall. intros w Hw. apply in_map_iff in Hw as (v & <- & Hv).
    apply wX_z. revert v Hv. now apply Forall_forall.
  Qed.

  Lemma binary_z x y f fx fy fxx fyy fxy z : hg_ok (u2hg x) -> hg_ok (u2hg y) -> kbelow (u2hg x) -> kbelow (u2hg y) ->
    dz (u2hg x) -> dz (u2hg y) -> u2_binary x y f fx fy fxx fyy fxy = Ret z -> dz (u2hg z).
  Proof.
    intros OKx OKy Kx Ky Zx Zy E. unfold u2_binary in E.
    destruct (visits_of_hg (u2hg x) (neqb (ndiv fxx (nofZ 2)) n0) OKx) as (xs & Ex & Vx & _). rewrite Ex in E. cbn [bind] in E.
    destruct (visits_of_hg (u2hg y) (neqb (ndiv fyy (nofZ 2)) n0) OKy) as (ys & Ey & Vy & _). rewrite Ey in E. cbn [bind] in E.
    rewrite merge_writes_ok in E; [|now apply (visits_below (u2hg x))|now apply (visits_below (u2hg y))].
    destruct (ofold apply_w _ hg_empty) as [r| | |] eqn:Er in E; try discriminate. cbn [bind] in E.
    apply (apply_zs _ hg_empty r msorted_nil msorted_nil) in Er; [|apply merge_z; [exact (visits_z _ _ _ OKx Zx Ex)|exact (visits_z _ _ _ OKy Zy Ey)]|apply dz_empty].
    destruct Er as (SD & ST & Z).
    destruct (negb _) in E.
    - rewrite cross_is_writes in E. destruct (ofold apply_w _ r) as [r'| | |] eqn:Ec in E; try discriminate. injection E as <-.
      cbn [u2hg]. apply (apply_zs _ r r' SD ST) in Ec; [apply Ec| |exact Z].
      apply cross_z; [apply OKx|apply OKy|exact Zx|exact Zy].
    - injection E as <-. exact Z.
  Qed.

  Definition wdz (w : world2 RN) : Prop := forall v, dz (u2hg (w2_var w v)).

  Lemma assign_z w v (o : outcome (ureal2 RN)) : wdz w -> (forall z, o = Ret z -> dz (u2hg z)) -> wdz (fst (assign2 w v o)).
  Proof.
    intros W H. destruct o as [z| | |]; cbn [assign2 fst]; try exact W. intro u. cbn [w2_var]. unfold upd2.
    destruct (Nat.eqb u v); [now apply H|apply W].
  Qed.

  Lemma dz_fresh i s m : i = e -> s = 0 -> dz (hg_diag i (fun _ => mkD (s : RN) n0 (Some m)) hg_empty).
  Proof.
    intros -> ->. unfold hg_diag. split; cbn [diagmap trimap].
    - rewrite mget_mupd by apply msorted_nil. destruct (keq_dec e e); [|congruence]. split; reflexivity.
    - intro j; split; reflexivity.
  Qed.
  Lemma dz_other i s m : i <> e -> dz (hg_diag i (fun _ => mkD (s : RN) n0 (Some m)) hg_empty).
  Proof.
    intro H. unfold hg_diag. split; cbn [diagmap trimap].
    - rewrite mget_mupd by apply msorted_nil. destruct (keq_dec e i); [congruence|]. split; reflexivity.
    - intro j; split; reflexivity.
  Qed.

  Lemma exec_z eig env w c : wwf2 env w -> (w2_last w + (if is_new2 c then 1 else 0) < maxid)%Z -> wdz w ->
    (forall s m, made c = Some (s, m) -> snd (exec2 eig w c) = Ret tt -> w2_last (fst (exec2 eig w c)) = e -> s = 0) ->
    wdz (fst (exec2 eig w c)).
  Proof.
    intros W HB Z HS. assert (P := proj1 (proj1 W)). change (w_last (w2_w w)) with (w2_last w) in P.
    assert (B : (w2_last w < maxid)%Z) by (destruct (is_new2 c); lia).
    assert (K : forall v, hg_ok (u2hg (w2_var w v)) /\ kbelow (u2hg (w2_var w v))).
    { intro v. split; [apply (proj1 (proj2 W v))|]. eapply wf2_below; [apply W|lia]. }
    assert (Un : forall v x f f1 f2, wdz (fst (assign2 w v (u2_unary (w2_var w x) f f1 f2)))).
    { intros. apply assign_z; [exact Z|]. intros z Ez. apply (unary_z _ _ _ _ _ (proj1 (K x)) (Z x) Ez). }
    assert (Bi : forall v x y f fx fy fxx fyy fxy, wdz (fst (assign2 w v (u2_binary (w2_var w x) (w2_var w y) f fx fy fxx fyy fxy)))).
    { intros. apply assign_z; [exact Z|]. intros z Ez.
      apply (binary_z _ _ _ _ _ _ _ _ _ (proj1 (K x)) (proj1 (K y)) (proj2 (K x)) (proj2 (K y)) (Z x) (Z y) Ez). }
    destruct c; cbn [exec2] in *; try apply Un; try apply Bi.
    - destruct (exec (w2_w w) c) as [w1 o]. cbn [fst]. exact Z.
    - unfold u2_new in *. destruct (if negb _ then _ else _) as [[]| | |]; cbn [assign2 fst snd] in *; try exact Z.
      intro u. cbn [w2_var]. unfold upd2. destruct (Nat.eqb u v); [|apply Z]. cbn [u2hg].
      destruct (Z.eq_dec (wrap32 (w2_last w + 1)) e) as [E|E].
      + apply dz_fresh; [exact E|]. exact (HS _ _ eq_refl eq_refl E).
      + now apply dz_other.
    - unfold u2_new_std in *. destruct (nltb s n0); [exact Z|].
      destruct (if negb _ then _ else _) as [[]| | |]; cbn [assign2 fst snd] in *; try exact Z.
      intro u. cbn [w2_var]. unfold upd2. destruct (Nat.eqb u v); [|apply Z]. cbn [u2hg].
      destruct (Z.eq_dec (wrap32 (w2_last w + 1)) e) as [E|E].
      + apply dz_fresh; [exact E|]. exact (HS _ _ eq_refl eq_refl E).
      + now apply dz_other.
    - apply assign_z; [exact Z|]. intros z [= <-]. apply dz_empty.
    - apply assign_z; [exact Z|]. intros z [= <-]. apply dz_empty.
    - apply assign_z; [exact Z|]. intros z [= <-]. apply Z.
  Qed.

  Lemma run_z eig cs : forall env w, wwf2 env w -> List.Forall nary_ok2 cs -> List.Forall thr_number cs ->
    (w2_last w + Z.of_nat (count_new2 cs) < maxid)%Z -> wdz w ->
    (forall s m, given eig w cs e = Some (s, m) -> s = 0) ->
    forall w', run2 eig w cs = Ret w' -> wdz w'.
  Proof.
    induction cs as [|c cs IH]; intros env w W F F2 B Z HS w' Er.
    - injection Er as <-. exact Z.
    - inversion F as [|? ? Fc Fcs]; subst. inversion F2 as [|? ? Tc Tcs]; subst. rewrite count_new2_cons in B.
      destruct (gen_exec2 Rltb_00 eig env w c W Fc Tc) as (env1 & W1 & E1' & L1 & O & LN); [destruct (is_new2 c); lia|].
      assert (Z1 : wdz (fst (exec2 eig w c))).
      { apply (exec_z eig env); auto; [destruct (is_new2 c); lia|]. intros s m Em Eo El. apply (HS s m).
        cbn [given]. destruct (exec2 eig w c) as [w1 o]. cbn [fst snd] in *. rewrite Em, Eo, El, Z.eqb_refl. reflexivity. }
      assert (G1 : forall s m, given eig (fst (exec2 eig w c)) cs e = Some (s, m) -> s = 0).
      { intros s m Hg.
        assert (BB : (w2_last (fst (exec2 eig w c)) + Z.of_nat (count_new2 cs) < maxid)%Z) by lia.
        assert (Er' : run2 eig (fst (exec2 eig w c)) cs = Ret w').
        { cbn [run2] in Er. destruct (exec2 eig w c) as [w1 o]. cbn [fst snd] in *. destruct O as [-> | [ex ->]]; exact Er. }
        destruct (given_run eig cs env1 _ W1 Fcs Tcs BB w' Er') as (env2 & _ & _ & G & _).
        destruct (G e s m Hg) as [Hl _].
        apply (HS s m). cbn [given]. destruct (exec2 eig w c) as [w1 o]. cbn [fst snd] in *.
        destruct (made c); [|exact Hg]. destruct o; try exact Hg. destruct (Z.eqb_spec (w2_last w1) e); [lia|exact Hg]. }
      cbn [run2] in Er. destruct (exec2 eig w c) as [w1 o] eqn:Ee. cbn [fst snd] in *.
      assert (Er' : run2 eig w1 cs = Ret w') by (destruct O as [-> | [ex ->]]; exact Er).
      apply (IH env1 w1 W1 Fcs Tcs); auto. lia.
  Qed.

  Lemma dz_jet x : dz (u2hg x) -> j_g (jet_of x) e = 0 /\ forall k, j_h (jet_of x) e k = 0.
  Proof.
    intros [[Z1 Z2] Z3]. split.
    - cbn [jet_of j_g]. unfold mget in Z1. destruct (mfind e (diagmap (u2hg x))); [exact Z1|reflexivity].
    - intro k. cbn [jet_of j_h]. destruct (Z.eqb_spec e k) as [<-|NE].
      + unfold mget in Z2. destruct (mfind e (diagmap (u2hg x))); [exact Z2|reflexivity].
      + destruct (Z.lt_total e k) as [H|[H|H]]; [|lia|].
        * rewrite Z.min_l, Z.max_r by lia. destruct (Z3 k) as [Z _]. unfold mget in Z.
          destruct (mfind (e, k) (trimap (u2hg x))); [exact Z|reflexivity].
        * rewrite Z.min_r, Z.max_l by lia. destruct (Z3 k) as [_ Z]. unfold mget in Z.
          destruct (mfind (k, e) (trimap (u2hg x))); [exact Z|reflexivity].
  Qed.
End Deg.

Lemma C28_only_given_variables_proof : forall eig (cs : list (call2 RN)) (w : world2 RN),
  legal2 cs -> run2 eig w2_init cs = Ret w -> forall ids,
  (forall i s m, given eig w2_init cs i = Some (s, m) -> s <> 0 -> In i ids) ->
  forall v, involves_only (jet_of (w2_var w v)) ids.
Proof.
  intros eig cs w (F & F2 & C) Er ids H v i Hi. apply dz_jet.
  assert (C' := max_new_lt _ C). revert v.
  apply (run_z i eig cs (fun _ => mkM n0 n0 n0 n0 n0 n0) w2_init (wwf2_init _) F F2) with (w' := w); auto.
  - intros v. apply dz_empty.
  - intros s m Hg. destruct (Req_dec s 0) as [E|E]; [exact E|]. destruct Hi. now apply (H i s m).
Qed.
