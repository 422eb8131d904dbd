(** * URealProofs: proofs of the first-order properties *)

From Coq Require Import List ZArith Bool Reals Lra Lia Permutation.
From Verif Require Import Base Num Map UReal World Sums SpecLin SpecObs URealFacts URealR.
Import ListNotations.
Local Open Scope R_scope.

Ltac rfield := match goal with |- @eq _ ?a ?b => change (@eq R a b) end; field.

Lemma max_new_lt n : (n <= max_new)%nat -> (Z.of_nat n < maxid)%Z.
Proof. rewrite max_new_Z. unfold maxid. lia. Qed.

Lemma run_app cs1 : forall (w : world RN) cs2,
  run w (cs1 ++ cs2) = bind (run w cs1) (fun w' => run w' cs2).
Proof.
  induction cs1 as [|c cs1 IH]; intros w cs2; cbn [run app bind]; [reflexivity|].
  destruct (exec w c) as [w' []]; cbn [bind]; auto.
Qed.

Lemma count_new_app (cs1 cs2 : list (call RN)) :
  count_new (cs1 ++ cs2) = (count_new cs1 + count_new cs2)%nat.
Proof. unfold count_new. now rewrite filter_app, app_length. Qed.

Lemma spec_run_app cs1 : forall w cs2, spec_run w (cs1 ++ cs2) = spec_run (spec_run w cs1) cs2.
Proof. intros; apply fold_left_app. Qed.

Lemma legal_sim cs : legal cs ->
  exists w, run w_init cs = Ret w /\ wrep w (spec_run s_init cs) /\
            w_last w = Z.of_nat (count_new cs).
Proof.
  intros (F & _ & C). apply max_new_lt in C.
  destruct (run_sim cs w_init s_init wrep_init F) as (w & E & W & L); [cbn; lia|].
  exists w; split; [exact E|]. split; [exact W|]. cbn in L. lia.
Qed.

Lemma reachable_wrep w : reachable w ->
  exists sw, wrep w sw /\ (0 <= w_last w < maxid)%Z.
Proof.
  intros (cs & L & E). destruct (legal_sim cs L) as (w' & E' & W & Lt).
  rewrite E in E'; injection E' as <-. exists (spec_run s_init cs). split; [exact W|].
  rewrite Lt. destruct L as (_ & _ & C). apply max_new_lt in C. lia.
Qed.

Lemma reachable_rep w : reachable w ->
  exists last g, (0 <= last < maxid)%Z /\ forall v, rep last (w_var w v) (g v).
Proof.
  intros R. destruct (reachable_wrep w R) as (sw & (E & P & H) & B).
  exists (w_last w), (s_var sw). auto.
Qed.

(** A legal history followed by one more call. *)
Lemma snoc_sim cs c w : legal cs -> run w_init cs = Ret w -> nary_ok c ->
  (count_new (cs ++ [c]) <= max_new)%nat ->
  exists w', run w_init (cs ++ [c]) = Ret w' /\ fst (exec w c) = w' /\
     wrep w' (spec_exec (spec_run s_init cs) c) /\ wrep w (spec_run s_init cs).
Proof.
  intros L E N C. destruct (legal_sim cs L) as (w0 & E0 & W & Lt).
  rewrite E in E0; injection E0 as <-.
  apply max_new_lt in C. rewrite count_new_app in C. unfold count_new at 2 in C.
  cbn [filter length] in C.
  destruct (exec_sim w _ c W N) as (w' & E1 & W' & L' & O).
  { intro Hn. rewrite Hn in C. cbn in C. lia. } { destruct (is_new c); cbn in C; lia. }
  exists w'. rewrite run_app, E. cbn [bind run].
  destruct (exec w c) as [w1 o]; cbn in E1, O; subst w1.
  destruct o; try (destruct O; fail); auto.
Qed.

(** ** Equal abstract values give equal observations *)

Definition lin_eq (a b : lin) : Prop :=
  l_mean a = l_mean b /\ (forall i, l_coef a i = l_coef b i) /\ (forall i, l_dep a i <-> l_dep b i).

Lemma rep_lin_eq last x a b : lin_eq a b -> rep last x a -> rep last x b.
Proof.
  intros (E1 & E2 & E3) [W C M F D]. split; auto.
  - congruence.
  - intro i; now rewrite F.
  - intro i; now rewrite D.
Qed.

Lemma isindep_eq last x y a : rep last x a -> rep last y a -> u_isindep x = u_isindep y.
Proof.
  intros Rx Ry. destruct (rep_isindep last x a Rx) as (b & -> & Hb).
  destruct (rep_isindep last y a Ry) as (b' & -> & Hb'). f_equal.
  destruct b, b'; intuition congruence.
Qed.

Lemma indepid_eq last x y a : rep last x a -> rep last y a -> u_indepid x = u_indepid y.
Proof.
  intros Rx Ry. destruct (rep_indepid last x a Rx) as (i & -> & Hi).
  destruct (rep_indepid last y a Ry) as (j & -> & Hj). f_equal. unfold lin_indep in *.
  destruct Hi as [(-> & Hi)|[(Pi & Di & Ui)|(-> & Hi)]];
    destruct Hj as [(-> & Hj)|[(Pj & Dj & Uj)|(-> & Hj)]]; auto.
  - exfalso; eapply Hi; eauto.
  - exfalso; apply Hj. intros p q Hp; exfalso; eapply Hi; eauto.
  - exfalso; eapply Hj; eauto.
  - exfalso; apply Hj. intros p q Hp Hq. now rewrite (Ui p), (Ui q).
  - exfalso; apply Hi. intros p q Hp; exfalso; eapply Hj; eauto.
  - exfalso; apply Hi. intros p q Hp Hq. now rewrite (Uj p), (Uj q).
Qed.

Lemma same_obs_of_rep last w1 w2 g :
  (forall v, rep last (w_var w1 v) (g v)) -> (forall v, rep last (w_var w2 v) (g v)) ->
  same_obs w1 w2.
Proof.
  intros H1 H2 u v.
  rewrite !(rep_n last _ _ (H1 _)), !(rep_n last _ _ (H2 _)).
  rewrite !(rep_s last _ _ (H1 _)), !(rep_s last _ _ (H2 _)).
  rewrite !(rep_var last _ _ (H1 _)), !(rep_var last _ _ (H2 _)).
  rewrite (rep_cov last _ _ _ _ (H1 u) (H1 v)), (rep_cov last _ _ _ _ (H2 u) (H2 v)).
  rewrite (rep_corr last _ _ _ _ (H1 u) (H1 v)), (rep_corr last _ _ _ _ (H2 u) (H2 v)).
  rewrite (isindep_eq last _ _ _ (H1 u) (H2 u)), (indepid_eq last _ _ _ (H1 u) (H2 u)).
  repeat split; reflexivity.
Qed.

Lemma same_obs_of_wrep w1 w2 sw1 sw2 : wrep w1 sw1 -> wrep w2 sw2 ->
  s_last sw1 = s_last sw2 -> (forall v, lin_eq (s_var sw1 v) (s_var sw2 v)) -> same_obs w1 w2.
Proof.
  intros (E1 & _ & H1) (E2 & _ & H2) EL H.
  apply (same_obs_of_rep (w_last w1) w1 w2 (s_var sw2)).
  - intro v. eapply rep_lin_eq; eauto.
  - intro v. rewrite E1, EL, <- E2. apply H2.
Qed.

Lemma lin_eq_refl a : lin_eq a a.
Proof. repeat split; auto. Qed.

Lemma lin_eq_set sw1 sw2 v a b : (forall u, lin_eq (s_var sw1 u) (s_var sw2 u)) -> lin_eq a b ->
  forall u, lin_eq (s_var (s_set sw1 v a) u) (s_var (s_set sw2 v b) u).
Proof. intros H Hab u. cbn. destruct (Nat.eqb u v); auto. Qed.

(** Two calls that mean the same thing have the same observable effect after
    any legal history. *)
Lemma two_calls cs c1 c2 :
  legal cs -> nary_ok c1 -> nary_ok c2 -> is_new c1 = false -> is_new c2 = false ->
  (let sw := spec_run s_init cs in
   s_last (spec_exec sw c1) = s_last (spec_exec sw c2) /\
   forall v, lin_eq (s_var (spec_exec sw c1) v) (s_var (spec_exec sw c2) v)) ->
  exists w1 w2, run w_init (cs ++ [c1]) = Ret w1 /\ run w_init (cs ++ [c2]) = Ret w2 /\
                same_obs w1 w2.
Proof.
  intros L N1 N2 I1 I2 (EL & H).
  destruct (legal_sim cs L) as (w & E & _ & _).
  assert (C : forall c, is_new c = false -> (count_new (cs ++ [c]) <= max_new)%nat).
  { intros c I. rewrite count_new_app. unfold count_new at 2. cbn [filter]. rewrite I. cbn [length].
    destruct L as (_ & _ & L). lia. }
  destruct (snoc_sim cs c1 w L E N1 (C _ I1)) as (w1 & E1 & _ & W1 & _).
  destruct (snoc_sim cs c2 w L E N2 (C _ I2)) as (w2 & E2 & _ & W2 & _).
  exists w1, w2. split; [exact E1|]. split; [exact E2|].
  eapply same_obs_of_wrep; eauto.
Qed.

(** ** Cauchy-Schwarz and friends *)

Lemma lin_var_nonneg last a : 0 <= lin_var last a.
Proof. apply sum_sq_nonneg. Qed.

Lemma lin_sdev_sq last a : lin_sdev last a * lin_sdev last a = lin_var last a.
Proof. apply sqrt_sqrt, lin_var_nonneg. Qed.

Lemma lin_cov_bound last a b :
  Rabs (lin_cov last a b) <= lin_sdev last a * lin_sdev last b.
Proof.
  unfold lin_sdev. rewrite <- sqrt_mult by apply lin_var_nonneg.
  rewrite <- sqrt_Rsqr_abs. apply sqrt_le_1_alt.
  unfold Rsqr, lin_var, lin_cov, sum_ids.
  replace (rsum (ids last) (fun i => l_coef a i * l_coef b i) *
           rsum (ids last) (fun i => l_coef a i * l_coef b i))
    with ((rsum (ids last) (fun i => l_coef a i * l_coef b i)) ^ 2) by ring.
  apply rsum_cauchy_schwarz.
Qed.

(** ** C01: ids *)

Lemma indepid_fresh last x i n s : rep last x (lin_fresh i n s) -> (0 < i)%Z -> u_indepid x = Ret i.
Proof.
  intros R Hi. destruct (rep_indepid last x _ R) as (j & -> & Hj). f_equal.
  destruct Hj as [(-> & Hj)|[(Pj & Dj & Uj)|(-> & Hj)]]; cbn in *.
  - exfalso; eapply Hj; reflexivity.
  - exact Dj.
  - exfalso; apply Hj. intros p q; cbn; congruence.
Qed.

Lemma new_after cs v n s : legal cs -> (count_new cs < max_new)%nat -> 0 <= s ->
  exists w, run w_init (cs ++ [CNew v n s]) = Ret w /\
            u_indepid (w_var w v) = Ret (Z.of_nat (count_new cs) + 1)%Z /\
            w_last w = (Z.of_nat (count_new cs) + 1)%Z.
Proof.
  intros L C Hs. destruct (legal_sim cs L) as (w0 & E0 & W0 & L0).
  destruct (snoc_sim cs (CNew v n s) w0 L E0 I) as (w & E & Ef & W & _).
  { rewrite count_new_app. unfold count_new at 2. cbn [filter is_new length]. lia. }
  exists w. split; [exact E|].
  destruct W as (EL & P & H). cbn in EL, H. destruct (Rlt_dec s 0); [lra|]. cbn in EL, H.
  assert (ES : s_last (spec_run s_init cs) = Z.of_nat (count_new cs)).
  { destruct W0 as (EL0 & _). congruence. }
  split; [|lia]. specialize (H v). rewrite Nat.eqb_refl, ES in H.
  eapply indepid_fresh; [exact H|]. lia.
Qed.

Lemma legal_app_inv cs1 cs2 : legal (cs1 ++ cs2) -> legal cs1.
Proof.
  intros (F & D & C). split; [|split].
  - now apply Forall_app in F.
  - clear F C. revert D. generalize s_init. induction cs1 as [|c cs1 IH]; intros w D; cbn in *; [exact I|].
    destruct D as [D1 D2]. split; eauto.
  - rewrite count_new_app in C. lia.
Qed.

Lemma C01_fresh_ids_unique_proof : forall cs1 v1 n1 s1 cs2 v2 n2 s2,
  0 <= s1 -> 0 <= s2 ->
  legal (cs1 ++ CNew v1 n1 s1 :: cs2 ++ [CNew v2 n2 s2]) ->
  exists w1 w2 i1 i2,
    run w_init (cs1 ++ [CNew v1 n1 s1]) = Ret w1 /\
    run w_init (cs1 ++ CNew v1 n1 s1 :: cs2 ++ [CNew v2 n2 s2]) = Ret w2 /\
    u_indepid (w_var w1 v1) = Ret i1 /\ u_indepid (w_var w2 v2) = Ret i2 /\
    (0 < i1)%Z /\ (0 < i2)%Z /\ i1 <> i2.
Proof.
  intros cs1 v1 n1 s1 cs2 v2 n2 s2 H1 H2 L.
  assert (L2 : legal (cs1 ++ CNew v1 n1 s1 :: cs2)).
  { apply (legal_app_inv _ [CNew v2 n2 s2]). now rewrite <- app_assoc. }
  assert (L1 : legal cs1) by now apply legal_app_inv in L.
  assert (C : (count_new cs1 + 1 + count_new cs2 + 1 <= max_new)%nat).
  { destruct L as (_ & _ & C). rewrite count_new_app in C.
    change (CNew v1 n1 s1 :: cs2 ++ [CNew v2 n2 s2])
      with ([CNew v1 n1 s1] ++ cs2 ++ [CNew v2 n2 s2]) in C.
    rewrite !count_new_app in C. cbn [count_new filter is_new length] in C. lia. }
  assert (C2 : count_new (cs1 ++ CNew v1 n1 s1 :: cs2) = (count_new cs1 + 1 + count_new cs2)%nat).
  { change (CNew v1 n1 s1 :: cs2) with ([CNew v1 n1 s1] ++ cs2). rewrite !count_new_app.
    cbn [count_new filter is_new length]. lia. }
  destruct (new_after cs1 v1 n1 s1 L1) as (w1 & E1 & I1 & _); [lia|assumption|].
  destruct (new_after (cs1 ++ CNew v1 n1 s1 :: cs2) v2 n2 s2 L2) as (w2 & E2 & I2 & _); [lia|assumption|].
  rewrite <- app_assoc in E2. cbn [app] in E2.
  exists w1, w2, (Z.of_nat (count_new cs1) + 1)%Z,
    (Z.of_nat (count_new (cs1 ++ CNew v1 n1 s1 :: cs2)) + 1)%Z.
  repeat (split; [assumption || lia|]). lia.
Qed.

(** ** C03: class invariants *)

Lemma C03_invariants_proof : forall w, reachable w -> forall v,
  let x := w_var w v in
  (uid x = 0%Z -> usdev x = 0 /\ usigma x = []) /\
  ((0 < uid x)%Z -> usigma x = [] /\ (uid x <= w_last w)%Z) /\
  ((uid x < 0)%Z -> uid x = invalid_id /\
      (0 <= usdev x -> usdev x * usdev x = u_s2 x) /\
      (forall k c, In (k, c) (usigma x) -> (1 <= k <= w_last w)%Z) /\
      NoDup (map fst (usigma x))).
Proof.
  intros w R v x. destruct (reachable_wrep w R) as (sw & (E & P & H) & B).
  specialize (H v). fold x in H. destruct H as [W C _ _ _].
  repeat split.
  - now apply W.
  - apply W; lia.
  - apply W; lia.
  - assert (K := wf_bound _ _ W). rewrite ukeys_pos in K by assumption.
    specialize (K (uid x) (or_introl eq_refl)). lia.
  - now apply W.
  - now apply C.
  - assert (K := wf_bound _ _ W). rewrite ukeys_neg in K by assumption.
    apply (in_map fst) in H0. apply K in H0. cbn in H0. lia.
  - assert (K := wf_bound _ _ W). rewrite ukeys_neg in K by assumption.
    apply (in_map fst) in H0. apply K in H0. cbn in H0. lia.
  - apply msorted_NoDup, W.
Qed.

(** ** C04: refinement *)

Lemma C04_refines_linear_forms_proof : forall cs, legal cs ->
  exists w, run w_init cs = Ret w /\
    let sw := spec_run s_init cs in
    w_last w = s_last sw /\
    forall u v,
      let x := w_var w u in let y := w_var w v in
      let a := s_var sw u in let b := s_var sw v in
      u_n x = l_mean a /\
      u_var x = lin_var (s_last sw) a /\
      u_s x = lin_sdev (s_last sw) a /\
      u_cov x y = lin_cov (s_last sw) a b /\
      u_corr x y = lin_cov (s_last sw) a b / (lin_sdev (s_last sw) a * lin_sdev (s_last sw) b).
Proof.
  intros cs L. destruct (legal_sim cs L) as (w & E & (EL & P & H) & _).
  exists w. split; [exact E|]. split; [exact EL|]. intros u v x y a b.
  rewrite <- EL. unfold x, y, a, b.
  rewrite (rep_n _ _ _ (H u)), (rep_var _ _ _ (H u)), (rep_s _ _ _ (H u)),
    (rep_cov _ _ _ _ _ (H u) (H v)), (rep_corr _ _ _ _ _ (H u) (H v)).
  repeat split; reflexivity.
Qed.

(** ** C06: covariance *)

Lemma cov_comm_sum last (f g : Z -> R) :
  sum_ids last (fun i => f i * g i) = sum_ids last (fun i => g i * f i).
Proof. apply rsum_ext; intros; ring. Qed.

Lemma C06_cov_symmetric_proof : forall w, reachable w -> forall u v,
  u_cov (w_var w u) (w_var w v) = u_cov (w_var w v) (w_var w u).
Proof.
  intros w R u v. destruct (reachable_rep w R) as (last & g & B & H).
  rewrite (rep_cov last _ _ _ _ (H u) (H v)), (rep_cov last _ _ _ _ (H v) (H u)).
  apply cov_comm_sum.
Qed.

Lemma C06_cov_self_is_var_proof : forall w, reachable w -> forall u,
  u_cov (w_var w u) (w_var w u) = u_var (w_var w u).
Proof.
  intros w R u. destruct (reachable_rep w R) as (last & g & B & H).
  now rewrite (rep_cov last _ _ _ _ (H u) (H u)), (rep_var last _ _ (H u)).
Qed.

Lemma lin_cov_binary last a b c m dx dy :
  lin_cov last (lin_binary a b m dx dy) c = dx * lin_cov last a c + dy * lin_cov last b c.
Proof.
  unfold lin_cov, sum_ids. rewrite <- !rsum_scal, <- rsum_plus. apply rsum_ext. intros; cbn; ring.
Qed.
Lemma lin_cov_unary last a c m d :
  lin_cov last (lin_unary a m d) c = d * lin_cov last a c.
Proof.
  unfold lin_cov, sum_ids. rewrite <- !rsum_scal. apply rsum_ext. intros; cbn; ring.
Qed.

Lemma C06_cov_bilinear_proof : forall w, reachable w -> forall u v t mu d dx dy,
  u_cov (u_unary (w_var w u) mu d) (w_var w t) = d * u_cov (w_var w u) (w_var w t) /\
  exists z, u_binary (w_var w u) (w_var w v) mu dx dy = Ret z /\
    u_cov z (w_var w t) = dx * u_cov (w_var w u) (w_var w t) + dy * u_cov (w_var w v) (w_var w t).
Proof.
  intros w R u v t mu d dx dy. destruct (reachable_rep w R) as (last & g & B & H).
  split.
  - assert (Ru : rep last (u_unary (w_var w u) mu d) (lin_unary (g u) mu d))
      by (apply rep_unary; auto).
    rewrite (rep_cov last _ _ _ _ Ru (H t)), (rep_cov last _ _ _ _ (H u) (H t)).
    apply lin_cov_unary.
  - destruct (rep_binary last _ _ _ _ mu dx dy mu dx dy (H u) (H v)) as (z & E & Rz); auto; [lia|].
    exists z. split; [exact E|].
    rewrite (rep_cov last _ _ _ _ Rz (H t)), (rep_cov last _ _ _ _ (H u) (H t)),
      (rep_cov last _ _ _ _ (H v) (H t)).
    apply lin_cov_binary.
Qed.

Lemma C06_cov_disjoint_zero_proof : forall cs w, legal cs -> run w_init cs = Ret w ->
  forall u v, (forall i, ~ (l_dep (s_var (spec_run s_init cs) u) i /\
                            l_dep (s_var (spec_run s_init cs) v) i)) ->
  u_cov (w_var w u) (w_var w v) = 0.
Proof.
  intros cs w L E u v D. destruct (legal_sim cs L) as (w' & E' & (EL & P & H) & _).
  rewrite E in E'; injection E' as <-.
  rewrite (cov_sum (w_last w)) by apply H.
  apply rsum_zero. intros i _.
  destruct (in_dec Z.eq_dec i (ukeys (w_var w u))) as [Hu|Hu].
  - destruct (in_dec Z.eq_dec i (ukeys (w_var w v))) as [Hv|Hv].
    + exfalso. apply (D i). split; [now apply (rep_dep _ _ _ (H u))|now apply (rep_dep _ _ _ (H v))].
    + rewrite (coef_notin (w_last w) (w_var w v)) by (auto; apply H). ring.
  - rewrite (coef_notin (w_last w) (w_var w u)) by (auto; apply H). ring.
Qed.

(** ** C07 *)

Lemma C07_var_s_corr_proof : forall w, reachable w -> forall u v,
  let x := w_var w u in let y := w_var w v in
  0 <= u_s x /\ u_var x = u_s x * u_s x /\
  Rabs (u_cov x y) <= u_s x * u_s y /\
  (u_s x <> 0 -> u_s y <> 0 -> -1 <= u_corr x y <= 1) /\
  (u_s x <> 0 -> u_corr x x = 1 /\ u_corr x (u_neg x) = -1).
Proof.
  intros w R u v x y. destruct (reachable_rep w R) as (last & g & B & H).
  assert (Hx := H u). assert (Hy := H v). fold x in Hx. fold y in Hy. clearbody x y.
  assert (Rn : rep last (u_neg x) (lin_unary (g u) (- umu x) (-1))).
  { apply rep_unary; auto. }
  rewrite (rep_s _ _ _ Hx), (rep_s _ _ _ Hy), (rep_var _ _ _ Hx), (rep_cov _ _ _ _ _ Hx Hy),
    (rep_corr _ _ _ _ _ Hx Hy), (rep_corr _ _ _ _ _ Hx Hx), (rep_corr _ _ _ _ _ Hx Rn).
  assert (Ex := lin_sdev_sq last (g u)). assert (Ey := lin_sdev_sq last (g v)).
  assert (Px : 0 <= lin_sdev last (g u)) by apply sqrt_pos.
  assert (Py : 0 <= lin_sdev last (g v)) by apply sqrt_pos.
  assert (CS := lin_cov_bound last (g u) (g v)).
  split; [assumption|]. split; [now rewrite Ex|]. split; [assumption|]. split.
  - intros Nx Ny. set (d := lin_sdev last (g u) * lin_sdev last (g v)) in *.
    assert (0 < d) by (apply Rmult_lt_0_compat; lra).
    assert (- d <= lin_cov last (g u) (g v) <= d).
    { revert CS. unfold Rabs. destruct (Rcase_abs _); lra. }
    split.
    + apply (Rmult_le_reg_r d); [assumption|]. unfold Rdiv. rewrite Rmult_assoc, Rinv_l; lra.
    + apply (Rmult_le_reg_r d); [assumption|]. unfold Rdiv. rewrite Rmult_assoc, Rinv_l; lra.
  - intro Nx. split.
    + change (lin_cov last (g u) (g u)) with (lin_var last (g u)). rewrite <- Ex. rfield. assumption.
    + set (b := lin_unary (g u) (- umu x) (-1)).
      assert (Ec : lin_cov last (g u) b = - lin_var last (g u)).
      { unfold lin_var, lin_cov, sum_ids, b. rewrite <- rsum_opp. apply rsum_ext. intros; cbn; ring. }
      assert (Es : lin_sdev last b = lin_sdev last (g u)).
      { unfold lin_sdev. f_equal. unfold lin_var, lin_cov, b. apply rsum_ext. intros; cbn; ring. }
      rewrite Ec, Es, <- Ex. rfield. assumption.
Qed.

(** ** C08: caching *)

Section EqCache.
Context {N : Num}.

Definition eqc (x y : ureal N) : Prop :=
  uid x = uid y /\ umu x = umu y /\ usigma x = usigma y /\ ((0 <= uid x)%Z -> usdev x = usdev y).
Definition weq (w1 w2 : world N) : Prop :=
  w_last w1 = w_last w2 /\ forall v, eqc (w_var w1 v) (w_var w2 v).

Lemma eqc_refl x : eqc x x.
Proof. repeat split; auto. Qed.
Lemma eqc_trans x y z : eqc x y -> eqc y z -> eqc x z.
Proof.
  intros (A1 & A2 & A3 & A4) (B1 & B2 & B3 & B4). repeat split; try congruence.
  intro H. rewrite A4, B4; auto. congruence.
Qed.

Lemma eqc_sdev x y : eqc x y -> (0 <= uid x)%Z -> usdev x = usdev y.
Proof. intros (_ & _ & _ & H). exact H. Qed.

Lemma eqc_unary x y mu d : eqc x y -> eqc (u_unary x mu d) (u_unary y mu d).
Proof.
  intros (A1 & A2 & A3 & A4). unfold u_unary. rewrite <- A1, <- A3.
  destruct (Z.ltb_spec 0 (uid x)); [rewrite A4 by lia; apply eqc_refl|].
  apply eqc_refl.
Qed.

Lemma eqc_binary x x' y y' mu dx dy : eqc x x' -> eqc y y' ->
  u_binary x y mu dx dy = u_binary x' y' mu dx dy.
Proof.
  intros (A1 & A2 & A3 & A4) (B1 & B2 & B3 & B4). unfold u_binary.
  rewrite <- A1, <- A3, <- B1, <- B3.
  assert (Ex : (0 <? uid x)%Z = true -> usdev x = usdev x')
    by (intro H; apply Z.ltb_lt in H; apply A4; lia).
  assert (Ey : (0 <? uid y)%Z = true -> usdev y = usdev y')
    by (intro H; apply Z.ltb_lt in H; apply B4; lia).
  destruct (0 <? uid x)%Z, (0 <? uid y)%Z; try rewrite <- Ex by reflexivity;
    try rewrite <- Ey by reflexivity; reflexivity.
Qed.

Lemma eqc_binary_assign x x' y y' mu dx dy : eqc x x' -> eqc y y' ->
  u_binary_assign x y mu dx dy = u_binary_assign x' y' mu dx dy.
Proof.
  intros (A1 & A2 & A3 & A4) (B1 & B2 & B3 & B4). unfold u_binary_assign.
  rewrite <- A1, <- A3, <- B1, <- B3.
  assert (Ex : (0 <? uid x)%Z = true -> usdev x = usdev x')
    by (intro H; apply Z.ltb_lt in H; apply A4; lia).
  assert (Ey : (0 <? uid y)%Z = true -> usdev y = usdev y')
    by (intro H; apply Z.ltb_lt in H; apply B4; lia).
  destruct (0 <? uid x)%Z, (0 <? uid y)%Z; try rewrite <- Ex by reflexivity;
    try rewrite <- Ey by reflexivity; reflexivity.
Qed.

Lemma eqc_assign_self x y mu dt dx : eqc x y ->
  eqc (u_binary_assign_self x mu dt dx) (u_binary_assign_self y mu dt dx).
Proof.
  intros (A1 & A2 & A3 & A4). unfold u_binary_assign_self. rewrite <- A1, <- A3.
  repeat split; auto. cbn [uid usdev]. intro H. now rewrite A4.
Qed.

Lemma eqc_assign_gen al x x' y y' mu dt dx : eqc x x' -> eqc y y' ->
  eqc (u_assign_gen al x y mu dt dx) (u_assign_gen al x' y' mu dt dx).
Proof.
  intros Hx Hy. unfold u_assign_gen. destruct al.
  - now apply eqc_assign_self.
  - rewrite (eqc_binary_assign x x' y y') by assumption. apply eqc_refl.
Qed.

Lemma eqc_nary_loop xs : forall xs' dxs z, Forall2 eqc xs xs' ->
  u_nary_loop xs dxs z = u_nary_loop xs' dxs z.
Proof.
  induction xs as [|x xs IH]; intros xs' dxs z H; inversion H as [|? x' ? xs'' Hx Hxs]; subst; [reflexivity|].
  cbn. destruct dxs as [|d dxs]; [reflexivity|].
  destruct Hx as (A1 & A2 & A3 & A4). rewrite <- A1, <- A3.
  destruct (Z.ltb_spec 0 (uid x)).
  - rewrite A4 by lia. now apply IH.
  - now apply IH.
Qed.

Lemma eqc_caching x : eqc (snd (u_s_caching x)) x.
Proof.
  unfold u_s_caching. destruct (Z.leb_spec 0 (uid x)); [apply eqc_refl|]. cbn [snd].
  destruct (_ <? _)%num; [|apply eqc_refl]. repeat split; cbn; auto. lia.
Qed.

Lemma weq_set w1 w2 v x y : weq w1 w2 -> eqc x y -> weq (w_set w1 v x) (w_set w2 v y).
Proof.
  intros (E & H) Hxy. split; [exact E|]. intro u. cbn. unfold upd. destruct (Nat.eqb u v); auto.
Qed.

Lemma weq_assign_result w1 w2 v o : weq w1 w2 ->
  weq (fst (assign_result w1 v o)) (fst (assign_result w2 v o)) /\
  snd (assign_result w1 v o) = snd (assign_result w2 v o).
Proof.
  intros H. destruct o; cbn; split; auto. apply weq_set; auto using eqc_refl.
Qed.

Lemma weq_exec w1 w2 c : weq w1 w2 ->
  weq (fst (exec w1 c)) (fst (exec w2 c)) /\ snd (exec w1 c) = snd (exec w2 c).
Proof.
  intros HW. destruct HW as (E & H) eqn:EW. clear EW.
  assert (M : forall v, umu (w_var w1 v) = umu (w_var w2 v)) by (intro; apply H).
  assert (Bin : forall v x y mu dx dy,
     weq (fst (assign_result w1 v (u_binary (w_var w1 x) (w_var w1 y) mu dx dy)))
         (fst (assign_result w2 v (u_binary (w_var w2 x) (w_var w2 y) mu dx dy))) /\
     snd (assign_result w1 v (u_binary (w_var w1 x) (w_var w1 y) mu dx dy))
     = snd (assign_result w2 v (u_binary (w_var w2 x) (w_var w2 y) mu dx dy))).
  { intros. rewrite (eqc_binary _ (w_var w2 x) _ (w_var w2 y)) by apply H. now apply weq_assign_result. }
  destruct c; cbn [exec]; unfold u_n, u_add, u_sub, u_mul, u_div, u_add_assign, u_sub_assign,
    u_mul_assign, u_div_assign, u_neg; rewrite ?M; try apply Bin;
    try (split; [apply weq_set; auto; apply eqc_assign_gen; apply H|reflexivity]);
    try (split; [apply weq_set; auto; apply eqc_unary; apply H|reflexivity]).
  - rewrite E. destruct (u_new (w_last w2) n s) as [l o]. apply weq_assign_result.
    split; [reflexivity|]. exact H.
  - split; [apply weq_set; auto using eqc_refl|reflexivity].
  - split; [apply weq_set; auto using eqc_refl|reflexivity].
  - split; [apply weq_set; auto|reflexivity]. apply H.
  - split; [apply weq_set; auto|reflexivity]. destruct (H x) as (A1 & A2 & A3 & A4).
    repeat split; auto.
  - assert (Em : map (fun x => umu (w_var w1 x)) xs = map (fun x => umu (w_var w2 x)) xs)
      by (apply map_ext; intro; apply M).
    rewrite Em. unfold u_nary. rewrite (eqc_nary_loop _ (map (w_var w2) xs)).
    + now apply weq_assign_result.
    + clear Em. induction xs; cbn; constructor; auto.
  - split; [apply weq_set; auto|reflexivity].
    eapply eqc_trans; [apply eqc_caching|]. eapply eqc_trans; [apply H|].
    destruct (eqc_caching (w_var w2 v)) as (A1 & A2 & A3 & A4). repeat split; try congruence.
    intro Hi. symmetry. apply A4. congruence.
  - split; [apply weq_set; auto|reflexivity]. rewrite !var_caching_snd.
    eapply eqc_trans; [apply eqc_caching|]. eapply eqc_trans; [apply H|].
    destruct (eqc_caching (w_var w2 v)) as (A1 & A2 & A3 & A4). repeat split; try congruence.
    intro Hi. symmetry. apply A4. congruence.
Qed.

Lemma weq_query w c : is_query c = true -> weq (fst (exec w c)) w /\ snd (exec w c) = Ret tt.
Proof.
  destruct c; cbn; try discriminate; intros _; (split; [|reflexivity]);
    (split; [reflexivity|]); intro u; cbn [w_set w_var]; unfold upd;
    (destruct (Nat.eqb_spec u v); [subst|apply eqc_refl]); rewrite ?var_caching_snd; apply eqc_caching.
Qed.

Lemma weq_trans w1 w2 w3 : weq w1 w2 -> weq w2 w3 -> weq w1 w3.
Proof. intros (A & B) (C & D). split; [congruence|]. intro v; eapply eqc_trans; eauto. Qed.

Lemma run_without cs : forall w1 w2, weq w1 w2 ->
  match run w1 cs, run w2 (without_queries cs) with
  | Ret a, Ret b => weq a b
  | Throw _, Throw _ | UB, UB | Assert, Assert => True
  | _, _ => False
  end.
Proof.
  induction cs as [|c cs IH]; intros w1 w2 H; [exact H|].
  cbn [without_queries filter]. destruct (is_query c) eqn:Q; cbn [negb].
  - destruct (weq_query w1 c Q) as (Hq & Eq).
    assert (E1 : run w1 (c :: cs) = run (fst (exec w1 c)) cs).
    { cbn [run]. destruct (exec w1 c) as [w' o]; cbn in *. now subst. }
    rewrite E1. apply IH. eapply weq_trans; eauto.
  - destruct (weq_exec w1 w2 c H) as (Hw & Ho). cbn [run].
    destruct (exec w1 c) as [w1' o1], (exec w2 c) as [w2' o2]; cbn in Hw, Ho. subst o2.
    destruct o1; try exact I; now apply IH.
Qed.

Lemma eqc_grad x x' y y' : eqc x x' -> eqc y y' -> u_grad x y = u_grad x' y'.
Proof.
  intros (A1 & A2 & A3 & A4) (B1 & B2 & B3 & B4). unfold u_grad.
  rewrite <- B1, <- A3, <- B3. destruct (Z.ltb_spec 0 (uid y)); [|reflexivity].
  rewrite B4 by lia. reflexivity.
Qed.

End EqCache.

Lemma spec_without cs : forall w, spec_run w (without_queries cs) = spec_run w cs.
Proof.
  induction cs as [|c cs IH]; intro w; [reflexivity|].
  destruct (is_query c) eqn:Q; cbn [without_queries filter]; rewrite Q; cbn [negb].
  - destruct c; try discriminate Q; apply IH.
  - apply IH.
Qed.

Lemma divisions_without cs : forall w, divisions_ok w cs -> divisions_ok w (without_queries cs).
Proof.
  induction cs as [|c cs IH]; intros w D; [exact I|]. destruct D as [D1 D2].
  cbn [without_queries filter]. destruct (is_query c) eqn:Q; cbn [negb].
  - destruct c; try discriminate Q; apply IH, D2.
  - split; [exact D1|]. apply IH, D2.
Qed.

Lemma count_without {N : Num} (cs : list (call N)) : count_new (without_queries cs) = count_new cs.
Proof.
  unfold count_new, without_queries. induction cs as [|c cs IH]; [reflexivity|].
  cbn [filter]. destruct c; cbn [is_query negb filter is_new length]; auto.
Qed.

Lemma legal_without cs : legal cs -> legal (without_queries cs).
Proof.
  intros (F & D & C). split; [|split].
  - unfold without_queries. apply Forall_forall. intros c Hc. apply filter_In in Hc as [Hc _].
    rewrite Forall_forall in F. auto.
  - now apply divisions_without.
  - now rewrite count_without.
Qed.

Lemma C08_caching_unobservable_proof : forall cs, legal cs ->
  exists w w', run w_init cs = Ret w /\ run w_init (without_queries cs) = Ret w' /\
    same_obs w w' /\ forall u v, u_grad (w_var w u) (w_var w v) = u_grad (w_var w' u) (w_var w' v).
Proof.
  intros cs L. destruct (legal_sim cs L) as (w & E & W & _).
  destruct (legal_sim _ (legal_without cs L)) as (w' & E' & W' & _).
  exists w, w'. split; [exact E|]. split; [exact E'|]. rewrite spec_without in W'. split.
  - eapply same_obs_of_wrep; eauto using lin_eq_refl.
  - assert (H := run_without cs w_init w_init (conj eq_refl (fun v => eqc_refl _))).
    rewrite E, E' in H. intros u v. apply eqc_grad; apply H.
Qed.

Lemma C08_caching_queries_same_value_proof : forall w, reachable w -> forall v,
  fst (u_s_caching (w_var w v)) = u_s (w_var w v) /\
  fst (u_var_caching (w_var w v)) = u_var (w_var w v).
Proof.
  intros w R v. destruct (reachable_rep w R) as (last & g & B & H). split.
  - apply s_caching_fst.
  - apply (var_caching_fst last); apply H.
Qed.

(** ** C09 *)

Lemma C09_isindep_indepid_proof : forall cs w, legal cs -> run w_init cs = Ret w -> forall v,
  let a := s_var (spec_run s_init cs) v in
  (exists b, u_isindep (w_var w v) = Ret b /\ (b = true <-> lin_indep a)) /\
  (exists i, u_indepid (w_var w v) = Ret i /\
     ((forall j, ~ l_dep a j) -> i = 0%Z) /\
     (forall j, l_dep a j -> lin_indep a -> i = j) /\
     (~ lin_indep a -> i = invalid_id)).
Proof.
  intros cs w L E v a. destruct (legal_sim cs L) as (w' & E' & (EL & P & H) & _).
  rewrite E in E'; injection E' as <-. specialize (H v). fold a in H. split.
  - eapply rep_isindep; eauto.
  - destruct (rep_indepid _ _ _ H) as (i & Ei & Hi). exists i. split; [exact Ei|].
    unfold lin_indep in *.
    destruct Hi as [(-> & Hi)|[(Pi & Di & Ui)|(-> & Hi)]].
    + split; [auto|]. split; [intros j Hj; exfalso; eapply Hi; eauto|].
      intro Hn; exfalso; apply Hn. intros p q Hp; exfalso; eapply Hi; eauto.
    + split; [intro Hn; exfalso; eapply Hn; eauto|]. split; [intros j Hj _; symmetry; auto|].
      intro Hn; exfalso; apply Hn. intros p q Hp Hq. now rewrite (Ui p), (Ui q).
    + split; [|split; [intros j Hj Hn; contradiction|reflexivity]].
      intro Hn; exfalso; apply Hi. intros p q Hp; exfalso; eapply Hn; eauto.
Qed.

Lemma sum_one last i (f : Z -> R) : (1 <= i <= last)%Z -> (forall j, j <> i -> f j = 0) ->
  sum_ids last f = f i.
Proof.
  intros B H. apply (rsum_single Z.eq_dec); [apply ids_NoDup|now apply ids_In|].
  intros; now apply H.
Qed.

Lemma C09_independent_corr_proof : forall w, reachable w -> forall u v,
  let x := w_var w u in let y := w_var w v in
  u_isindep x = Ret true -> u_isindep y = Ret true -> u_s x <> 0 -> u_s y <> 0 ->
  u_corr x y = 0 \/ u_corr x y = 1 \/ u_corr x y = -1.
Proof.
  intros w R u v x y Ix Iy Sx Sy. destruct (reachable_rep w R) as (last & g & B & H).
  assert (Hx := H u). assert (Hy := H v). fold x in Hx. fold y in Hy. clearbody x y.
  assert (One : forall z a, rep last z a -> u_isindep z = Ret true -> u_s z <> 0 ->
     exists i, (1 <= i <= last)%Z /\ l_coef a i <> 0 /\ (forall j, j <> i -> l_coef a j = 0) /\
               u_s z = Rabs (l_coef a i)).
  { intros z a Rz Iz Sz. destruct (rep_isindep _ _ _ Rz) as (b & Eb & Hb).
    rewrite Iz in Eb; injection Eb as <-. destruct Hb as [Hb _]. specialize (Hb eq_refl).
    assert (Z0 : forall j, ~ In j (ukeys z) -> l_coef a j = 0).
    { intros j Hj. rewrite <- (rep_coef _ _ _ Rz). eapply coef_notin; [apply Rz|assumption]. }
    destruct (ukeys z) as [|i l] eqn:Ek.
    - exfalso. apply Sz. rewrite (rep_s _ _ _ Rz). unfold lin_sdev, lin_var, lin_cov, sum_ids.
      rewrite rsum_zero; [apply sqrt_0|]. intros j _. rewrite Z0 by (intros []). ring.
    - assert (Bi : (1 <= i <= last)%Z).
      { apply (wf_bound _ _ (rep_wf _ _ _ Rz)). rewrite Ek; now left. }
      assert (Zj : forall j, j <> i -> l_coef a j = 0).
      { intros j Hj. apply Z0. rewrite <- Ek. intro Hin. apply Hj. apply Hb.
        - now apply (rep_dep _ _ _ Rz).
        - apply (rep_dep _ _ _ Rz). rewrite Ek. now left. }
      assert (Es : u_s z = Rabs (l_coef a i)).
      { rewrite (rep_s _ _ _ Rz). unfold lin_sdev, lin_var, lin_cov.
        rewrite (sum_one last i) by (auto; intros j Hj; rewrite Zj by assumption; ring).
        apply sqrt_Rsqr_abs. }
      exists i. repeat split; try lia; auto.
      intro E0. apply Sz. rewrite Es, E0. apply Rabs_R0. }
  destruct (One x _ Hx Ix Sx) as (i & Bi & Ni & Zi & Ei).
  destruct (One y _ Hy Iy Sy) as (j & Bj & Nj & Zj & Ej).
  unfold u_corr. rewrite (rep_cov _ _ _ _ _ Hx Hy), Ei, Ej. unfold lin_cov.
  cbn [ndiv RN nmul].
  destruct (Z.eq_dec i j) as [->|Nij].
  - right. rewrite (sum_one last j) by (auto; intros k Hk; rewrite Zi by assumption; ring).
    set (a := l_coef (g u) j) in *. set (b := l_coef (g v) j) in *.
    unfold Rabs. destruct (Rcase_abs a), (Rcase_abs b); [left|right|right|left]; rfield; auto.
  - left. rewrite (sum_one last i) by (auto; intros k Hk; rewrite Zi by assumption; ring).
    rewrite (Zj i) by assumption. unfold Rdiv. rring.
Qed.

(** ** C10 *)

Lemma lin_eq_set_refl sw v a b : lin_eq a b ->
  s_last (s_set sw v a) = s_last (s_set sw v b) /\
  forall u, lin_eq (s_var (s_set sw v a) u) (s_var (s_set sw v b) u).
Proof. intro H. split; [reflexivity|]. apply lin_eq_set; auto using lin_eq_refl. Qed.

Lemma C10_binary_assign_proof : forall cs v x f ft fx, legal cs ->
  exists w1 w2, run w_init (cs ++ [CAssign v x f ft fx]) = Ret w1 /\
                run w_init (cs ++ [CBinary v v x f ft fx]) = Ret w2 /\ same_obs w1 w2.
Proof.
  intros cs v x f ft fx L. apply two_calls; cbn; auto.
  split; [reflexivity|]. intro u. apply lin_eq_refl.
Qed.
Lemma C10_compound_operators_proof : forall cs v x, legal cs ->
  Forall (fun p => exists w1 w2, run w_init (cs ++ [fst p]) = Ret w1 /\
                run w_init (cs ++ [snd p]) = Ret w2 /\ same_obs w1 w2)
    [(CAddA v x, CAdd v v x); (CSubA v x, CSub v v x); (CMulA v x, CMul v v x);
     (CDivA v x, CDiv v v x)].
Proof.
  intros cs v x L. repeat constructor; cbn [fst snd]; (apply two_calls; cbn; auto);
  (split; [reflexivity|]); intro u; apply lin_eq_refl.
Qed.
Lemma C10_operand_unchanged_proof : forall w v x f ft fx u,
  u <> v -> w_var (fst (exec w (CAssign v x f ft fx))) u = (w_var w u : ureal RN).
Proof.
  intros w v x f ft fx u H. cbn. unfold upd. destruct (Nat.eqb_spec u v); congruence.
Qed.

(** ** C11 *)

Lemma C11_nary_one_proof : forall cs v x f df, legal cs ->
  exists w1 w2,
    run w_init (cs ++ [CNary v [x] (fun ms => f (hd 0 ms)) (fun ms => [df (hd 0 ms)])]) = Ret w1 /\
    run w_init (cs ++ [CUnary v x f df]) = Ret w2 /\ same_obs w1 w2.
Proof.
  intros cs v x f df L. apply two_calls; cbn; auto.
  apply lin_eq_set_refl. repeat split; cbn.
  - intro i; ring.
  - intros (xd & [<-|[]] & H). exact H.
  - intro H. eexists; split; [left; reflexivity|exact H].
Qed.
Lemma C11_nary_two_proof : forall cs v x y f fx fy, legal cs ->
  exists w1 w2,
    run w_init (cs ++ [CNary v [x; y] (fun ms => f (nth 0 ms 0) (nth 1 ms 0))
                         (fun ms => [fx (nth 0 ms 0) (nth 1 ms 0); fy (nth 0 ms 0) (nth 1 ms 0)])])
      = Ret w1 /\
    run w_init (cs ++ [CBinary v x y f fx fy]) = Ret w2 /\ same_obs w1 w2.
Proof.
  intros cs v x y f fx fy L. apply two_calls; cbn; auto.
  apply lin_eq_set_refl. repeat split; cbn.
  - intro i; ring.
  - intros (xd & [<-|[<-|[]]] & H); auto.
  - intros [H|H]; eexists; [split; [left; reflexivity|exact H]|split; [right; left; reflexivity|exact H]].
Qed.

Lemma same_value_of_rep last w g x y a b : (forall v, rep last (w_var w v) (g v)) ->
  rep last x a -> rep last y b -> lin_eq a b -> same_value w x y.
Proof.
  intros H Rx Ry E. assert (Ry' : rep last x b) by (eapply rep_lin_eq; eauto).
  repeat split; try intro t.
  - now rewrite (rep_n last _ _ Ry'), (rep_n last _ _ Ry).
  - now rewrite (rep_s last _ _ Ry'), (rep_s last _ _ Ry).
  - now rewrite (rep_var last _ _ Ry'), (rep_var last _ _ Ry).
  - eapply isindep_eq; eauto.
  - eapply indepid_eq; eauto.
  - now rewrite (rep_cov last _ _ _ _ Ry' (H t)), (rep_cov last _ _ _ _ Ry (H t)).
  - now rewrite (rep_corr last _ _ _ _ Ry' (H t)), (rep_corr last _ _ _ _ Ry (H t)).
Qed.

Lemma lin_nary_perm l1 l2 m : Permutation l1 l2 -> lin_eq (lin_nary l1 m) (lin_nary l2 m).
Proof.
  intro P. repeat split; cbn.
  - intro i. now apply rsum_perm.
  - intros (xd & Hin & H). exists xd; split; [|exact H]. eapply Permutation_in; eauto.
  - intros (xd & Hin & H). exists xd; split; [|exact H]. eapply Permutation_in; [symmetry|]; eauto.
Qed.

Lemma combine_map_fst_snd {A B : Type} (l : list (A * B)) : combine (map fst l) (map snd l) = l.
Proof. induction l as [|[a b] l IH]; cbn; congruence. Qed.

Lemma Forall2_rep_map last w g l : (forall v, rep last (w_var w v) (g v)) ->
  Forall2 (rep last) (map (w_var w) l) (map g l).
Proof. intro H. induction l; cbn; constructor; auto. Qed.

Lemma combine_map_l {A B C : Type} (f : A -> B) (l : list (A * C)) :
  combine (map f (map fst l)) (map snd l) = map (fun p => (f (fst p), snd p)) l.
Proof. induction l as [|[a b] l IH]; cbn; congruence. Qed.

Lemma C11_nary_order_irrelevant_proof : forall w, reachable w -> forall (l1 l2 : list (nat * R)) mu,
  Permutation l1 l2 ->
  exists z1 z2,
    u_nary (map (w_var w) (map fst l1)) mu (map snd l1) = Ret z1 /\
    u_nary (map (w_var w) (map fst l2)) mu (map snd l2) = Ret z2 /\ same_value w z1 z2.
Proof.
  intros w Rw l1 l2 mu P. destruct (reachable_rep w Rw) as (last & g & B & H).
  assert (K : forall l : list (nat * R), exists z,
     u_nary (map (w_var w) (map fst l)) mu (map snd l) = Ret z /\
     rep last z (lin_nary (map (fun p => (g (fst p), snd p)) l) mu)).
  { intro l. destruct (rep_nary last (map (w_var w) (map fst l)) (map g (map fst l)) (map snd l) mu)
      as (z & E & Rz).
    - now apply Forall2_rep_map.
    - rewrite !map_length. lia.
    - rewrite combine_map_l in Rz. eauto. }
  destruct (K l1) as (z1 & E1 & R1), (K l2) as (z2 & E2 & R2).
  exists z1, z2. split; [exact E1|]. split; [exact E2|].
  eapply same_value_of_rep; eauto. apply lin_nary_perm. now apply Permutation_map.
Qed.

Lemma accumulate_rep last w g : (forall v, rep last (w_var w v) (g v)) -> forall l z a,
  rep last z a ->
  exists b, rep last (accumulate w l z) b /\ l_mean b = l_mean a /\
    (forall i, l_coef b i = l_coef a i + rsum l (fun p => snd p * l_coef (g (fst p)) i)) /\
    (forall i, l_dep b i <-> l_dep a i \/ exists p, In p l /\ l_dep (g (fst p)) i).
Proof.
  intro H. induction l as [|[u d] l IH]; intros z a Rz; cbn [accumulate fold_left fst snd rsum].
  - exists a. split; [exact Rz|]. split; [reflexivity|]. split; intro i; [ring|].
    split; [auto|]. intros [?|(p & [] & _)]; assumption.
  - assert (R1 : rep last (u_binary_assign z (w_var w u) (umu z) 1 d) (lin_binary a (g u) (l_mean a) 1 d)).
    { apply rep_assign; auto. apply Rz. }
    destruct (IH _ _ R1) as (b & Rb & Mb & Cb & Db).
    exists b. split; [exact Rb|]. split; [exact Mb|]. split.
    + intro i. rewrite Cb. cbn. ring.
    + intro i. rewrite Db. cbn. split.
      * intros [[?|?]|(p & Hp & ?)]; auto.
        -- right. exists (u, d); auto.
        -- right. exists p; auto.
      * intros [?|(p & [<-|Hp] & ?)]; auto. right. exists p; auto.
Qed.

Lemma C11_nary_accumulates_proof : forall w, reachable w -> forall (l : list (nat * R)) mu,
  exists z, u_nary (map (w_var w) (map fst l)) mu (map snd l) = Ret z /\
            same_value w z (accumulate w l (u_const mu)).
Proof.
  intros w Rw l mu. destruct (reachable_rep w Rw) as (last & g & B & H).
  destruct (rep_nary last (map (w_var w) (map fst l)) (map g (map fst l)) (map snd l) mu)
      as (z & E & Rz).
  { now apply Forall2_rep_map. } { rewrite !map_length. lia. }
  rewrite combine_map_l in Rz.
  destruct (accumulate_rep last w g H l (u_const mu) _ (rep_const last mu)) as (b & Rb & Mb & Cb & Db).
  exists z. split; [exact E|]. eapply same_value_of_rep; eauto.
  repeat split; cbn [l_mean l_coef l_dep lin_nary].
  - now rewrite Mb.
  - intro i. rewrite Cb. cbn. rewrite rsum_map. cbn. ring.
  - intros (xd & Hin & Hd). apply in_map_iff in Hin as (p & <- & Hp). apply Db. right; eauto.
  - intro Hd. apply Db in Hd as [[]|(p & Hp & Hd)]. eexists; split; [apply in_map; exact Hp|exact Hd].
Qed.
