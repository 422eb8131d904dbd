(** * PolyAcc3: accuracy of polynomial programs (C76) *)

From Coq Require Import List ZArith Bool Reals Lra Lia Psatz.
From Flocq Require Import Core BinarySingleNaN.
From Verif Require Import Base Num Map UReal World HessGrad Moments CheckMoments UReal2 World2 HessProofs U2Facts URealFacts URealProofs URealProofs2 U2World U2Ret SpecU2Run SpecU2 U2Proofs SpecCast ConvProofs.
From Verif Require Import Ieee IeeeFacts SpecIeee IeeeProofs2 IeeeProofs3 SpecAcc2 Track AccMom AccMom2 SpecAcc3 PolyHom Track2 PolyAcc PolyAcc2.
Import ListNotations.
Local Open Scope R_scope.

Lemma krun eig cs : List.Forall polynomial cs -> forall env w w1 f, wwf2 env w -> (w2_last w + Z.of_nat (count_new2 cs) < maxid)%Z ->
  run2 eig w (map callP cs) = Ret w1 -> (forall v, kb (f v) (w2_var w v)) -> forall v, kb (fold_left rounded cs f v) (w2_var w1 v).
Proof.
  induction 1 as [|k cs P Ps IH]; intros env w w1 f W B E F; [injection E as <-; exact F|]. rewrite count_new2_cons in B. cbn [map run2 fold_left] in *.
  assert (En : is_new2 (callP k) = is_new2 k) by (destruct k; try reflexivity; destruct P).
  destruct (gen_exec2 (N := PN) eq_refl eig env w (callP k) W) as (env1 & Wf & _ & Lf & O & _).
  - destruct k; exact I.
  - destruct k; try exact I; destruct P. cbn [call_on thr_ok]. rewrite negP. discriminate.
  - rewrite En. lia.
  - assert (Er : snd (exec2 eig w (callP k)) = Ret tt).
    { destruct O as [O|[e O]]; [exact O|]. exfalso.
      destruct (sim_exec (N := PN) (M := DN) td pd_ring (fun _ => eq_refl) pd_half t_exact (fun d : DN => d) (t_exact (dofZ (-1))) (dofZ (-1)) (fun _ => eq_refl) negP eq_refl (fun _ h => h) (fun _ h => h) eig (fun _ => None) env w
        (mkW2 (mkW (w2_last w) (w_var w_init)) (fun v => cu (N := PN) (M := DN) td (w2_var w v))) k P W) as (w2 & _ & E2 & _); [lia|split; reflexivity|].
      rewrite E2 in O. discriminate. }
    destruct (exec2 eig w (callP k)) as [w2 o] eqn:Ee. cbn [fst snd] in *. subst o. rewrite En in Lf.
    apply (IH env1 w2 w1 _ Wf); [lia|exact E|]. apply (kstep eig env w k); auto. lia.
Qed.

Lemma mom_id (m : moms DN) : moms_convert (N := DN) (M := DN) (fun d => d) m = m. Proof. now destruct m. Qed.
Lemma dn_exec eig w k : polynomial k -> exec2 eig w (call_on DN (fun d => d) (dofZ (-1)) k) = exec2 eig w k.
Proof.
  destruct k; intro P; try contradiction; try reflexivity. destruct P as [Ps Pt]. cbn [call_on exec2]. rewrite mom_id, !new_eq; auto.
Qed.
Lemma dn_run eig cs : List.Forall polynomial cs -> forall w, run2 eig w (map (call_on DN (fun d => d) (dofZ (-1))) cs) = run2 eig w cs.
Proof.
  induction 1 as [|k cs P Ps IH]; intro w; [reflexivity|]. cbn [map run2]. rewrite dn_exec by exact P. destruct (exec2 eig w k) as [w' o]. destruct o; auto.
Qed.
Lemma pos_real (s : DN) : nltb (n := DN) s n0 = false -> nltb (n := RN) (real_of s) n0 = false.
Proof.
  intro H. change (Rltb (real_of s) 0 = false). unfold Rltb. destruct (Rlt_dec (real_of s) 0) as [L|]; [|reflexivity]. exfalso.
  destruct (is_finite s) eqn:F.
  - change (Bltb s dzero = false) in H. rewrite Bltb_correct in H by (exact F || reflexivity). destruct (Rlt_bool_spec (B2R s) (B2R dzero)) as [|G]; [discriminate|].
    change (B2R dzero) with 0 in G. change (B2R s) with (real_of s) in G. lra.
  - destruct s; try discriminate; cbn in L; lra.
Qed.
Lemma pos_mag eta (d : DN) : nltb (n := mag eta) (Rabs (real_of d)) n0 = false.
Proof. change (Rltb (Rabs (real_of d)) 0 = false). unfold Rltb. destruct (Rlt_dec _ 0) as [L|]; [|reflexivity]. assert (Z := Rabs_pos (real_of d)). lra. Qed.
Lemma negR : Rltb (-1) 0 = true. Proof. unfold Rltb. destruct (Rlt_dec (-1) 0); [reflexivity|lra]. Qed.

Definition init_sim {N M : Num} (c : N -> M) (K : keeps_ring c) : sim c w2_init w2_init.
Proof. split; [reflexivity|]. intro v. cbn [w2_init w2_var]. unfold u2_default, cu, chg. cbn. now rewrite (c_0 c K). Qed.

Lemma all_runs eig eigR eigA eigB cs : legal2 cs -> List.Forall polynomial cs ->
  exists (wP : world2 PN) (w : world2 DN) (wr : world2 RN) (wa : world2 (mag 0)) (wb : world2 (mag tiny)),
    run2 eig w2_init cs = Ret w /\ run2 eigR w2_init (map exactly_call cs) = Ret wr /\
    run2 eigA w2_init (map (sized_call 0) cs) = Ret wa /\ run2 eigB w2_init (map (sized_call tiny) cs) = Ret wb /\
    sim (N := PN) (M := DN) td wP w /\ sim (N := PN) (M := RN) tr wP wr /\ sim (N := PN) (M := mag 0) ta wP wa /\ sim (N := PN) (M := mag tiny) tb wP wb /\
    (forall v, kb (rounds cs v) (w2_var wP v)) /\ (forall v, hg_ok (u2hg (w2_var wP v))).
Proof.
  intros (F & T & C) P. assert (B : (w2_last (w2_init (N := PN)) + Z.of_nat (count_new2 cs) < maxid)%Z) by (apply max_new_lt in C; cbn; lia).
  pose (env0 := (fun _ : Z => mkM (N := PN) t_0 t_0 t_0 t_0 t_0 t_0)). pose (eP := (fun _ : list (list PN) => @None (list PN))).
  assert (W0 := wwf2_init (N := PN) env0).
  destruct (sim_run (N := PN) (M := DN) td pd_ring (fun _ => eq_refl) pd_half t_exact (fun d : DN => d) (t_exact (dofZ (-1))) (dofZ (-1)) (fun _ => eq_refl) negP eq_refl (fun _ h => h) (fun _ h => h) eq_refl eP eig
    cs P env0 w2_init w2_init W0 B (init_sim (N := PN) (M := DN) td pd_ring)) as (wP & w & EP & Ed & Sd).
  destruct (sim_run (N := PN) (M := RN) tr pr_ring (fun _ => eq_refl) pr_half t_exact real_of (t_exact (dofZ (-1))) (-1) (fun _ => eq_refl) negP negR (fun _ h => h) pos_real eq_refl eP eigR
    cs P env0 w2_init w2_init W0 B (init_sim (N := PN) (M := RN) tr pr_ring)) as (wP' & wr & EP' & Er & Sr). rewrite EP in EP'. injection EP' as <-.
  destruct (sim_run (N := PN) (M := mag 0) ta pa_ring (fun _ => eq_refl) pa_half t_exact (fun d : double => Rabs (real_of d)) (t_exact (dofZ (-1))) (-1) (fun _ => eq_refl) negP negR (fun _ h => h) (fun d _ => pos_mag 0 d) eq_refl eP eigA
    cs P env0 w2_init w2_init W0 B (init_sim (N := PN) (M := mag 0) ta pa_ring)) as (wP' & wa & EP' & Ea & Sa). rewrite EP in EP'. injection EP' as <-.
  destruct (sim_run (N := PN) (M := mag tiny) tb pb_ring (fun _ => eq_refl) pb_half t_exact (fun d : double => Rabs (real_of d)) (t_exact (dofZ (-1))) (-1) (fun _ => eq_refl) negP negR (fun _ h => h) (fun d _ => pos_mag tiny d) eq_refl eP eigB
    cs P env0 w2_init w2_init W0 B (init_sim (N := PN) (M := mag tiny) tb pb_ring)) as (wP' & wb & EP' & Eb & Sb). rewrite EP in EP'. injection EP' as <-.
  exists wP, w, wr, wa, wb. rewrite dn_run in Ed by exact P. split; [exact Ed|]. split; [exact Er|]. split; [exact Ea|]. split; [exact Eb|].
  split; [exact Sd|]. split; [exact Sr|]. split; [exact Sa|]. split; [exact Sb|]. split.
  - unfold rounds. apply (krun eP cs P env0 w2_init wP _ W0 B EP). intro v. cbn [w2_init w2_var]. apply kb_const. change (0 <= 0)%nat. lia.
  - intro v. destruct (gen_run2 (N := PN) eq_refl eP (map callP cs) env0 w2_init W0) as (env & w' & E & [_ Wv] & _).
    + apply Forall_forall. intros k Hk. apply in_map_iff in Hk as (k' & <- & _). destruct k'; exact I.
    + apply Forall_forall. intros k Hk. apply in_map_iff in Hk as (k' & <- & _). destruct k'; try exact I. cbn [call_on thr_ok]. rewrite negP. discriminate.
    + rewrite count_call by exact P. exact B.
    + rewrite EP in E. injection E as <-. apply Wv.
Qed.

(** ** The numbers stored *)
Lemma grad_cu {N M : Num} (c : N -> M) (K : keeps_ring c) x i : grad_at (cu c x) i = c (grad_at x i).
Proof. unfold grad_at, hg_diag_get. cbn [cu u2hg chg diagmap]. now rewrite (get_d c K). Qed.
Lemma hess_cu {N M : Num} (c : N -> M) (K : keeps_ring c) x i j : hess_at (cu c x) i j = c (hess_at x i j).
Proof. unfold hess_at, hg_diag_get. destruct (Z.eqb i j); cbn [cu u2hg chg diagmap trimap]; [now rewrite (get_d c K)|now rewrite (get_t c K)]. Qed.
Lemma ids_cu {N M : Num} (c : N -> M) x : map fst (diagmap (u2hg (cu c x))) = map fst (diagmap (u2hg x)).
Proof. cbn [cu u2hg chg diagmap]. rewrite map_map. apply map_ext. reflexivity. Qed.
Lemma kb_grad k x i : kb k x -> (tk (grad_at x i) <= k)%nat.
Proof. intro H. unfold grad_at, hg_diag_get, mget. destruct (mfind i (diagmap (u2hg x))) eqn:E; [exact (proj1 (proj1 (kb_find _ _ _ _ H E)))|]. change (0 <= k)%nat. lia. Qed.
Lemma kb_hess k x i j : kb k x -> (tk (hess_at x i j) <= k)%nat.
Proof.
  intro H. unfold hess_at, hg_diag_get. destruct (Z.eqb i j).
  - unfold mget. destruct (mfind i (diagmap (u2hg x))) eqn:E; [exact (proj2 (proj1 (kb_find _ _ _ _ H E)))|]. change (0 <= k)%nat. lia.
  - unfold mget. destruct (mfind (Z.min i j, Z.max i j) (trimap (u2hg x))) eqn:E; [exact (kb_tri _ _ _ _ H E)|]. change (0 <= k)%nat. lia.
Qed.

Lemma C76_derivatives_proof : forall eig eigR eigA eigB cs, legal2 cs -> List.Forall polynomial cs ->
  exists (w : world2 DN) (wr : world2 RN) (wa : world2 (mag 0)) (wb : world2 (mag tiny)),
    run2 eig w2_init cs = Ret w /\ run2 eigR w2_init (map exactly_call cs) = Ret wr /\
    run2 eigA w2_init (map (sized_call 0) cs) = Ret wa /\ run2 eigB w2_init (map (sized_call tiny) cs) = Ret wb /\
    w2_last wr = w2_last w /\
    forall v, let x := w2_var w v in let r := w2_var wr v in let a := w2_var wa v in let b := w2_var wb v in
      map fst (diagmap (u2hg r)) = map fst (diagmap (u2hg x)) /\
      (finite (u2mu x) -> approximates (u2mu x) (u2mu r) (u2mu a) (u2mu b) (rounds cs v)) /\
      (forall i, finite (grad_at x i) -> approximates (grad_at x i) (grad_at r i) (grad_at a i) (grad_at b i) (rounds cs v)) /\
      (forall i j, finite (hess_at x i j) -> approximates (hess_at x i j) (hess_at r i j) (hess_at a i j) (hess_at b i j) (rounds cs v)).
Proof.
  intros eig eigR eigA eigB cs L P. destruct (all_runs eig eigR eigA eigB cs L P) as (wP & w & wr & wa & wb & Ed & Er & Ea & Eb & [Ld Sd] & [Lr Sr] & [_ Sa] & [_ Sb] & KB & OK).
  exists w, wr, wa, wb. split; [exact Ed|]. split; [exact Er|]. split; [exact Ea|]. split; [exact Eb|]. split; [now rewrite Lr, Ld|].
  intros v x r a b. unfold x, r, a, b. rewrite Sd, Sr, Sa, Sb. specialize (KB v). split; [now rewrite !ids_cu|]. split; [|split].
  - intro F. exact (approx_of (u2mu (w2_var wP v)) _ (proj1 KB) F).
  - intro i. rewrite (grad_cu (N := PN) (M := DN) td pd_ring), (grad_cu (N := PN) (M := RN) tr pr_ring), (grad_cu (N := PN) (M := mag 0) ta pa_ring), (grad_cu (N := PN) (M := mag tiny) tb pb_ring).
    intro F. exact (approx_of _ _ (kb_grad _ _ i KB) F).
  - intros i j. rewrite (hess_cu (N := PN) (M := DN) td pd_ring), (hess_cu (N := PN) (M := RN) tr pr_ring), (hess_cu (N := PN) (M := mag 0) ta pa_ring), (hess_cu (N := PN) (M := mag tiny) tb pb_ring).
    intro F. exact (approx_of _ _ (kb_hess _ _ i j KB) F).
Qed.

(** ** Queries *)
Definition settled (K : nat) (t : trk) : rel (td t) (tr t) (ta t) (u1 ^ Nat.max K (tk t) * tb t) 0.
Proof.
  destruct (t_ok t) as [[A B] E]. assert (Q : 0 <= tb t) by (assert (Z := Rabs_pos (tr t)); lra). assert (P := pw_up (tk t) (Nat.max K (tk t)) (Nat.le_max_r _ _)).
  assert (P1 := pw_ge (Nat.max K (tk t))). split; [split; [exact A|nra]|]. intro F. specialize (E F). cbn [pow]. nra.
Qed.
Definition settle (K : nat) (t : trk) : trk := mkTrk (td t) (tr t) (ta t) (u1 ^ Nat.max K (tk t) * tb t) 0 (settled K t).
Definition sx (K : nat) (x : ureal2 PN) : ureal2 TN := cu (N := PN) (M := TN) (settle K) x.
Section Sx.
  Variables (K : nat) (x : ureal2 PN).
  Hypothesis (KB : kb K x).
  Lemma sx_td : cu (N := TN) (M := DN) td (sx K x) = cu (N := PN) (M := DN) td x. Proof. unfold sx. now rewrite cu_comp. Qed.
  Lemma sx_tr : cu (N := TN) (M := RN) tr (sx K x) = cu (N := PN) (M := RN) tr x. Proof. unfold sx. now rewrite cu_comp. Qed.
  Lemma sx_ta : cu (N := TN) (M := mag 0) ta (sx K x) = cu (N := PN) (M := mag 0) ta x. Proof. unfold sx. now rewrite cu_comp. Qed.
  Lemma settle_tb (t : PN) : (tk t <= K)%nat -> tb (settle K t) = u1 ^ K * tb t.
  Proof. intro L. cbn [settle tb]. now rewrite Nat.max_l. Qed.
  Lemma cu_ext {N M : Num} (f g : N -> M) (y : ureal2 N) : f (u2mu y) = g (u2mu y) -> (forall i d, In (i, d) (diagmap (u2hg y)) -> cd f d = cd g d) ->
    (forall ij t, In (ij, t) (trimap (u2hg y)) -> f t = g t) -> cu f y = cu g y.
  Proof.
    intros A B C. unfold cu, chg. rewrite A. f_equal. f_equal.
    - apply map_ext_in. intros [i d] H. unfold ckd. cbn [fst snd]. now rewrite (B i d H).
    - apply map_ext_in. intros [ij t] H. unfold ckt. cbn [fst snd]. now rewrite (C ij t H).
  Qed.
  Lemma sx_tb : hg_ok (u2hg x) -> cu (N := TN) (M := mag tiny) tb (sx K x) = inflate tiny K (cu (N := PN) (M := mag tiny) tb x).
  Proof.
    intro OK. unfold inflate. rewrite convert_cu by now apply ok_chg. unfold sx. rewrite !cu_comp. destruct KB as (A & B & C). apply cu_ext.
    - now apply settle_tb.
    - intros i d H. destruct (B i d H) as [[B1 B2] B3]. unfold cd. rewrite (settle_tb _ B1), (settle_tb _ B2). f_equal.
      destruct (dmom d) as [p|]; [|reflexivity]. cbn [option_map]. f_equal. destruct B3 as (E3 & E4 & E5 & E6 & E7 & E8). unfold moms_convert. rewrite !settle_tb by lia. reflexivity.
    - intros ij t H. apply settle_tb. exact (C ij t H).
  Qed.
  Lemma sx_tk : cu (N := TN) (M := roundings) tk (sx K x) = kc (cu (N := PN) (M := DN) td x).
  Proof. unfold sx, kc. now rewrite !cu_comp. Qed.
  Lemma sx_ok : hg_ok (u2hg x) -> hg_ok (u2hg (sx K x)). Proof. apply ok_chg. Qed.
End Sx.

Section Q.
  Variables (K : nat) (x : ureal2 PN) (OK : hg_ok (u2hg x)) (KB : kb K x).
  Notation xd := (cu (N := PN) (M := DN) td x). Notation xr := (cu (N := PN) (M := RN) tr x).
  Notation xa := (cu (N := PN) (M := mag 0) ta x). Notation xb := (cu (N := PN) (M := mag tiny) tb x).
  Lemma q_m n : (1 <= n <= 4)%nat -> exists d, u2_m xd (Z.of_nat n) = Ret d /\ (finite d -> exists r a b,
    u2_m xr (Z.of_nat n) = Ret r /\ u2_m xa (Z.of_nat n) = Ret a /\ u2_m (inflate tiny K xb) (Z.of_nat n) = Ret b /\ approximates d r a b (depth n (n_ids xd))).
  Proof.
    intro Hn. destruct (u2_m_ret (sx K x) (Z.of_nat n)) as (t & Et); [now apply sx_ok|lia|].
    assert (Ed := m_map (N := TN) (M := DN) td td_ring (sx K x) (Z.of_nat n)). assert (Er := m_map (N := TN) (M := RN) tr tr_ring (sx K x) (Z.of_nat n)).
    assert (Ea := m_map (N := TN) (M := mag 0) ta ta_ring (sx K x) (Z.of_nat n)). assert (Eb := m_map (N := TN) (M := mag tiny) tb tb_ring (sx K x) (Z.of_nat n)). assert (Ek := m_map (N := TN) (M := roundings) tk tk_ring (sx K x) (Z.of_nat n)).
    rewrite sx_td in Ed. rewrite sx_tr in Er. rewrite sx_ta in Ea. rewrite sx_tb in Eb by assumption. rewrite sx_tk in Ek.
    rewrite Et in Ed, Er, Ea, Eb, Ek. cbn [omap bind] in Ed, Er, Ea, Eb, Ek.
    exists (td t). split; [exact Ed|]. intro F. exists (tr t), (ta t), (tb t).
    split; [exact Er|]. split; [exact Ea|]. split; [exact Eb|]. apply approx_of; [|exact F].
    assert (Q := k_u (kc xd) n (tk t) Hn (kc_zhg xd (ok_chg _ _ OK)) Ek). rewrite kc_len in Q. exact Q.
  Qed.
  Lemma q_n p : exists d, u2_n p xd = Ret d /\ (finite d -> exists r a b,
    u2_n p xr = Ret r /\ u2_n p xa = Ret a /\ u2_n p (inflate tiny K xb) = Ret b /\ approximates d r a b (depth_mean (n_ids xd))).
  Proof.
    assert (Et : exists t, u2_n p (sx K x) = Ret t).
    { unfold u2_n. destruct (u2_m_ret (sx K x) 1) as (t & ->); [now apply sx_ok|lia|]. cbn [bind]. eauto. }
    destruct Et as (t & Et).
    assert (Ed := n_map (N := TN) (M := DN) td td_ring (sx K x) p). assert (Er := n_map (N := TN) (M := RN) tr tr_ring (sx K x) p).
    assert (Ea := n_map (N := TN) (M := mag 0) ta ta_ring (sx K x) p). assert (Eb := n_map (N := TN) (M := mag tiny) tb tb_ring (sx K x) p). assert (Ek := n_map (N := TN) (M := roundings) tk tk_ring (sx K x) p).
    rewrite sx_td in Ed. rewrite sx_tr in Er. rewrite sx_ta in Ea. rewrite sx_tb in Eb by assumption. rewrite sx_tk in Ek.
    rewrite Et in Ed, Er, Ea, Eb, Ek. cbn [omap bind] in Ed, Er, Ea, Eb, Ek.
    exists (td t). split; [exact Ed|]. intro F. exists (tr t), (ta t), (tb t).
    split; [exact Er|]. split; [exact Ea|]. split; [exact Eb|]. apply approx_of; [|exact F].
    assert (Q := k_n (kc xd) p (tk t) (kc_zhg xd (ok_chg _ _ OK)) eq_refl Ek). rewrite kc_len in Q. exact Q.
  Qed.
  Variables (K' : nat) (y : ureal2 PN) (OKy : hg_ok (u2hg y)) (KBy : kb K' y).
  Notation yd := (cu (N := PN) (M := DN) td y). Notation yr := (cu (N := PN) (M := RN) tr y).
  Notation ya := (cu (N := PN) (M := mag 0) ta y). Notation yb := (cu (N := PN) (M := mag tiny) tb y).
  Lemma q_cov : exists d, u2_cov xd yd = Ret d /\ (finite d -> exists r a b,
    u2_cov xr yr = Ret r /\ u2_cov xa ya = Ret a /\ u2_cov (inflate tiny K xb) (inflate tiny K' yb) = Ret b /\ approximates d r a b (depth_cov (n_ids xd) (n_ids yd))).
  Proof.
    destruct (u2_cov_ret (sx K x) (sx K' y)) as (t & Et); [now apply sx_ok|now apply sx_ok|].
    assert (Ed := cov_map (N := TN) (M := DN) td td_ring (sx K x) (sx K' y)). assert (Er := cov_map (N := TN) (M := RN) tr tr_ring (sx K x) (sx K' y)).
    assert (Ea := cov_map (N := TN) (M := mag 0) ta ta_ring (sx K x) (sx K' y)). assert (Eb := cov_map (N := TN) (M := mag tiny) tb tb_ring (sx K x) (sx K' y)). assert (Ek := cov_map (N := TN) (M := roundings) tk tk_ring (sx K x) (sx K' y)).
    rewrite !sx_td in Ed. rewrite !sx_tr in Er. rewrite !sx_ta in Ea. rewrite !sx_tb in Eb by assumption. rewrite !sx_tk in Ek.
    rewrite Et in Ed, Er, Ea, Eb, Ek. cbn [omap bind] in Ed, Er, Ea, Eb, Ek.
    exists (td t). split; [exact Ed|]. intro F. exists (tr t), (ta t), (tb t).
    split; [exact Er|]. split; [exact Ea|]. split; [exact Eb|]. apply approx_of; [|exact F].
    assert (Q := k_cov (kc xd) (kc yd) (tk t) (kc_zhg xd (ok_chg _ _ OK)) (kc_zhg yd (ok_chg _ _ OKy)) Ek). rewrite !kc_len in Q. exact Q.
  Qed.
End Q.

Lemma C76_queries_proof : forall eig eigR eigA eigB cs, legal2 cs -> List.Forall polynomial cs ->
  exists (w : world2 DN) (wr : world2 RN) (wa : world2 (mag 0)) (wb : world2 (mag tiny)),
    run2 eig w2_init cs = Ret w /\ run2 eigR w2_init (map exactly_call cs) = Ret wr /\
    run2 eigA w2_init (map (sized_call 0) cs) = Ret wa /\ run2 eigB w2_init (map (sized_call tiny) cs) = Ret wb /\
    let infl v := inflate tiny (rounds cs v) (w2_var wb v) in
    (forall v n, (1 <= n <= 4)%nat -> exists d, u2_m (w2_var w v) (Z.of_nat n) = Ret d /\ (finite d -> exists r a b,
       u2_m (w2_var wr v) (Z.of_nat n) = Ret r /\ u2_m (w2_var wa v) (Z.of_nat n) = Ret a /\ u2_m (infl v) (Z.of_nat n) = Ret b /\
       approximates d r a b (depth n (n_ids (w2_var w v))))) /\
    (forall v p, exists d, u2_n p (w2_var w v) = Ret d /\ (finite d -> exists r a b,
       u2_n p (w2_var wr v) = Ret r /\ u2_n p (w2_var wa v) = Ret a /\ u2_n p (infl v) = Ret b /\
       approximates d r a b (depth_mean (n_ids (w2_var w v))))) /\
    (forall v u, exists d, u2_cov (w2_var w v) (w2_var w u) = Ret d /\ (finite d -> exists r a b,
       u2_cov (w2_var wr v) (w2_var wr u) = Ret r /\ u2_cov (w2_var wa v) (w2_var wa u) = Ret a /\ u2_cov (infl v) (infl u) = Ret b /\
       approximates d r a b (depth_cov (n_ids (w2_var w v)) (n_ids (w2_var w u))))).
Proof.
  intros eig eigR eigA eigB cs L P. destruct (all_runs eig eigR eigA eigB cs L P) as (wP & w & wr & wa & wb & Ed & Er & Ea & Eb & [_ Sd] & [_ Sr] & [_ Sa] & [_ Sb] & KB & OK).
  exists w, wr, wa, wb. split; [exact Ed|]. split; [exact Er|]. split; [exact Ea|]. split; [exact Eb|]. cbv zeta. split; [|split].
  - intros v n Hn. rewrite Sd, Sr, Sa, Sb. now apply q_m.
  - intros v p. rewrite Sd, Sr, Sa, Sb. now apply q_n.
  - intros v u. rewrite !Sd, !Sr, !Sa, !Sb. now apply q_cov.
Qed.
