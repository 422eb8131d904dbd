(** * AccFinal: accuracy of the moments, mean and covariance of UReal2 on doubles (C75) *)

From Coq Require Import List ZArith Bool Reals Lra Lia Psatz Sorted.
From Flocq Require Import Core BinarySingleNaN.
From Verif Require Import Base Num Map UReal World HessGrad Moments CheckMoments UReal2 World2 HessProofs U2Facts U2World U2Ret SpecObs SpecU2Run Sums SpecU2 SpecCast ConvProofs
  SpecProb SpecMom MomSpec MomProofs MomCov MomGiven Ieee IeeeProofs3 SpecIeee SpecAcc2 Track AccMom AccMom2 AccSize AccSize2.
Import ListNotations.
Local Open Scope R_scope.

Lemma C75_moments_proof : forall eig (cs : list (call2 DN)) w, legal2 cs -> run2 eig w2_init cs = Ret w ->
  forall v n, (1 <= n <= 4)%nat -> let x := w2_var w v in
  exists d, u2_m x (Z.of_nat n) = Ret d /\ (finite d -> exists r a b,
    u2_m (exactly x) (Z.of_nat n) = Ret r /\ u2_m (sized 0 x) (Z.of_nat n) = Ret a /\ u2_m (sized tiny x) (Z.of_nat n) = Ret b /\
    approximates d r a b (depth n (n_ids x))).
Proof. intros eig cs w L E v n Hn x. apply acc_m; [eapply var_ok; eassumption|exact Hn]. Qed.
Lemma C75_mean_proof : forall eig (cs : list (call2 DN)) w, legal2 cs -> run2 eig w2_init cs = Ret w ->
  forall v p, let x := w2_var w v in
  exists d, u2_n p x = Ret d /\ (finite d -> exists r a b,
    u2_n p (exactly x) = Ret r /\ u2_n p (sized 0 x) = Ret a /\ u2_n p (sized tiny x) = Ret b /\
    approximates d r a b (depth_mean (n_ids x))).
Proof. intros eig cs w L E v p x. apply acc_n. eapply var_ok; eassumption. Qed.
Lemma C75_covariance_proof : forall eig (cs : list (call2 DN)) w, legal2 cs -> run2 eig w2_init cs = Ret w ->
  forall v v', let x := w2_var w v in let y := w2_var w v' in
  exists d, u2_cov x y = Ret d /\ (finite d -> exists r a b,
    u2_cov (exactly x) (exactly y) = Ret r /\ u2_cov (sized 0 x) (sized 0 y) = Ret a /\ u2_cov (sized tiny x) (sized tiny y) = Ret b /\
    approximates d r a b (depth_cov (n_ids x) (n_ids y))).
Proof. intros eig cs w L E v v' x y. apply acc_cov; eapply var_ok; eassumption. Qed.

Lemma C75_exact_moments_proof : forall eig (cs : list (call2 DN)) w, legal2 cs -> run2 eig w2_init cs = Ret w ->
  forall v, let x := w2_var w v in
  forall (P : prob) (ids : list Z) (X : Z -> Om P -> R) (M : Z -> moms RN), NoDup ids ->
  independent P ids X (fun i => stdmom (M i)) -> (forall i, In i ids -> has_moments x i (M i)) ->
  involves_only (jet_of (exactly x)) ids ->
  let Y := value (jet_of (exactly x)) ids X in
  int P Y /\ u2_m (exactly x) 1 = Ret (Ex P Y - real_of (u2_first_order_n x)) /\
  forall n, (2 <= n <= 4)%nat -> int P (fun o => (Y o - Ex P Y) ^ n) /\ u2_m (exactly x) (Z.of_nat n) = Ret (Ex P (fun o => (Y o - Ex P Y) ^ n)).
Proof. intros eig cs w L E v x P ids X M ND IND HM HI. apply (ex_moments x P ids X M); try assumption. eapply var_ok; eassumption. Qed.

Lemma C75_exact_covariance_proof : forall eig (cs : list (call2 DN)) w, legal2 cs -> run2 eig w2_init cs = Ret w ->
  forall v v', let x := w2_var w v in let y := w2_var w v' in
  forall (P : prob) (ids : list Z) (X : Z -> Om P -> R) (M : Z -> moms RN), NoDup ids ->
  independent P ids X (fun i => stdmom (M i)) -> (forall i, In i ids -> has_moments x i (M i) /\ has_moments y i (M i)) ->
  involves_only (jet_of (exactly x)) ids -> involves_only (jet_of (exactly y)) ids ->
  let A := value (jet_of (exactly x)) ids X in let B := value (jet_of (exactly y)) ids X in
  int P (fun o => (A o - Ex P A) * (B o - Ex P B)) /\
  u2_cov (exactly x) (exactly y) = Ret (Ex P (fun o => (A o - Ex P A) * (B o - Ex P B))).
Proof.
  intros eig cs w (F & T & C) E v v' x y P ids X M ND IND HM HIx HIy.
  destruct (gen_run2_init (N := DN) eq_refl eig cs F T C) as (env & w' & E' & [_ W] & _). rewrite E in E'. injection E' as <-.
  destruct (W v) as [OKx MOx]. destruct (W v') as [OKy MOy]. fold x in OKx, MOx. fold y in OKy, MOy.
  pose (env' := fun i => moms_convert (N := DN) (M := RN) real_of (env i)).
  assert (MO : forall z, hg_ok (u2hg z) -> (forall i d, In (i, d) (diagmap (u2hg z)) -> (1 <= i <= w2_last w)%Z /\ dmom d = Some (env i)) ->
    forall i d, In (i, d) (diagmap (u2hg (exactly z))) -> dmom d = Some (env' i)).
  { intros z OK MO i d H. unfold exactly in H. rewrite convert_cu in H by exact OK. unfold cu, chg in H. cbn [u2hg diagmap] in H.
    apply in_map_iff in H as ([k d'] & Ek & Hd). unfold ckd in Ek. cbn [fst snd] in Ek. injection Ek as <- <-. cbn [cd dmom].
    rewrite (proj2 (MO k d' Hd)). reflexivity. }
  assert (VE : forall z, hg_ok (u2hg z) -> (forall i d, In (i, d) (diagmap (u2hg z)) -> (1 <= i <= w2_last w)%Z /\ dmom d = Some (env i)) ->
    (forall i, In i ids -> has_moments z i (M i)) -> forall i, In i ids -> j_dep (jet_of (exactly z)) i -> forall k, (k <= 8)%nat -> stdmom (M i) k = stdmom (env' i) k).
  { intros z OK MOz HMz i Hi Hd k _. f_equal. cbn [jet_of j_dep] in Hd. unfold exactly in Hd. rewrite convert_cu in Hd by exact OK. unfold cu, chg in Hd. cbn [u2hg diagmap] in Hd.
    rewrite map_map in Hd. apply in_map_iff in Hd as ([k' d] & Ek & Hd). cbn in Ek. subst k'.
    assert (Hf := proj2 (mfind_Some_iff _ _ _ (proj1 OK)) Hd). symmetry. exact (HMz i Hi d _ Hf (proj2 (MOz i d Hd))). }
  apply (cov_ok (exactly x) (exactly y) env' (ex_ok x OKx) (ex_ok y OKy) (MO x OKx MOx) (MO y OKy MOy) P ids X _ ND IND).
  - apply (VE x OKx MOx). intros i Hi. exact (proj1 (HM i Hi)).
  - apply (VE y OKy MOy). intros i Hi. exact (proj2 (HM i Hi)).
  - now apply only_sup.
  - now apply only_sup.
Qed.

(** *** without overflow *)
Lemma leaf_of (d : double) : moderate d -> leaf (t_exact d).
Proof.
  intros (F & H). unfold leaf, sz. cbn. split; [exact F|]. rewrite Rmult_1_r, Rmult_1_l. assert (B : 0 < big) by apply pow2_pos.
  destruct H as [H|[H1 H2]].
  - rewrite H, Rabs_R0. split; [lra|]. split; [now left|]. split; [lra|lia].
  - split; [exact H2|]. split; [right; exact H1|]. split; [lra|lia].
Qed.
Lemma lift_leaf (x : ureal2 DN) : hg_ok (u2hg x) -> List.Forall moderate (numbers x) -> lhg (u2hg (lift x)).
Proof.
  intros OK H. rewrite Forall_forall in H. split; [now apply ok_chg|]. unfold lift, cu, chg. cbn [u2hg]. split.
  - intros k t Ht. cbn [trimap] in Ht. apply in_map_iff in Ht as ([k' d] & E & Hd). unfold ckt in E. cbn [fst snd] in E. injection E as _ <-.
    apply leaf_of, H, in_app_iff. right. apply in_map_iff. exists (k', d). now split.
  - intros k d Hd. cbn [diagmap] in Hd. apply in_map_iff in Hd as ([k' d'] & E & Hd). unfold ckd in E. cbn [fst snd] in E. injection E as _ <-.
    assert (Q : forall q, In q (dgrad d' :: dhh d' :: match dmom d' with Some p => [v3 p; v4 p; v5 p; v6 p; v7 p; v8 p] | None => [] end) -> leaf (t_exact q)).
    { intros q Hq. apply leaf_of, H, in_app_iff. left. apply in_flat_map. exists (k', d'). now split. }
    unfold cd. split; [apply Q; cbn; auto|]. split; [apply Q; cbn; auto|]. cbn [dmom]. intros p Ep. destruct (dmom d') as [q|]; [|discriminate].
    cbn in Ep. injection Ep as <-. cbn. repeat split; apply Q; cbn; auto 10.
Qed.
Lemma lift_len x : length (diagmap (u2hg (lift x))) = n_ids x.
Proof. unfold lift, cu, chg. cbn [u2hg diagmap]. now rewrite map_length. Qed.
Lemma fine_err (t : trk) k : fine t -> (tk t <= k)%nat -> (Z.of_nat k <= 2 ^ 44)%Z ->
  Rabs (tr t) <= ta t /\ Rabs (real_of (td t) - tr t) <= 4 * INR k * uround * ta t.
Proof.
  intros [F B] K Fk. destruct (t_ok t) as [A E]. specialize (E F). split; [lra|]. eapply Rle_trans; [exact E|].
  assert (T0 : 0 <= ta t) by (assert (Z := Rabs_pos (tr t)); lra).
  assert (P1 := pw_ge (tk t)). assert (P2 := pw_up _ _ K).
  assert (P3 : u1 ^ tk t * u1 ^ tk t <= 1 + 4 * INR k * uround).
  { eapply Rle_trans; [apply (Rmult_le_compat _ (u1 ^ k) _ (u1 ^ k)); lra|]. rewrite <- pow_add. eapply Rle_trans; [apply u1_pow; lia|]. rewrite plus_INR. lra. }
  assert (u1 ^ tk t * tb t <= u1 ^ tk t * u1 ^ tk t * ta t) by (rewrite Rmult_assoc; apply Rmult_le_compat_l; lra). nra.
Qed.
Lemma depth_few n i : (i <= 1024)%nat -> (1 <= n <= 4)%nat -> (Z.of_nat (depth n i) <= 2 ^ 44)%Z.
Proof.
  intros L Hn. assert (I2 : (i * i <= 1024 * 1024)%nat) by (apply Nat.mul_le_mono; exact L).
  assert (I3 : (Z.of_nat (i * i * i) <= 2 ^ 30)%Z) by (assert (i * i * i <= 1024 * 1024 * 1024)%nat; [apply Nat.mul_le_mono; assumption|]; nia).
  assert (I4 : (Z.of_nat (i * i * i * i) <= 2 ^ 40)%Z) by (rewrite Nat2Z.inj_mul; nia).
  assert (H : (n = 1 \/ n = 2 \/ n = 3 \/ n = 4)%nat) by lia. destruct H as [-> | [-> | [-> | ->]]]; unfold depth; lia.
Qed.
Lemma ord_m (x : ureal2 DN) n : hg_ok (u2hg x) -> ordinary x -> (1 <= n <= 4)%nat ->
  exists d r a, u2_m x (Z.of_nat n) = Ret d /\ finite d /\ u2_m (exactly x) (Z.of_nat n) = Ret r /\ u2_m (sized 0 x) (Z.of_nat n) = Ret a /\
    Rabs r <= a /\ Rabs (real_of d - r) <= 4 * INR (depth n (n_ids x)) * uround * a.
Proof.
  intros OK [H L] Hn. destruct (u2_m_ret (lift x) (Z.of_nat n)) as (t & Et); [now apply ok_chg|lia|].
  assert (Ed := m_map (N := TN) (M := DN) td td_ring (lift x) (Z.of_nat n)). assert (Er := m_map (N := TN) (M := RN) tr tr_ring (lift x) (Z.of_nat n)).
  assert (Ea := m_map (N := TN) (M := mag 0) ta ta_ring (lift x) (Z.of_nat n)). assert (Ek := m_map (N := TN) (M := roundings) tk tk_ring (lift x) (Z.of_nat n)).
  rewrite lift_td in Ed. rewrite lift_tr in Er. rewrite lift_ta in Ea. rewrite lift_tk in Ek.
  rewrite Et in Ed, Er, Ea, Ek. cbn [omap bind] in Ed, Er, Ea, Ek.
  assert (Fi : fine t) by (apply (f_u (lift x) n t); [now apply lift_leaf|now rewrite lift_len|exact Hn|exact Et]).
  exists (td t), (tr t), (ta t). unfold exactly, sized. rewrite !convert_cu by exact OK.
  split; [exact Ed|]. split; [exact (proj1 Fi)|]. split; [exact Er|]. split; [exact Ea|]. apply fine_err; [exact Fi| |now apply depth_few].
  assert (K := k_u (kc x) n (tk t) Hn (kc_zhg x OK) Ek). rewrite kc_len in K. exact K.
Qed.
Lemma ord_n (x : ureal2 DN) p : hg_ok (u2hg x) -> ordinary x -> moderate (u2mu x) ->
  exists d r a, u2_n p x = Ret d /\ finite d /\ u2_n p (exactly x) = Ret r /\ u2_n p (sized 0 x) = Ret a /\
    Rabs r <= a /\ Rabs (real_of d - r) <= 4 * INR (depth_mean (n_ids x)) * uround * a.
Proof.
  intros OK [H L] Hm. assert (Et : exists t, u2_n p (lift x) = Ret t).
  { unfold u2_n. destruct (u2_m_ret (lift x) 1) as (t & ->); [now apply ok_chg|lia|]. cbn [bind]. eauto. }
  destruct Et as (t & Et).
  assert (Ed := n_map (N := TN) (M := DN) td td_ring (lift x) p). assert (Er := n_map (N := TN) (M := RN) tr tr_ring (lift x) p).
  assert (Ea := n_map (N := TN) (M := mag 0) ta ta_ring (lift x) p). assert (Ek := n_map (N := TN) (M := roundings) tk tk_ring (lift x) p).
  rewrite lift_td in Ed. rewrite lift_tr in Er. rewrite lift_ta in Ea. rewrite lift_tk in Ek.
  rewrite Et in Ed, Er, Ea, Ek. cbn [omap bind] in Ed, Er, Ea, Ek.
  assert (Fi : fine t) by (apply (f_n (lift x) p t); [now apply lift_leaf|apply leaf_of, Hm|now rewrite lift_len|exact Et]).
  exists (td t), (tr t), (ta t). unfold exactly, sized. rewrite !convert_cu by exact OK.
  split; [exact Ed|]. split; [exact (proj1 Fi)|]. split; [exact Er|]. split; [exact Ea|]. apply fine_err; [exact Fi| |unfold depth_mean; lia].
  assert (K := k_n (kc x) p (tk t) (kc_zhg x OK) eq_refl Ek). rewrite kc_len in K. exact K.
Qed.
Lemma ord_cov (x y : ureal2 DN) : hg_ok (u2hg x) -> hg_ok (u2hg y) -> ordinary x -> ordinary y ->
  exists d r a, u2_cov x y = Ret d /\ finite d /\ u2_cov (exactly x) (exactly y) = Ret r /\ u2_cov (sized 0 x) (sized 0 y) = Ret a /\
    Rabs r <= a /\ Rabs (real_of d - r) <= 4 * INR (depth_cov (n_ids x) (n_ids y)) * uround * a.
Proof.
  intros OK OKy [H L] [Hy Ly]. destruct (u2_cov_ret (lift x) (lift y)) as (t & Et); [now apply ok_chg|now apply ok_chg|].
  assert (Ed := cov_map (N := TN) (M := DN) td td_ring (lift x) (lift y)). assert (Er := cov_map (N := TN) (M := RN) tr tr_ring (lift x) (lift y)).
  assert (Ea := cov_map (N := TN) (M := mag 0) ta ta_ring (lift x) (lift y)). assert (Ek := cov_map (N := TN) (M := roundings) tk tk_ring (lift x) (lift y)).
  rewrite !lift_td in Ed. rewrite !lift_tr in Er. rewrite !lift_ta in Ea. rewrite !lift_tk in Ek.
  rewrite Et in Ed, Er, Ea, Ek. cbn [omap bind] in Ed, Er, Ea, Ek.
  assert (Fi : fine t) by (apply (f_cov (lift x) (lift y) t); [now apply lift_leaf|now apply lift_leaf|now rewrite lift_len|now rewrite lift_len|exact Et]).
  exists (td t), (tr t), (ta t). unfold exactly, sized. rewrite !convert_cu by assumption.
  split; [exact Ed|]. split; [exact (proj1 Fi)|]. split; [exact Er|]. split; [exact Ea|]. apply fine_err; [exact Fi| |].
  - assert (K := k_cov (kc x) (kc y) (tk t) (kc_zhg x OK) (kc_zhg y OKy) Ek). rewrite !kc_len in K. exact K.
  - unfold depth_cov. set (i := n_ids x) in *. set (j := n_ids y) in *.
    assert (I1 : (i * i <= 1024 * 1024)%nat) by (apply Nat.mul_le_mono; assumption). assert (I2 : (j * j <= 1024 * 1024)%nat) by (apply Nat.mul_le_mono; assumption).
    assert (I3 : (i * j <= 1024 * 1024)%nat) by (apply Nat.mul_le_mono; assumption). lia.
Qed.
Lemma C75_no_overflow_proof : forall eig (cs : list (call2 DN)) w, legal2 cs -> run2 eig w2_init cs = Ret w ->
  forall v, let x := w2_var w v in ordinary x ->
  (forall n, (1 <= n <= 4)%nat -> exists d r a, u2_m x (Z.of_nat n) = Ret d /\ finite d /\ u2_m (exactly x) (Z.of_nat n) = Ret r /\ u2_m (sized 0 x) (Z.of_nat n) = Ret a /\
    Rabs r <= a /\ Rabs (real_of d - r) <= 4 * INR (depth n (n_ids x)) * uround * a) /\
  (forall p, moderate (u2_first_order_n x) -> exists d r a, u2_n p x = Ret d /\ finite d /\ u2_n p (exactly x) = Ret r /\ u2_n p (sized 0 x) = Ret a /\
    Rabs r <= a /\ Rabs (real_of d - r) <= 4 * INR (depth_mean (n_ids x)) * uround * a) /\
  (forall v', let y := w2_var w v' in ordinary y -> exists d r a, u2_cov x y = Ret d /\ finite d /\ u2_cov (exactly x) (exactly y) = Ret r /\ u2_cov (sized 0 x) (sized 0 y) = Ret a /\
    Rabs r <= a /\ Rabs (real_of d - r) <= 4 * INR (depth_cov (n_ids x) (n_ids y)) * uround * a).
Proof.
  intros eig cs w L E v x O. assert (V := var_ok eig cs w L E). split; [|split].
  - intros n Hn. apply ord_m; [apply V|exact O|exact Hn].
  - intros p Hp. apply ord_n; [apply V|exact O|exact Hp].
  - intros v' y Oy. apply ord_cov; [apply V|apply V|exact O|exact Oy].
Qed.

(** *** variables without second derivatives *)
Lemma mag0_mul (a b : R) : nmul (n := mag 0) a b = a * b.
Proof. cbn. destruct (Req_EM_T (a * b) 0); lra. Qed.
Section Lin.
  Context {N : Num}.
  Variable (inj : N -> R).
  Hypothesis I0 : inj n0 = 0.
  Hypothesis Iadd : forall a b, inj (nadd a b) = inj a + inj b.
  Hypothesis Imul : forall a b, inj (nmul a b) = inj a * inj b.
  Hypothesis Isub : forall a b, inj b = 0 -> inj (nsub a b) = inj a.
  Variable x : ureal2 N.
  Hypothesis OK : hg_ok (u2hg x).
  Hypothesis HD : forall k d, In (k, d) (diagmap (u2hg x)) -> inj (dhh d) = 0.
  Hypothesis HT : forall k v, In (k, v) (trimap (u2hg x)) -> inj v = 0.
  Let sq (l : list (Z * diag N)) : R := fold_right (fun kd s => inj (dgrad (snd kd)) * inj (dgrad (snd kd)) + s) 0 l.
  Lemma lin_m1 : inj (compute_m1 (u2hg x)) = 0.
  Proof.
    unfold compute_m1. assert (G : forall l m, (forall k d, In (k, d) l -> inj (dhh d) = 0) -> inj m = 0 ->
      inj (for_each (fun (kd : Z * diag N) m => nadd m (dhh (snd kd))) l m) = 0).
    { induction l as [|[k d] l IH]; intros m Hl Hm; [exact Hm|]. cbn [for_each fold_left]. apply IH; [intros k' d' H'; eapply Hl; right; exact H'|].
      rewrite Iadd, Hm. cbn [snd]. rewrite (Hl k d (or_introl eq_refl)). lra. }
    now apply G.
  Qed.
  Lemma lin_m2 m : u2_m x 2 = Ret m -> inj m = sq (diagmap (u2hg x)).
  Proof.
    intro E. destruct (u2_m_split x 2 m ltac:(lia) E) as (m2 & _ & E2 & ->). rewrite Isub by (rewrite Imul, lin_m1; ring).
    unfold compute_m2 in E2. destruct (read_entries (u2hg x) OK) as (ds & Ed & Fd). rewrite Ed in E2. cbn [bind] in E2.
    destruct (read_visits (u2hg x) false OK) as (ts0 & ts & E3 & E4 & Ft & E0). rewrite E3 in E2. cbn [bind] in E2. rewrite E4 in E2. injection E2 as <-.
    assert (A : forall l r, (forall k d, In (k, d) l -> inj (dhh d) = 0) -> Forall2 (fun a b => read_entry a = Ret b) l r ->
      forall m, inj (for_each (m2_A (N := N)) r m) = inj m + sq l).
    { intros l r Hl F. induction F as [|[k d] b l r Eb F IH]; intro m0; [cbn; lra|]. cbn [for_each fold_left]. change (fold_left (fun a b => ?f b a) r ?q) with (for_each f r q).
      rewrite IH by (intros k' d' H'; eapply Hl; right; exact H'). unfold read_entry, read_diag in Eb. cbn [fst snd] in Eb.
      destruct (dmom d) as [p|]; [|discriminate]. cbn [bind] in Eb. injection Eb as <-. unfold m2_A. cbn [snd G H M]. rewrite !Iadd, !Imul.
      rewrite (Hl k d (or_introl eq_refl)). unfold sq. cbn [fold_right snd]. ring. }
    assert (B : forall l, (forall t, In t l -> inj (H (diag1 t)) = 0 /\ inj (val t) = 0) -> forall m, inj (for_each (m2_B (N := N)) l m) = inj m).
    { induction l as [|t l IH]; intros Hl m0; [reflexivity|]. cbn [for_each fold_left]. change (fold_left (fun a b => ?f b a) l ?q) with (for_each f l q).
      rewrite IH by (intros t' H'; apply Hl; now right). unfold m2_B. rewrite !Iadd, !Imul, !Iadd, !Imul. destruct (Hl t (or_introl eq_refl)) as [-> ->]. ring. }
    unfold m2_loops. rewrite B, (A (diagmap (u2hg x))); [rewrite I0; lra|exact HD|exact Fd|].
    intros t Ht. assert (Q : List.Forall (fun v => inj (dhh (vd1 v)) = 0 /\ inj (vval v) = 0) ts0).
    { apply Forall_forall. intros v Hv. rewrite E0 in Hv. assert (Iv := tpairs_In _ _ _ Hv). split; [eapply HD, Iv|].
      clear - Hv HT I0. revert Hv. generalize (diagmap (u2hg x)). intro l. induction l as [|[i di] l IH]; cbn [tpairs]; intro Hv; [destruct Hv|].
      apply in_app_iff in Hv as [Hv|Hv]; [|auto]. apply in_map_iff in Hv as ([j dj] & <- & _). cbn [vval]. unfold mget.
      destruct (mfind _ _) as [q|] eqn:Eq; [|exact I0]. eapply HT, mfind_In, Eq. }
    assert (Q2 : List.Forall (fun t => inj (H (diag1 t)) = 0 /\ inj (val t) = 0) ts).
    { eapply F2_Forall; [|exact Q|exact Ft]. intros v q (Ha & Hb) Eq. unfold read_visit in Eq.
      destruct (read_diag (vd1 v)) as [d1| | |] eqn:D1; try discriminate. destruct (read_diag (vd2 v)) as [d2| | |] eqn:D2; try discriminate.
      injection Eq as <-. cbn [diag1 val]. split; [|exact Hb]. unfold read_diag in D1. destruct (dmom (vd1 v)); [|discriminate]. injection D1 as <-. exact Ha. }
    exact (proj1 (Forall_forall _ _) Q2 t Ht).
  Qed.
End Lin.

Lemma linear_both : forall eig (cs : list (call2 DN)) w, legal2 cs -> run2 eig w2_init cs = Ret w ->
  forall v, let x := w2_var w v in ordinary x -> (forall i j, j_h (jet_of (exactly x)) i j = 0) ->
  let r := fold_right (fun (kd : Z * diag DN) s => real_of (dgrad (snd kd)) ^ 2 + s) 0 (diagmap (u2hg x)) in
  u2_m (exactly x) 2 = Ret r /\ u2_m (sized 0 x) 2 = Ret r /\
  exists d, u2_m x 2 = Ret d /\ finite d /\ Rabs (real_of d - r) <= 4 * INR (depth 2 (n_ids x)) * uround * r.
Proof.
  intros eig cs w L E v x O Hj r. assert (OK := var_ok eig cs w L E v). fold x in OK.
  destruct (ord_m x 2 OK O ltac:(lia)) as (d & q & a & Ed & F & Eq & Ea & _ & B).
  assert (ZD : forall k e, In (k, e) (diagmap (u2hg x)) -> real_of (dhh e) = 0).
  { intros k e H. specialize (Hj k k). cbn [jet_of j_h] in Hj. rewrite Z.eqb_refl, ex_cu in Hj by exact OK. unfold cu, chg in Hj. cbn [u2hg diagmap] in Hj.
    assert (S' : msorted (map (ckd (N := DN) (M := RN) real_of) (diagmap (u2hg x)))) by (exact (proj1 (ok_chg (N := DN) (M := RN) real_of _ OK))).
    rewrite (proj2 (mfind_Some_iff k (cd (N := DN) (M := RN) real_of e) _ S')) in Hj; [exact Hj|].
    apply in_map_iff. exists (k, e). split; [reflexivity|exact H]. }
  assert (ZT : forall k e, In (k, e) (trimap (u2hg x)) -> real_of e = 0).
  { intros [i j] e H. assert (K := proj1 (proj2 (proj2 OK)) i j (in_map fst _ _ H)). specialize (Hj i j). cbn [jet_of j_h] in Hj.
    rewrite (proj2 (Z.eqb_neq i j)) in Hj by lia. rewrite Z.min_l, Z.max_r in Hj by lia. rewrite ex_cu in Hj by exact OK. unfold cu, chg in Hj. cbn [u2hg trimap] in Hj.
    assert (S' : msorted (map (ckt (N := DN) (M := RN) real_of) (trimap (u2hg x)))) by (exact (proj1 (proj2 (ok_chg (N := DN) (M := RN) real_of _ OK)))).
    match type of Hj with match ?m with _ => _ end = _ => assert (Hm : m = Some (real_of e)); [|rewrite Hm in Hj; exact Hj] end.
    apply (mfind_Some_iff _ _ _ S'). apply in_map_iff. exists ((i, j), e). split; [reflexivity|exact H]. }
  assert (Er : q = r).
  { assert (G := lin_m2 (N := RN) (fun q => q) eq_refl (fun a b => eq_refl) (fun a b => eq_refl) (fun a b Hb => ltac:(cbn in *; rewrite Hb; ring)) (exactly x) (ex_ok x OK)).
    rewrite G with (m := q); [| | |exact Eq].
    - rewrite ex_cu by exact OK. unfold cu, chg. cbn [u2hg diagmap]. unfold r. clear. induction (diagmap (u2hg x)) as [|[k e] l IH]; [reflexivity|].
      cbn [map fold_right]. rewrite IH. cbn. f_equal. ring.
    - rewrite ex_cu by exact OK. unfold cu, chg. cbn [u2hg diagmap]. intros k e H. apply in_map_iff in H as ([k' e'] & Ee & H). unfold ckd in Ee. injection Ee as <- <-. cbn. eapply ZD, H.
    - rewrite ex_cu by exact OK. unfold cu, chg. cbn [u2hg trimap]. intros k e H. apply in_map_iff in H as ([k' e'] & Ee & H). unfold ckt in Ee. injection Ee as <- <-. cbn. eapply ZT, H. }
  assert (OKm : hg_ok (u2hg (sized 0 x))) by (unfold sized; rewrite convert_cu by exact OK; now apply ok_chg).
  assert (Er' : a = r).
  { assert (G := lin_m2 (N := mag 0) (fun q => q) eq_refl (fun a b => eq_refl) mag0_mul (fun a b Hb => ltac:(cbn in *; rewrite Hb; ring)) (sized 0 x) OKm).
    rewrite G with (m := a); [| | |exact Ea].
    - unfold sized. rewrite convert_cu by exact OK. unfold cu, chg. cbn [u2hg diagmap]. unfold r. clear. induction (diagmap (u2hg x)) as [|[k e] l IH]; [reflexivity|].
      cbn [map fold_right]. rewrite IH. cbn. f_equal. rewrite Rmult_1_r, <- Rabs_mult. apply Rabs_pos_eq. nra.
    - unfold sized. rewrite convert_cu by exact OK. unfold cu, chg. cbn [u2hg diagmap]. intros k e H. apply in_map_iff in H as ([k' e'] & Ee & H). unfold ckd in Ee. injection Ee as <- <-. cbn. rewrite (ZD k' e' H). apply Rabs_R0.
    - unfold sized. rewrite convert_cu by exact OK. unfold cu, chg. cbn [u2hg trimap]. intros k e H. apply in_map_iff in H as ([k' e'] & Ee & H). unfold ckt in Ee. injection Ee as <- <-. cbn. rewrite (ZT k' e' H). apply Rabs_R0. }
  subst q a. split; [exact Eq|]. split; [exact Ea|]. exists d. split; [exact Ed|]. split; [exact F|exact B].
Qed.
Lemma C75_linear_variance_proof : forall eig (cs : list (call2 DN)) w, legal2 cs -> run2 eig w2_init cs = Ret w ->
  forall v, let x := w2_var w v in ordinary x -> (forall i j, j_h (jet_of (exactly x)) i j = 0) ->
  let r := fold_right (fun (kd : Z * diag DN) s => real_of (dgrad (snd kd)) ^ 2 + s) 0 (diagmap (u2hg x)) in
  u2_m (exactly x) 2 = Ret r /\
  exists d, u2_m x 2 = Ret d /\ finite d /\ Rabs (real_of d - r) <= 4 * INR (depth 2 (n_ids x)) * uround * r.
Proof.
  intros eig cs w L E v x O Hj r. destruct (linear_both eig cs w L E v O Hj) as (A & _ & B). split; [exact A|exact B].
Qed.
