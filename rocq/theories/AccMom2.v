(** * AccMom2: moments, means and covariances of UReal2 on doubles (C75) *)

From Coq Require Import List ZArith Bool Reals Lra Lia Psatz Sorted.
From Flocq Require Import Core BinarySingleNaN.
From Verif Require Import Base Num Map UReal World HessGrad Moments CheckMoments UReal2 World2 HessProofs U2Facts U2World U2Ret SpecObs SpecU2Run Sums SpecU2 SpecCast ConvProofs
  SpecProb SpecMom MomSpec MomProofs MomGiven Ieee SpecIeee SpecAcc2 Track AccMom.
Import ListNotations.
Local Open Scope R_scope.

Lemma ok_chg {N M : Num} (c : N -> M) h : hg_ok h -> hg_ok (chg c h).
Proof.
  intros (SD & ST & HK & HM). unfold chg. cbn [diagmap trimap].
  assert (E1 : map fst (map (ckd c) (diagmap h)) = map fst (diagmap h)) by (rewrite map_map; apply map_ext; reflexivity).
  assert (E2 : map fst (map (ckt c) (trimap h)) = map fst (trimap h)) by (rewrite map_map; apply map_ext; reflexivity).
  split; [unfold msorted in *; cbn [diagmap]; rewrite E1; exact SD|]. split; [unfold msorted in *; cbn [trimap]; rewrite E2; exact ST|].
  cbn [diagmap trimap]. split; [rewrite E1, E2; exact HK|].
  intros i x Hx. apply in_map_iff in Hx as ([k d] & E & Hd). unfold ckd in E. cbn [fst snd] in E. injection E as <- <-. cbn [cd dmom].
  specialize (HM k d Hd). destruct (dmom d); cbn; congruence.
Qed.
Definition kc (x : ureal2 DN) : ureal2 roundings := cu (N := DN) (M := roundings) (fun _ => 0%nat) x.
Lemma kc_zhg x : hg_ok (u2hg x) -> zhg (u2hg (kc x)).
Proof.
  intro OK. split; [now apply ok_chg|]. unfold kc, cu, chg. cbn [u2hg]. split.
  - intros k v Hv. cbn [trimap] in Hv. apply in_map_iff in Hv as ([k' d] & E & _). unfold ckt in E. congruence.
  - intros k d Hd. cbn [diagmap] in Hd. apply in_map_iff in Hd as ([k' d'] & E & _). unfold ckd in E. cbn [fst snd] in E. injection E as _ <-.
    unfold cd. split; [reflexivity|]. split; [reflexivity|]. cbn [dmom]. intros p Ep. destruct (dmom d') as [q|]; [|discriminate]. cbn in Ep. injection Ep as <-. reflexivity.
Qed.
Lemma kc_len x : length (diagmap (u2hg (kc x))) = n_ids x.
Proof. unfold kc, cu, chg. cbn [u2hg diagmap]. now rewrite map_length. Qed.

Lemma lift_td x : cu (N := TN) (M := DN) td (lift x) = x.
Proof. unfold lift. rewrite cu_comp. apply (cu_id (N := DN)). Qed.
Lemma lift_tr x : cu (N := TN) (M := RN) tr (lift x) = cu (N := DN) (M := RN) real_of x.
Proof. unfold lift. now rewrite cu_comp. Qed.
Lemma lift_ta x : cu (N := TN) (M := mag 0) ta (lift x) = cu (N := DN) (M := mag 0) (fun d : double => Rabs (real_of d)) x.
Proof. unfold lift. now rewrite cu_comp. Qed.
Lemma lift_tb x : cu (N := TN) (M := mag tiny) tb (lift x) = cu (N := DN) (M := mag tiny) (fun d : double => Rabs (real_of d)) x.
Proof. unfold lift. now rewrite cu_comp. Qed.
Lemma lift_tk x : cu (N := TN) (M := roundings) tk (lift x) = kc x.
Proof. unfold lift. now rewrite cu_comp. Qed.

(** More roundings allow for a larger error. *)
Lemma approx_of (t : trk) k : (tk t <= k)%nat -> finite (td t) -> approximates (td t) (tr t) (ta t) (tb t) k.
Proof.
  intros L F. destruct (t_ok t) as [A E]. specialize (E F). split; [exact A|]. eapply Rle_trans; [exact E|].
  assert (P := pw_up _ _ L). assert (0 <= tb t) by (assert (Z := Rabs_pos (tr t)); lra). nra.
Qed.

Lemma var_ok eig (cs : list (call2 DN)) w : legal2 cs -> run2 eig w2_init cs = Ret w -> forall v, hg_ok (u2hg (w2_var w v)).
Proof.
  intros (F & T & C) E v. destruct (gen_run2_init (N := DN) eq_refl eig cs F T C) as (env & w' & E' & [_ W] & _).
  rewrite E in E'. injection E' as <-. destruct (W v) as [OK _]. exact OK.
Qed.


Lemma acc_m (x : ureal2 DN) n : hg_ok (u2hg x) -> (1 <= n <= 4)%nat ->
  exists d, u2_m x (Z.of_nat n) = Ret d /\ (finite d -> exists r a b,
    u2_m (exactly x) (Z.of_nat n) = Ret r /\ u2_m (sized 0 x) (Z.of_nat n) = Ret a /\ u2_m (sized tiny x) (Z.of_nat n) = Ret b /\
    approximates d r a b (depth n (n_ids x))).
Proof.
  intros OK Hn. destruct (u2_m_ret (lift x) (Z.of_nat n)) as (t & Et); [now apply ok_chg|lia|].
  assert (Ed := m_map (N := TN) (M := DN) td td_ring (lift x) (Z.of_nat n)). assert (Er := m_map (N := TN) (M := RN) tr tr_ring (lift x) (Z.of_nat n)).
  assert (Ea := m_map (N := TN) (M := mag 0) ta ta_ring (lift x) (Z.of_nat n)). assert (Eb := m_map (N := TN) (M := mag tiny) tb tb_ring (lift x) (Z.of_nat n)). assert (Ek := m_map (N := TN) (M := roundings) tk tk_ring (lift x) (Z.of_nat n)).
  rewrite lift_td in Ed. rewrite lift_tr in Er. rewrite lift_ta in Ea. rewrite lift_tb in Eb. rewrite lift_tk in Ek.
  rewrite Et in Ed, Er, Ea, Eb, Ek. cbn [omap bind] in Ed, Er, Ea, Eb, Ek.
  exists (td t). split; [exact Ed|]. intro F. exists (tr t), (ta t), (tb t). unfold exactly, sized. rewrite !convert_cu by exact OK.
  split; [exact Er|]. split; [exact Ea|]. split; [exact Eb|]. apply approx_of; [|exact F].
  assert (K := k_u (kc x) n (tk t) Hn (kc_zhg x OK) Ek). rewrite kc_len in K. exact K.
Qed.
Lemma acc_n (x : ureal2 DN) p : hg_ok (u2hg x) ->
  exists d, u2_n p x = Ret d /\ (finite d -> exists r a b,
    u2_n p (exactly x) = Ret r /\ u2_n p (sized 0 x) = Ret a /\ u2_n p (sized tiny x) = Ret b /\
    approximates d r a b (depth_mean (n_ids x))).
Proof.
  intros OK. assert (Et : exists t, u2_n p (lift x) = Ret t).
  { unfold u2_n. destruct (u2_m_ret (lift x) 1) as (t & ->); [now apply ok_chg|lia|]. cbn [bind]. eauto. }
  destruct Et as (t & Et).
  assert (Ed := n_map (N := TN) (M := DN) td td_ring (lift x) p). assert (Er := n_map (N := TN) (M := RN) tr tr_ring (lift x) p).
  assert (Ea := n_map (N := TN) (M := mag 0) ta ta_ring (lift x) p). assert (Eb := n_map (N := TN) (M := mag tiny) tb tb_ring (lift x) p). assert (Ek := n_map (N := TN) (M := roundings) tk tk_ring (lift x) p).
  rewrite lift_td in Ed. rewrite lift_tr in Er. rewrite lift_ta in Ea. rewrite lift_tb in Eb. rewrite lift_tk in Ek.
  rewrite Et in Ed, Er, Ea, Eb, Ek. cbn [omap bind] in Ed, Er, Ea, Eb, Ek.
  exists (td t). split; [exact Ed|]. intro F. exists (tr t), (ta t), (tb t). unfold exactly, sized. rewrite !convert_cu by exact OK.
  split; [exact Er|]. split; [exact Ea|]. split; [exact Eb|]. apply approx_of; [|exact F].
  assert (K := k_n (kc x) p (tk t) (kc_zhg x OK) eq_refl Ek). rewrite kc_len in K. exact K.
Qed.
Lemma acc_cov (x y : ureal2 DN) : hg_ok (u2hg x) -> hg_ok (u2hg y) ->
  exists d, u2_cov x y = Ret d /\ (finite d -> exists r a b,
    u2_cov (exactly x) (exactly y) = Ret r /\ u2_cov (sized 0 x) (sized 0 y) = Ret a /\ u2_cov (sized tiny x) (sized tiny y) = Ret b /\
    approximates d r a b (depth_cov (n_ids x) (n_ids y))).
Proof.
  intros OK OKy. destruct (u2_cov_ret (lift x) (lift y)) as (t & Et); [now apply ok_chg|now apply ok_chg|].
  assert (Ed := cov_map (N := TN) (M := DN) td td_ring (lift x) (lift y)). assert (Er := cov_map (N := TN) (M := RN) tr tr_ring (lift x) (lift y)).
  assert (Ea := cov_map (N := TN) (M := mag 0) ta ta_ring (lift x) (lift y)). assert (Eb := cov_map (N := TN) (M := mag tiny) tb tb_ring (lift x) (lift y)). assert (Ek := cov_map (N := TN) (M := roundings) tk tk_ring (lift x) (lift y)).
  rewrite !lift_td in Ed. rewrite !lift_tr in Er. rewrite !lift_ta in Ea. rewrite !lift_tb in Eb. rewrite !lift_tk in Ek.
  rewrite Et in Ed, Er, Ea, Eb, Ek. cbn [omap bind] in Ed, Er, Ea, Eb, Ek.
  exists (td t). split; [exact Ed|]. intro F. exists (tr t), (ta t), (tb t). unfold exactly, sized. rewrite !convert_cu by assumption.
  split; [exact Er|]. split; [exact Ea|]. split; [exact Eb|]. apply approx_of; [|exact F].
  assert (K := k_cov (kc x) (kc y) (tk t) (kc_zhg x OK) (kc_zhg y OKy) Ek). rewrite !kc_len in K. exact K.
Qed.

(** ** The exact value is the moment of the stored polynomial *)
Section Prob.
  Variables (x : ureal2 DN) (P : prob) (ids : list Z) (X : Z -> Om P -> R) (M : Z -> moms RN).
  Hypothesis OK : hg_ok (u2hg x).
  Hypothesis ND : NoDup ids.
  Hypothesis IND : independent P ids X (fun i => stdmom (M i)).
  Hypothesis HM : forall i, In i ids -> has_moments x i (M i).
  Hypothesis HI : involves_only (jet_of (exactly x)) ids.
  (** moments of the stored entries *)
  Definition env_of (i : Z) : moms RN :=
    match mfind i (diagmap (u2hg x)) with
    | Some d => match dmom d with Some p => moms_convert (N := DN) (M := RN) real_of p | None => mkM (N := RN) 0 0 0 0 0 0 end
    | None => mkM (N := RN) 0 0 0 0 0 0
    end.
  Lemma ex_cu : exactly x = cu (N := DN) (M := RN) real_of x. Proof. unfold exactly. now apply convert_cu. Qed.
  Lemma ex_ok : hg_ok (u2hg (exactly x)). Proof. rewrite ex_cu. now apply ok_chg. Qed.
  Lemma ex_mo i d : In (i, d) (diagmap (u2hg (exactly x))) -> dmom d = Some (env_of i).
  Proof.
    rewrite ex_cu. unfold cu, chg. cbn [u2hg diagmap]. intro H. apply in_map_iff in H as ([k d'] & E & Hd). unfold ckd in E. cbn [fst snd] in E. injection E as <- <-.
    unfold env_of. rewrite (proj2 (mfind_Some_iff _ _ _ (proj1 OK)) Hd). destruct OK as (_ & _ & _ & HN). specialize (HN k d' Hd).
    cbn [cd dmom]. destruct (dmom d'); [reflexivity|congruence].
  Qed.
  Lemma ex_ve i : In i ids -> j_dep (jet_of (exactly x)) i -> forall k, (k <= 8)%nat -> stdmom (M i) k = stdmom (env_of i) k.
  Proof.
    intros Hi Hd k _. f_equal. cbn [jet_of j_dep] in Hd. rewrite ex_cu in Hd. unfold cu, chg in Hd. cbn [u2hg diagmap] in Hd.
    rewrite map_map in Hd. apply in_map_iff in Hd as ([k' d] & E & Hd). cbn in E. subst k'.
    assert (Hf := proj2 (mfind_Some_iff _ _ _ (proj1 OK)) Hd). unfold env_of. rewrite Hf. destruct OK as (_ & _ & _ & HN). specialize (HN i d Hd).
    destruct (dmom d) as [p|] eqn:Ep; [|congruence]. symmetry. exact (HM i Hi d p Hf Ep).
  Qed.
  Lemma ex_moments : let Y := value (jet_of (exactly x)) ids X in
    int P Y /\ u2_m (exactly x) 1 = Ret (Ex P Y - real_of (u2_first_order_n x)) /\
    forall n, (2 <= n <= 4)%nat -> int P (fun o => (Y o - Ex P Y) ^ n) /\ u2_m (exactly x) (Z.of_nat n) = Ret (Ex P (fun o => (Y o - Ex P Y) ^ n)).
  Proof.
    intro Y. assert (SUP := only_sup (exactly x) ids HI).
    assert (MO' : forall i d, In (i, d) (diagmap (u2hg (exactly x))) -> dmom d = Some (env_of i)) by (intros; now apply ex_mo).
    split; [exact (proj1 (exY (exactly x) env_of P ids X _ ex_ok ND IND ex_ve SUP))|].
    split; [exact (u2_m1 (exactly x) env_of P ids X _ ex_ok MO' ND IND ex_ve SUP)|].
    intros n Hn. split; [exact (proj1 (central (exactly x) env_of P ids X _ ex_ok ND IND ex_ve SUP n (proj2 Hn)))|].
    exact (u2_mc (exactly x) env_of P ids X _ ex_ok MO' ND IND ex_ve SUP n Hn).
  Qed.
End Prob.
