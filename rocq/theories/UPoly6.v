(** * UPoly6: programs of +, - and * on UReal<double> against linear forms on the reals (C83) *)

From Coq Require Import List ZArith Bool Reals Lra Lia Psatz.
From Flocq Require Import Core BinarySingleNaN.
From Verif Require Import Base Num Map UReal World URealFacts Sums SpecLin SpecObs URealR URealProofs URealProofs2 SpecCast ConvProofs.
From Verif Require Import Ieee IeeeFacts SpecIeee IeeeProofs IeeeProofs2 IeeeProofs3 IeeeProofs4 IeeeCov IeeeCorr IeeeRel SpecMathIeee2 MathAcc6 IoAcc1 SpecAcc2 Track AccMom2 SpecAcc3 PolyAcc3
  SpecAcc4 SpecAcc5 UPoly UPoly2 UPoly3 UPoly4 UPoly5.
Import ListNotations.
Local Open Scope R_scope.

Lemma zero_rep eta v : zrep eta (w_var (w_init (N := sizes eta)) v) (s_var s_init v).
Proof. split; reflexivity. Qed.
Lemma u_bound cs : dlegal cs -> (0 + Z.of_nat (count_new cs) < maxid)%Z.
Proof. intros [_ C]. apply max_new_lt in C. lia. Qed.
Lemma size_rep eta cs (w : world (sizes eta)) : dlegal cs -> List.Forall upoly cs -> run w_init (map (sized_ucall eta) cs) = Ret w ->
  forall v, zrep eta (w_var w v) (s_var (size_run eta cs) v).
Proof. intros L P E. exact (proj2 (zrun eta cs P w_init w s_init wwf_init (u_bound cs L) eq_refl (zero_rep eta) E)). Qed.
Lemma exact_rep cs wr : dlegal cs -> List.Forall upoly cs -> run w_init (map exact_ucall cs) = Ret wr -> wrep wr (exact_run cs).
Proof.
  intros L P E. destruct (legal_sim _ (exact_legal cs L P)) as (w & E' & W & _). rewrite E in E'. injection E' as <-. exact W.
Qed.
Lemma rep_coef_on last (r : ureal RN) a i : rep last r a -> coef_on r i = l_coef a i.
Proof. intro H. rewrite <- (rep_coef _ _ _ H). apply coef_ufind. Qed.

Lemma inflate_wf eta last K (b : ureal (sizes eta)) : wf last b -> wf last (inflate1 eta K b).
Proof.
  intro W. assert (E := convert_sigma (N := sizes eta) (M := sizes eta) (fun a : R => (1 + uround) ^ K * a) b (wf_sorted _ _ W)). fold (inflate1 eta K b) in E.
  destruct W as [W1 W2 W3 W4 W5]. split.
  - intro H. rewrite E, (W1 H). reflexivity.
  - intro H. cbn. rewrite (W2 H). apply Rmult_0_r.
  - exact W3.
  - rewrite E. now apply msorted_mmap.
  - unfold ukeys. rewrite E, mmap_keys. exact W5.
Qed.
Lemma inflate_coef eta last K (b : ureal (sizes eta)) i : wf last b -> coef_on (inflate1 eta K b) i = (1 + uround) ^ K * coef_on b i.
Proof.
  intro W. assert (E := convert_sigma (N := sizes eta) (M := sizes eta) (fun a : R => (1 + uround) ^ K * a) b (wf_sorted _ _ W)). fold (inflate1 eta K b) in E.
  unfold coef_on. change (uid (inflate1 eta K b)) with (uid b). rewrite E. change (n0 (n := sizes eta)) with 0.
  destruct (0 <? uid b)%Z; [destruct (i =? uid b)%Z; [reflexivity|symmetry; apply Rmult_0_r]|]. destruct (uid b <? 0)%Z; [|symmetry; apply Rmult_0_r].
  unfold mget. rewrite mfind_mmap. destruct (mfind i (usigma b)); cbn [option_map]; [reflexivity|symmetry; apply Rmult_0_r].
Qed.
Lemma times_zero a b : times 0 a b = a * b.
Proof. unfold times. destruct (Req_EM_T (a * b) 0); [lra|ring]. Qed.
Lemma norm_ids last (x : ureal DN) (f : Z -> R) : wf last x -> (forall i, ~ In i (ids x) -> f i = 0) -> norm (ids x) f = sqrt (sum_ids last (fun i => f i * f i)).
Proof.
  intros W H. rewrite norm_rsum. f_equal. apply (rsum_support Z.eq_dec).
  - rewrite ids_ukeys. eapply wf_NoDup; eauto.
  - apply ids_NoDup.
  - intros i Hi Hn. rewrite ids_ukeys in Hi. apply (wf_bound _ _ W) in Hi. apply ids_In in Hi. contradiction.
  - intros i _ Hn. rewrite (H i Hn). ring.
Qed.

(** The runs and what the specifications say of them. *)
Lemma all_specs cs : dlegal cs -> List.Forall upoly cs ->
  exists (w : world DN) (wr : world RN) (wa : world (sizes 0)) (wb : world (sizes tiny)),
    run w_init cs = Ret w /\ run w_init (map exact_ucall cs) = Ret wr /\ run w_init (map (sized_ucall 0) cs) = Ret wa /\ run w_init (map (sized_ucall tiny) cs) = Ret wb /\
    wwf w /\ wwf wa /\ wwf wb /\ w_last w = s_last (exact_run cs) /\ w_last wa = w_last w /\ w_last wb = w_last w /\
    (forall v, rep (w_last w) (w_var wr v) (s_var (exact_run cs) v)) /\
    (forall v, zrep 0 (w_var wa v) (s_var (size_run 0 cs) v)) /\ (forall v, zrep tiny (w_var wb v) (s_var (size_run tiny cs) v)) /\
    (forall v i, In i (ids (w_var w v)) <-> l_dep (s_var (exact_run cs) v) i) /\
    (forall v i, ~ In i (ids (w_var w v)) -> coef_on (w_var wa v) i = 0 /\ coef_on (w_var wb v) i = 0 /\ coef_on (w_var wr v) i = 0).
Proof.
  intros L P. destruct (all_uruns cs L P) as (wP & w & wr & wa & wb & Ed & Er & Ea & Eb & [Ld Sd] & [Lr Sr] & [La Sa] & [Lb Sb] & WP & Wd & Wr & Wa & Wb & _).
  destruct (exact_rep cs wr L P Er) as (El & _ & Rp). assert (Eq : w_last wr = w_last w) by congruence. rewrite Eq in El, Rp.
  exists w, wr, wa, wb. repeat (split; [assumption|]). split; [congruence|]. split; [congruence|]. split; [exact Rp|].
  split; [now apply size_rep|]. split; [now apply size_rep|]. 
  assert (K : forall v i, ufind i (w_var w v) <> None <-> In i (ids (w_var w v))) by (intros v i; rewrite ids_ukeys; apply (ufind_keys i _ (w_last w)), Wd).
  split.
  - intros v i. rewrite <- K, <- (rep_find _ _ _ i (Rp v)). rewrite (proj2 (proj2 (Sd v)) i), (proj2 (proj2 (Sr v)) i). destruct (ufind i (w_var wP v)); cbn [option_map]; intuition congruence.
  - intros v i Hn. rewrite <- K in Hn. rewrite (proj2 (proj2 (Sd v)) i) in Hn. rewrite !coef_ufind, (proj2 (proj2 (Sa v)) i), (proj2 (proj2 (Sb v)) i), (proj2 (proj2 (Sr v)) i).
    destruct (ufind i (w_var wP v)); cbn [option_map] in *; [exfalso; apply Hn; discriminate|]. repeat split; reflexivity.
Qed.

Lemma C83_values_proof : forall cs, dlegal cs -> List.Forall upoly cs ->
  exists w, run w_init cs = Ret w /\ w_last w = s_last (exact_run cs) /\
  forall v, let x := w_var w v in let k := urounds cs v in
  let r := s_var (exact_run cs) v in let a := s_var (size_run 0 cs) v in let b := s_var (size_run tiny cs) v in
    (forall i, In i (ids x) <-> l_dep r i) /\
    (finite (u_n x) -> approximates (u_n x) (l_mean r) (l_mean a) (l_mean b) k) /\
    (forall i, finite (coef_on x i) -> approximates (coef_on x i) (l_coef r i) (l_coef a i) (l_coef b i) k).
Proof.
  intros cs L P. destruct (all_specs cs L P) as (w & wr & wa & wb & Ed & Er & Ea & Eb & _ & _ & _ & El & _ & _ & Rr & Ra & Rb & Dp & _).
  destruct (u83_values cs L P) as (w1 & wr1 & wa1 & wb1 & Ed1 & Er1 & Ea1 & Eb1 & _ & H).
  rewrite Ed in Ed1. rewrite Er in Er1. rewrite Ea in Ea1. rewrite Eb in Eb1. injection Ed1 as <-. injection Er1 as <-. injection Ea1 as <-. injection Eb1 as <-.
  exists w. split; [exact Ed|]. split; [exact El|]. intros v x k r a b. destruct (H v) as (_ & H1 & H2). split; [apply Dp|]. split.
  - unfold r, a, b. rewrite <- (rep_mean _ _ _ (Rr v)), <- (proj1 (Ra v)), <- (proj1 (Rb v)). exact H1.
  - intro i. unfold r, a, b. rewrite <- (rep_coef_on _ _ _ i (Rr v)), <- (proj2 (Ra v) i), <- (proj2 (Rb v) i). exact (H2 i).
Qed.
Lemma C83_covariances_proof : forall cs w, dlegal cs -> List.Forall upoly cs -> run w_init cs = Ret w ->
  forall u v, let x := w_var w u in let y := w_var w v in let last := s_last (exact_run cs) in
  let r := s_var (exact_run cs) in let a := s_var (size_run 0 cs) in let b := s_var (size_run tiny cs) in
  finite (u_cov x y) ->
  approximates (u_cov x y) (lin_cov last (r u) (r v)) (lin_cov last (a u) (a v)) (size_cov tiny last (urounds cs u) (urounds cs v) (b u) (b v))
    (S (Nat.min (length (coefs x)) (length (coefs y)))).
Proof.
  intros cs w L P Ed u v x y last r a b. destruct (all_specs cs L P) as (w1 & wr & wa & wb & Ed1 & Er & Ea & Eb & Wd & Wa & Wb & El & La & Lb & Rr & Ra & Rb & _).
  rewrite Ed in Ed1. injection Ed1 as <-.
  destruct (u83_covariances cs L P) as (w1 & wr1 & wa1 & wb1 & Ed1 & Er1 & Ea1 & Eb1 & H).
  rewrite Ed in Ed1. rewrite Er in Er1. rewrite Ea in Ea1. rewrite Eb in Eb1. injection Ed1 as <-. injection Er1 as <-. injection Ea1 as <-. injection Eb1 as <-.
  assert (Qr : u_cov (w_var wr u) (w_var wr v) = lin_cov last (r u) (r v)) by (unfold last; rewrite <- El; apply rep_cov; apply Rr).
  assert (Qa : u_cov (w_var wa u) (w_var wa v) = lin_cov last (a u) (a v)).
  { rewrite (zcov 0 (w_last wa)) by apply Wa. unfold last. rewrite La, El. unfold lin_cov, sum_ids. apply rsum_ext. intros i _. rewrite times_zero, (proj2 (Ra u)), (proj2 (Ra v)). reflexivity. }
  assert (Qb : u_cov (inflate1 tiny (urounds cs u) (w_var wb u)) (inflate1 tiny (urounds cs v) (w_var wb v)) = size_cov tiny last (urounds cs u) (urounds cs v) (b u) (b v)).
  { rewrite (zcov tiny (w_last wb)) by (apply inflate_wf, Wb). unfold last. rewrite Lb, El. unfold size_cov, sum_ids. apply rsum_ext. intros i _.
    rewrite !(inflate_coef tiny (w_last wb)) by apply Wb. rewrite (proj2 (Rb u)), (proj2 (Rb v)). reflexivity. }
  rewrite <- Qr, <- Qa, <- Qb. apply H.
Qed.
Lemma C83_deviation_proof : forall cs w, dlegal cs -> List.Forall upoly cs -> List.Forall (fun c => self_assign c = false) cs -> run w_init cs = Ret w ->
  forall v, let x := w_var w v in let last := s_last (exact_run cs) in let n := length (coefs x) in
  let r := s_var (exact_run cs) v in let e := size_error last (urounds cs v) (s_var (size_run 0 cs) v) (s_var (size_run tiny cs) v) in
  no_underflow (coefs x) -> sum_sq (coefs x) <= pow2 1020 ->
  finite (u_s x) /\ (1 - uround) ^ (n + 3) * (lin_sdev last r - e) <= real_of (u_s x) <= (1 + uround) ^ (n + 3) * (lin_sdev last r + e).
Proof.
  intros cs w L P NS Ed v x last n r e NU SM. destruct (all_specs cs L P) as (w1 & wr & wa & wb & Ed1 & Er & Ea & Eb & Wd & Wa & Wb & El & La & Lb & Rr & Ra & Rb & _ & Zr).
  rewrite Ed in Ed1. injection Ed1 as <-. assert (H := u83_deviation cs w wr wa wb L P NS Ed Er Ea Eb v NU SM). cbv zeta in H. fold x n in H.
  rewrite (rep_s _ _ _ (Rr v)), El in H. fold last r in H.
  rewrite (norm_ids (w_last w)) in H; [|apply Wd|intros i Hi; destruct (Zr v i Hi) as (-> & -> & _); ring].
  assert (E : sqrt (sum_ids (w_last w) (fun i => ((1 + uround) ^ urounds cs v * coef_on (w_var wb v) i - coef_on (w_var wa v) i) * ((1 + uround) ^ urounds cs v * coef_on (w_var wb v) i - coef_on (w_var wa v) i))) = e).
  { unfold e, size_error. rewrite El. f_equal. apply rsum_ext. intros i _. rewrite (proj2 (Ra v)), (proj2 (Rb v)). reflexivity. }
  rewrite E in H. exact H.
Qed.
Lemma C83_relative_proof : forall cs w, dlegal cs -> List.Forall upoly cs -> List.Forall (fun c => self_assign c = false) cs -> run w_init cs = Ret w ->
  forall v, let x := w_var w v in let n := length (coefs x) in let k := S (urounds cs v) in
  let r := s_var (exact_run cs) v in let s := lin_sdev (s_last (exact_run cs)) r in
  no_underflow (coefs x) -> sum_sq (coefs x) <= pow2 1020 ->
  (forall i, l_coef (s_var (size_run tiny cs) v) i <= (1 + uround) * Rabs (l_coef r i)) ->
  finite (u_s x) /\ (1 - uround) ^ (n + 3) * ((2 - (1 + uround) ^ k) * s) <= real_of (u_s x) <= (1 + uround) ^ (n + 3) * ((1 + uround) ^ k * s).
Proof.
  intros cs w L P NS Ed v x n k r s NU SM NC. destruct (all_specs cs L P) as (w1 & wr & wa & wb & Ed1 & Er & Ea & Eb & Wd & Wa & Wb & El & La & Lb & Rr & Ra & Rb & _ & Zr).
  rewrite Ed in Ed1. injection Ed1 as <-. assert (H := u83_relative cs w wr wb L P NS Ed Er Eb v NU SM). cbv zeta in H. fold x n k in H.
  rewrite (rep_s _ _ _ (Rr v)), El in H. fold r s in H. apply H. intros i _. rewrite (proj2 (Rb v) i), (rep_coef_on _ _ _ i (Rr v)). apply NC.
Qed.
