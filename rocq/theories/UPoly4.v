(** * UPoly4: standard deviations of programs of +, - and * on UReal<double> (C83) *)

From Coq Require Import List ZArith Bool Reals Lra Lia Psatz.
From Coquelicot Require Import Coquelicot.
From Flocq Require Import Core BinarySingleNaN.
From Verif Require Import Base Num Map UReal World URealFacts Sums SpecLin SpecObs URealR URealProofs URealProofs2 SpecCast ConvProofs.
From Verif Require Import Ieee IeeeFacts SpecIeee IeeeProofs IeeeProofs2 IeeeProofs3 IeeeProofs4 IeeeCov IeeeCorr IeeeRel SpecMathIeee2 MathAcc6 IoAcc1 SpecAcc2 Track AccMom2 SpecAcc3 PolyAcc3 SpecAcc4 UPoly UPoly2 UPoly3.
Import ListNotations.
Local Open Scope R_scope.

Lemma exact_legal cs : dlegal cs -> List.Forall upoly cs -> legal (map exact_ucall cs).
Proof.
  intros [_ C] P. split; [|split].
  - apply Forall_forall. intros k Hk. apply in_map_iff in Hk as (k' & <- & _). apply nary_ucall.
  - generalize s_init. clear C. induction P as [|k cs Pk Ps IH]; intro s; [exact I|]. cbn [map divisions_ok]. split; [|apply IH]. destruct k; try contradiction; exact I.
  - assert (E : count_new (map exact_ucall cs) = count_new cs); [|now rewrite E]. clear C. unfold count_new. induction P as [|k cs Pk Ps IH]; [reflexivity|]. cbn [map filter].
    unfold exact_ucall at 1. rewrite new_ucall by exact Pk. destruct (is_new k); cbn [length]; now rewrite IH.
Qed.
Lemma norm_rsum l f : norm l f = sqrt (rsum l (fun i => f i * f i)).
Proof. unfold norm. f_equal. induction l as [|i l IH]; [reflexivity|]. cbn [fold_right rsum]. now rewrite IH. Qed.
Lemma exact_dev last (r : ureal RN) : wf last r -> cache_ok r -> u_s r = norm (ukeys r) (coef_on r).
Proof.
  intros W Ca. rewrite (s_sum last r W Ca), norm_rsum. f_equal.
  assert (E : forall i, coef_on r i = URealR.coef r i) by (intro i; apply coef_ufind).
  rewrite <- (sum_keys last r) by (auto; intros i ->; ring). apply rsum_ext. intros i _. now rewrite E.
Qed.
Lemma stored_dev last (x : ureal DN) : wf last x -> sum_sq (coefs x) = norm (ids x) (fun i => real_of (coef_on x i)) * norm (ids x) (fun i => real_of (coef_on x i)).
Proof.
  intro W. rewrite (sum_sq_ids last x W), <- norm_sq.
  assert (E : norm (ids x) (coef x) = norm (ids x) (fun i => real_of (coef_on x i))).
  { apply norm_ext. intros i _. unfold coef. rewrite coef_ufind. change (stored x i) with (ufind i x). destruct (ufind i x); reflexivity. }
  now rewrite E.
Qed.
Lemma pow_ge_sq a n : 1 <= a -> a ^ n <= a ^ n * a ^ n.
Proof. intro H. assert (Q := pow_R1_Rle a n H). nra. Qed.
Lemma coef_in (x : ureal DN) last i : wf last x -> no_underflow (coefs x) -> In i (ids x) -> finite (coef_on x i).
Proof.
  intros W NU Hi. rewrite ids_ukeys in Hi. apply (ufind_keys i x last W) in Hi. rewrite coef_ufind. destruct (ufind i x) as [a|] eqn:E; [|contradiction].
  apply (proj1 (proj1 (Forall_forall _ _) NU a ltac:(
    unfold ufind in E; unfold coefs; destruct (0 <? uid x)%Z; [destruct (i =? uid x)%Z; [injection E as <-; now left|discriminate]|];
    destruct (uid x <? 0)%Z; [apply mfind_In in E; exact (in_map snd _ _ E)|discriminate]))).
Qed.

Section Dev.
  Variables (cs : list (call DN)) (w : world DN) (wr : world RN) (wa : world (sizes 0)) (wb : world (sizes tiny)).
  Hypothesis (L : dlegal cs) (P : List.Forall upoly cs) (NS : List.Forall (fun c => self_assign c = false) cs).
  Hypothesis (Ed : run w_init cs = Ret w) (Er : run w_init (map exact_ucall cs) = Ret wr)
    (Ea : run w_init (map (sized_ucall 0) cs) = Ret wa) (Eb : run w_init (map (sized_ucall tiny) cs) = Ret wb).
  Lemma dev_core v : let x := w_var w v in let r := w_var wr v in let a := w_var wa v in let b := w_var wb v in
    no_underflow (coefs x) -> sum_sq (coefs x) <= pow2 1020 ->
    u_s r = norm (ids x) (coef_on r) /\
    (forall i, In i (ids x) -> Rabs (coef_on r i) <= coef_on a i <= coef_on b i /\ Rabs (real_of (coef_on x i) - coef_on r i) <= (1 + uround) ^ urounds cs v * coef_on b i - coef_on a i) /\
    let E := norm (ids x) (fun i => (1 + uround) ^ urounds cs v * coef_on b i - coef_on a i) in
    let n := length (coefs x) in
    finite (u_s x) /\ (1 - uround) ^ (n + 3) * (u_s r - E) <= real_of (u_s x) <= (1 + uround) ^ (n + 3) * (u_s r + E).
  Proof.
    intros x r a b NU SM. destruct (all_uruns cs L P) as (wP & w1 & wr1 & wa1 & wb1 & Ed1 & Er1 & Ea1 & Eb1 & [Ld Sd] & [Lr Sr] & [_ Sa] & [_ Sb] & WP & Wd & Wr & Wa & Wb & Kk).
    rewrite Ed in Ed1. rewrite Er in Er1. rewrite Ea in Ea1. rewrite Eb in Eb1. injection Ed1 as <-. injection Er1 as <-. injection Ea1 as <-. injection Eb1 as <-.
    specialize (Sd v). specialize (Sr v). specialize (Sa v). specialize (Sb v). specialize (Kk v). assert (Wx := proj2 Wd v). assert (Wrv := proj2 Wr v).
    fold x in Sd, Wx. fold r in Sr, Wrv. fold a in Sa. fold b in Sb.
    assert (Ids : ukeys r = ids x).
    { assert (L1 := same_like _ _ _ _ _ (proj2 WP v) Wx Sd). assert (L2 := same_like _ _ _ _ _ (proj2 WP v) Wrv Sr). destruct L1 as (A1 & _ & C1), L2 as (A2 & _ & C2). cbn [cw uid usigma] in A1, C1, A2, C2.
      rewrite ids_ukeys. unfold ukeys. rewrite <- A1, <- A2, <- C1, <- C2. now rewrite !mmap_keys. }
    assert (Ca : cache_ok r).
    { destruct (reachable_rep wr) as (last & g & _ & Rp); [exists (map exact_ucall cs); split; [now apply exact_legal|exact Er]|]. exact (rep_cache _ _ _ (Rp v)). }
    assert (Dr : u_s r = norm (ids x) (coef_on r)) by (rewrite <- Ids; exact (exact_dev _ r Wrv Ca)).
    assert (Ap : forall i, In i (ids x) -> Rabs (coef_on r i) <= coef_on a i <= coef_on b i /\ Rabs (real_of (coef_on x i) - coef_on r i) <= (1 + uround) ^ urounds cs v * coef_on b i - coef_on a i).
    { intros i Hi. assert (F := coef_in x _ i Wx NU Hi).
      rewrite (coef_same (N := WN) (M := DN) td wd_ring _ _ i Sd), (coef_same (N := WN) (M := RN) tr wr_ring _ _ i Sr), (coef_same (N := WN) (M := sizes 0) ta wa_ring _ _ i Sa), (coef_same (N := WN) (M := sizes tiny) tb wb_ring _ _ i Sb).
      rewrite (coef_same (N := WN) (M := DN) td wd_ring _ _ i Sd) in F. exact (approx_of _ _ (kc1_coef _ _ i Kk) F). }
    split; [exact Dr|]. split; [exact Ap|]. intros E n.
    destruct (C57_accuracy_proof cs w L NS Ed v NU SM) as (Fs & _ & [B1 B2] & _). fold x n in Fs, B1, B2. split; [exact Fs|].
    rewrite (stored_dev _ x Wx) in B1, B2. set (D := norm (ids x) (fun i => real_of (coef_on x i))) in *. assert (D0 : 0 <= D) by apply norm_pos.
    assert (Df : Rabs (D - u_s r) <= E).
    { rewrite Dr. unfold D. eapply Rle_trans; [apply norm_diff|]. unfold E. apply norm_mono. intros i Hi. destruct (Ap i Hi) as [_ H]. eapply Rle_trans; [exact H|]. apply Rle_abs. }
    apply Rabs_le_inv in Df. assert (Sn := s_nonneg x Fs). set (s := real_of (u_s x)) in *. clearbody s D E. clear Ap.
    assert (U := u1_ge). assert (Up : 0 < uround < 1) by (unfold uround; split; [apply pow2_pos|apply Rle_lt_trans with (pow2 (-1)); [apply pow2_le; lia|unfold pow2; cbn; lra]]).
    set (q := (n + 3)%nat) in *. assert (Q1 := pow_ge_sq (1 + uround) q U). assert (Q1p := pow_R1_Rle (1 + uround) q U).
    assert (Q2p : 0 < (1 - uround) ^ q) by (apply pow_lt; lra). 
    assert (Q2m : (1 - uround) ^ q <= 1 ^ q) by (apply pow_incr; lra). rewrite pow1 in Q2m.
    split.
    - apply Rle_trans with ((1 - uround) ^ q * D); [apply Rmult_le_compat_l; lra|]. apply Rsqr_incr_0_var; [|exact Sn]. unfold Rsqr. eapply Rle_trans; [|exact B1].
      replace ((1 - uround) ^ q * D * ((1 - uround) ^ q * D)) with ((1 - uround) ^ q * ((1 - uround) ^ q * (D * D))) by ring.
      rewrite <- (Rmult_1_l ((1 - uround) ^ q * (D * D))) at 2. apply Rmult_le_compat_r; [|exact Q2m]. apply Rmult_le_pos; [lra|nra].
    - apply Rle_trans with ((1 + uround) ^ q * D); [|apply Rmult_le_compat_l; lra]. apply Rsqr_incr_0_var; [|apply Rmult_le_pos; lra]. unfold Rsqr. eapply Rle_trans; [exact B2|].
      replace ((1 + uround) ^ q * D * ((1 + uround) ^ q * D)) with ((1 + uround) ^ q * (1 + uround) ^ q * (D * D)) by ring. apply Rmult_le_compat_r; [nra|exact Q1].
  Qed.
  Lemma dev_relative v : let x := w_var w v in let r := w_var wr v in let b := w_var wb v in
    no_underflow (coefs x) -> sum_sq (coefs x) <= pow2 1020 ->
    (forall i, In i (ids x) -> coef_on b i <= (1 + uround) * Rabs (coef_on r i)) ->
    let n := length (coefs x) in let k := S (urounds cs v) in
    finite (u_s x) /\ (1 - uround) ^ (n + 3) * ((2 - (1 + uround) ^ k) * u_s r) <= real_of (u_s x) <= (1 + uround) ^ (n + 3) * ((1 + uround) ^ k * u_s r).
  Proof.
    intros x r b NU SM NC n k. destruct (dev_core v NU SM) as (Dr & Ap & Fs & B1 & B2). fold x r b n in Dr, Ap, Fs, B1, B2. split; [exact Fs|].
    set (E := norm (ids x) (fun i => (1 + uround) ^ urounds cs v * coef_on b i - coef_on (w_var wa v) i)) in *.
    assert (U := u1_ge). assert (Kp : 1 <= (1 + uround) ^ k) by (apply pow_R1_Rle; exact U).
    assert (Kq : 1 <= (1 + uround) ^ urounds cs v) by (apply pow_R1_Rle; exact U).
    assert (Be : E <= ((1 + uround) ^ k - 1) * u_s r).
    { rewrite Dr, <- norm_scal by lra. apply norm_mono. intros i Hi. destruct (Ap i Hi) as [[A1 A2] A3]. specialize (NC i Hi).
      assert (Z := Rabs_pos (real_of (coef_on x i) - coef_on r i)). assert (Z2 := Rabs_pos (coef_on r i)).
      rewrite (Rabs_pos_eq ((1 + uround) ^ urounds cs v * _ - _)) by lra. rewrite Rabs_mult, (Rabs_pos_eq ((1 + uround) ^ k - 1)) by lra. unfold k. cbn [pow].
      assert (M : (1 + uround) ^ urounds cs v * coef_on b i <= (1 + uround) ^ urounds cs v * ((1 + uround) * Rabs (coef_on r i))) by (apply Rmult_le_compat_l; [lra|exact NC]).
      lra. }
    assert (Up : 0 < uround < 1) by (unfold uround; split; [apply pow2_pos|apply Rle_lt_trans with (pow2 (-1)); [apply pow2_le; lia|unfold pow2; cbn; lra]]).
    assert (Q1 : 0 < (1 + uround) ^ (n + 3)) by (apply pow_lt; lra). assert (Q2 : 0 < (1 - uround) ^ (n + 3)) by (apply pow_lt; lra).
    split.
    - eapply Rle_trans; [|exact B1]. apply Rmult_le_compat_l; lra.
    - eapply Rle_trans; [exact B2|]. apply Rmult_le_compat_l; lra.
  Qed.
End Dev.

Lemma u83_deviation : forall cs w wr wa wb, dlegal cs -> List.Forall upoly cs -> List.Forall (fun c => self_assign c = false) cs ->
  run w_init cs = Ret w -> run w_init (map exact_ucall cs) = Ret wr -> run w_init (map (sized_ucall 0) cs) = Ret wa -> run w_init (map (sized_ucall tiny) cs) = Ret wb ->
  forall v, let x := w_var w v in let r := w_var wr v in let a := w_var wa v in let b := w_var wb v in
  no_underflow (coefs x) -> sum_sq (coefs x) <= pow2 1020 ->
  let e := norm (ids x) (fun i => (1 + uround) ^ urounds cs v * coef_on b i - coef_on a i) in let n := length (coefs x) in
  finite (u_s x) /\ (1 - uround) ^ (n + 3) * (u_s r - e) <= real_of (u_s x) <= (1 + uround) ^ (n + 3) * (u_s r + e).
Proof.
  intros cs w wr wa wb L P NS Ed Er Ea Eb v x r a b NU SM. exact (proj2 (proj2 (dev_core cs w wr wa wb L P NS Ed Er Ea Eb v NU SM))).
Qed.
Lemma u83_relative : forall cs w wr wb, dlegal cs -> List.Forall upoly cs -> List.Forall (fun c => self_assign c = false) cs ->
  run w_init cs = Ret w -> run w_init (map exact_ucall cs) = Ret wr -> run w_init (map (sized_ucall tiny) cs) = Ret wb ->
  forall v, let x := w_var w v in let r := w_var wr v in let b := w_var wb v in
  no_underflow (coefs x) -> sum_sq (coefs x) <= pow2 1020 ->
  (forall i, In i (ids x) -> coef_on b i <= (1 + uround) * Rabs (coef_on r i)) ->
  let n := length (coefs x) in let k := S (urounds cs v) in
  finite (u_s x) /\
  (1 - uround) ^ (n + 3) * ((2 - (1 + uround) ^ k) * u_s r) <= real_of (u_s x) <= (1 + uround) ^ (n + 3) * ((1 + uround) ^ k * u_s r).
Proof.
  intros cs w wr wb L P NS Ed Er Eb v x r b NU SM NC. destruct (u83_values cs L P) as (_ & _ & wa & _ & _ & _ & Ea & _).
  exact (dev_relative cs w wr wa wb L P NS Ed Er Ea Eb v NU SM NC).
Qed.
