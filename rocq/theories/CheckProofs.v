(** * CheckProofs: the check of the moments by the constructors of UReal2 *)

From Coq Require Import List ZArith Bool Reals Lra Lia.
From Verif Require Import Base Num Map UReal World HessGrad Moments CheckMoments UReal2 World2 Sums URealR SpecProb SpecMom SpecHankel MomSpec.
Import ListNotations.
Local Open Scope R_scope.

Lemma hankel_std (m : moms RN) : hankel (moms_list m) = lower (stdmom m).
Proof. reflexivity. Qed.
Lemma hankel_cen (c : cmoms RN) : hankel (cmoms_list c) = lower (cenmom c).
Proof. reflexivity. Qed.

(** ** The scan of the eigenvalues *)
Ltac scan IH E := apply IH in E as (E1 & E2 & E3 & E4 & E5 & E6);
  split; [destruct E1 as [->|[E1 E1']]; (left; reflexivity) || (right; split; [cbn; tauto|lra])|];
  split; [lra|]; split; [intros b [<-|Hb] Hp; [lra|auto]|];
  split; [destruct E4 as [->|[E4 E4']]; (left; reflexivity) || (right; split; [cbn; tauto|lra])|];
  split; [lra|intros b [<-|Hb] Hp; [lra|auto]].
Lemma ham_fold (v : list R) : forall p q p' q' : R, fold_left (ham_step (N := RN)) v (p, q) = (p', q') ->
  (p' = p \/ In p' v /\ 0 <= p') /\ p <= p' /\ (forall a, In a v -> 0 <= a -> a <= p') /\
  (q' = q \/ In q' v /\ q' < 0) /\ q' <= q /\ (forall a, In a v -> a < 0 -> q' <= a).
Proof.
  induction v as [|a v IH]; intros p q p' q' E.
  - cbn in E. injection E as <- <-. cbn. repeat split; auto; try lra; tauto.
  - cbn [fold_left] in E. unfold ham_step at 2 in E. change (@nltb RN) with Rltb in E. change (@nleb RN) with Rleb in E. change (@n0 RN) with 0 in E.
    destruct (Rltb_spec a 0) as [A|A]; cbn [andb] in E.
    + destruct (Rltb_spec a q) as [B|B]; cbn [andb] in E.
      * scan IH E.
      * assert (C : Rleb 0 a = false) by (destruct (Rleb_spec 0 a); [lra|reflexivity]). rewrite C in E. cbn [andb] in E. scan IH E.
    + assert (C : Rleb 0 a = true) by (destruct (Rleb_spec 0 a); [reflexivity|lra]). rewrite C in E. cbn [andb] in E.
      destruct (Rltb_spec p a) as [B|B]; scan IH E.
Qed.

Section Eig.
  Variables (M : nat -> nat -> R) (v : list R).
  Hypothesis EV : eigenvalues M v.

  Lemma eig_form x : exists c : nat -> R, mform M x = rsum five (fun k => nth k v 0 * (c k * c k)) /\
    rsum five (fun k => c k * c k) = rsum five (fun i => x i * x i).
  Proof.
    destruct EV as (Hl & Q & H1 & H2 & H3). exists (fun k => rsum five (fun i => Q k i * x i)).
    assert (In5 : forall i, In i five -> (i < 5)%nat) by (intros i Hi; apply in_seq in Hi; lia).
    assert (X : forall j, (j < 5)%nat -> x j = rsum five (fun k => rsum five (fun i => Q k i * x i) * Q k j)).
    { intros j Hj. etransitivity.
      - instantiate (1 := rsum five (fun i => delta i j * x i)).
        rewrite (rsum_single Nat.eq_dec five _ j); [unfold delta; rewrite Nat.eqb_refl; ring|apply seq_NoDup|apply in_seq; lia|].
        intros i _ Hi. unfold delta. destruct (Nat.eqb_spec i j); [contradiction|ring].
      - rewrite (rsum_ext five (fun k => rsum five (fun i => Q k i * x i) * Q k j) (fun k => rsum five (fun i => Q k i * Q k j * x i))).
        + rewrite rsum_swap. apply rsum_ext. intros i Hi. rewrite <- H2 by auto. rewrite <- rsum_scal_r. reflexivity.
        + intros k _. rewrite <- rsum_scal_r. apply rsum_ext. intros; ring. }
    split.
    - unfold mform. transitivity (rsum five (fun i => x i * rsum five (fun k => rsum five (fun i => Q k i * x i) * (nth k v 0 * Q k i)))).
      + apply rsum_ext. intros i Hi. rewrite <- rsum_scal.
        transitivity (rsum five (fun j => x i * M i j * rsum five (fun k => rsum five (fun i => Q k i * x i) * Q k j))).
        { apply rsum_ext. intros j Hj. now rewrite <- X by auto. }
        transitivity (rsum five (fun j => rsum five (fun k => x i * rsum five (fun i => Q k i * x i) * (M i j * Q k j)))).
        { apply rsum_ext. intros j _. rewrite <- rsum_scal. apply rsum_ext. intros; ring. }
        rewrite rsum_swap. apply rsum_ext. intros k Hk. rewrite rsum_scal, H3 by auto. ring.
      + transitivity (rsum five (fun i => rsum five (fun k => x i * (rsum five (fun i => Q k i * x i) * (nth k v 0 * Q k i))))).
        { apply rsum_ext. intros i _. now rewrite rsum_scal. }
        rewrite rsum_swap. apply rsum_ext. intros k Hk.
        transitivity (rsum five (fun i => nth k v 0 * rsum five (fun i => Q k i * x i) * (Q k i * x i))); [apply rsum_ext; intros; ring|].
        rewrite rsum_scal. ring.
    - symmetry. transitivity (rsum five (fun i => x i * rsum five (fun k => rsum five (fun i => Q k i * x i) * Q k i))).
      { apply rsum_ext. intros i Hi. now rewrite <- X by auto. }
      transitivity (rsum five (fun i => rsum five (fun k => x i * (rsum five (fun i => Q k i * x i) * Q k i)))).
      { apply rsum_ext. intros i _. now rewrite rsum_scal. }
      rewrite rsum_swap. apply rsum_ext. intros k Hk.
      transitivity (rsum five (fun i => rsum five (fun i => Q k i * x i) * (Q k i * x i))); [apply rsum_ext; intros; ring|].
      now rewrite rsum_scal.
  Qed.

  Lemma eig_nth a : In a v -> exists k, (k < 5)%nat /\ nth k v 0 = a.
  Proof. intro H. destruct EV as [Hl _]. apply (In_nth v a 0) in H as (k & Hk & E). exists k. split; [lia|exact E]. Qed.
  Lemma nth_eig k : (k < 5)%nat -> In (nth k v 0) v.
  Proof. intro H. apply nth_In. destruct EV as [Hl _]. lia. Qed.

  Lemma eig_attained k : (k < 5)%nat -> exists x, mform M x = nth k v 0.
  Proof.
    intro Hk. destruct EV as (Hl & Q & H1 & H2 & H3). exists (Q k). unfold mform.
    transitivity (rsum five (fun i => nth k v 0 * (Q k i * Q k i))).
    - apply rsum_ext. intros i Hi. transitivity (rsum five (fun j => Q k i * (M i j * Q k j))); [apply rsum_ext; intros; ring|].
      rewrite rsum_scal, H3; [ring|exact Hk|]. apply in_seq in Hi. lia.
    - rewrite rsum_scal, H1 by assumption. unfold delta. rewrite Nat.eqb_refl. ring.
  Qed.
  Lemma psd_eig : psd M <-> forall a, In a v -> 0 <= a.
  Proof.
    split.
    - intros H a Ha. apply eig_nth in Ha as (k & Hk & <-). destruct (eig_attained k Hk) as [x <-]. apply H.
    - intros H x. destruct (eig_form x) as (c & -> & _). apply rsum_nonneg. intros k Hk. apply Rmult_le_pos; [|nra].
      apply H, nth_eig. apply in_seq in Hk. lia.
  Qed.
  Lemma eig_pos : M 0%nat 0%nat = 1 -> exists a, In a v /\ 0 < a.
  Proof.
    intro H0. destruct (eig_form (fun i => delta i 0)) as (c & E & _).
    assert (F : mform M (fun i => delta i 0) = 1) by (unfold mform, five, delta; cbn; rewrite H0; ring). rewrite F in E.
    destruct (Forall_Exists_dec (fun a => a <= 0) (fun a => Rle_dec a 0) v) as [A|A].
    - exfalso. rewrite Forall_forall in A.
      assert (rsum five (fun k => nth k v 0 * (c k * c k)) <= 0); [|lra].
      apply Rle_trans with (rsum five (fun _ => 0)); [|rewrite rsum_zero by auto; lra]. apply rsum_le. intros k Hk.
      assert (nth k v 0 <= 0) by (apply A, nth_eig; apply in_seq in Hk; lia).
      assert (0 <= c k * c k) by apply Rle_0_sqr. nra.
    - apply Exists_exists in A as (a & Ha & Hn). exists a. split; [exact Ha|lra].
  Qed.
End Eig.

Lemma moments_psd mu P Z : moments_of mu P Z -> psd (hmat mu).
Proof.
  intros H x. assert (E : int P (fun o => rsum five (fun i => rsum five (fun j => x i * x j * Z o ^ (i + j)))) /\
    Ex P (fun o => rsum five (fun i => rsum five (fun j => x i * x j * Z o ^ (i + j)))) = rsum five (fun i => rsum five (fun j => x i * x j * mu (i + j)%nat))).
  { apply (Ex_rsum P five (fun i o => rsum five (fun j => x i * x j * Z o ^ (i + j)))). intros i Hi.
    apply (Ex_rsum P five (fun j o => x i * x j * Z o ^ (i + j))). intros j Hj. apply in_seq in Hi, Hj.
    destruct (H (i + j)%nat ltac:(lia)) as [I E]. destruct (Ex_scal P (x i * x j) _ I) as [I' E']. split; [exact I'|]. now rewrite E', E. }
  destruct E as [I E]. unfold mform, hmat.
  rewrite (rsum_ext five _ (fun i => rsum five (fun j => x i * x j * mu (i + j)%nat))) by (intros; apply rsum_ext; intros; ring).
  rewrite <- E. apply Ex_pos; [exact I|]. intro o.
  replace (rsum five (fun i => rsum five (fun j => x i * x j * Z o ^ (i + j)))) with (rsum five (fun i => x i * Z o ^ i) * rsum five (fun i => x i * Z o ^ i)); [nra|].
  rewrite <- rsum_scal_r. apply rsum_ext. intros i _. rewrite <- rsum_scal. apply rsum_ext. intros j _. rewrite pow_add. ring.
Qed.

(** ** The outcome of the check *)
Definition ok_cond (thr : R) (v : list R) : Prop := forall lo hi, smallest lo v -> largest hi v -> - thr * hi <= lo.
Lemma check_out (eig : list (list RN) -> option (list RN)) l mu thr v : hankel l = lower mu -> mu 0%nat = 1 -> 0 <= thr ->
  eig (lower mu) = Some v -> eigenvalues (hmat mu) v ->
  (ok_cond thr v /\ check_moments_throw eig l thr = Ret tt) \/
  ((exists lo hi, smallest lo v /\ largest hi v /\ lo < - thr * hi) /\ check_moments_throw eig l thr = Throw InvalidArgument).
Proof.
  intros EH M0 HT EE EV. unfold check_moments_throw, check_moments, hamburger. rewrite EH, EE. cbn [assert_ bind].
  change (nleb n0 thr) with (Rleb 0 thr). destruct (Rleb_spec 0 thr) as [_|]; [|contradiction]. cbn [assert_ bind].
  destruct (fold_left ham_step v _) as [p q] eqn:E. apply ham_fold in E as (E1 & E2 & E3 & E4 & E5 & E6). cbn [bind nofZ RN] in *.
  destruct (eig_pos (hmat mu) v EV M0) as (a & Ha & Pa). assert (Q1 := E3 a Ha ltac:(lra)).
  destruct E1 as [->|[E1 _]]; [lra|].
  assert (LG : largest p v). { split; [exact E1|]. intros b Hb. destruct (Rle_dec 0 b); [auto|lra]. }
  change (@nltb RN) with Rltb. change (@n0 RN) with 0. destruct (Rltb_spec p 0); [lra|].
  destruct E4 as [->|[E4 Nq]].
  - left. destruct (Rltb_spec 0 1); [|lra]. split.
    + intros lo hi [Hlo _] [Hhi Hmax]. assert (A := Hmax a Ha). destruct (Rle_dec 0 lo); [nra|]. assert (B := E6 lo Hlo ltac:(lra)). lra.
    + cbn [nopp RN]. destruct (Rltb_spec 0 (-thr)); [lra|]. destruct (Rltb_spec 0 0); [lra|]. reflexivity.
  - destruct (Rltb_spec 0 q); [lra|]. cbn [nopp ndiv RN].
    assert (SM : smallest q v). { split; [exact E4|]. intros b Hb. destruct (Rle_dec 0 b); [lra|]. apply E6; [exact Hb|lra]. }
    assert (QN : q / p < 0) by (unfold Rdiv; assert (0 < / p) by (apply Rinv_0_lt_compat; lra); nra).
    destruct (Rltb_spec (q / p) (- thr)) as [C|C].
    + right. split; [|reflexivity]. exists q, p. split; [exact SM|]. split; [exact LG|].
      apply (Rmult_lt_compat_r p) in C; [|lra]. unfold Rdiv in C. rewrite Rmult_assoc, Rinv_l in C; lra.
    + left. split.
      * intros lo hi [Hlo Hmin] [Hhi Hmax]. assert (lo = q) by (apply Rle_antisym; [now apply Hmin|now apply SM]).
        assert (hi = p) by (apply Rle_antisym; [now apply LG|now apply Hmax]). subst.
        apply Rnot_lt_le in C. apply (Rmult_le_compat_r p) in C; [|lra]. unfold Rdiv in C. rewrite Rmult_assoc, Rinv_l in C; lra.
      * destruct (Rltb_spec 0 (q / p)); [lra|]. reflexivity.
Qed.

Lemma set_last_same (w : world2 RN) : set_last w (w2_last w) = w.
Proof. destruct w as [[l f] g]. reflexivity. Qed.

(** Both constructors run the check in the same way. *)
Lemma new_std_check eig (w : world2 RN) v n s m thr : 0 <= s -> 0 <= thr ->
  (check_moments_throw eig (moms_list m) (thr : RN) = Ret tt -> snd (exec2 eig w (ENewStd v (n : RN) (s : RN) m (thr : RN))) = Ret tt) /\
  (forall e, check_moments_throw eig (moms_list m) (thr : RN) = Throw e -> exec2 eig w (ENewStd v (n : RN) (s : RN) m (thr : RN)) = (w, Throw e)).
Proof.
  intros Hs Ht. cbn [exec2]. unfold u2_new_std. change (nltb s n0) with (Rltb s 0). change (nltb thr n0) with (Rltb thr 0).
  destruct (Rltb_spec s 0); [lra|]. destruct (Rltb_spec thr 0); [lra|]. cbn [negb]. split.
  - intros ->. reflexivity.
  - intros e ->. cbn [assign2]. now rewrite set_last_same.
Qed.
Lemma new_cen_check eig (w : world2 RN) v n c thr : 0 <= thr ->
  (check_moments_throw eig (cmoms_list c) (thr : RN) = Ret tt -> snd (exec2 eig w (ENew v (n : RN) c (thr : RN))) = Ret tt) /\
  (forall e, check_moments_throw eig (cmoms_list c) (thr : RN) = Throw e -> exec2 eig w (ENew v (n : RN) c (thr : RN)) = (w, Throw e)).
Proof.
  intros Ht. cbn [exec2]. unfold u2_new. change (nltb thr n0) with (Rltb thr 0).
  destruct (Rltb_spec thr 0); [lra|]. cbn [negb]. split.
  - intros ->. reflexivity.
  - intros e ->. cbn [assign2]. now rewrite set_last_same.
Qed.


Lemma C31_check_with_threshold_proof : forall eig (w : world2 RN) v (n s thr : R) (m : moms RN) (c : cmoms RN) lam,
  0 <= s -> 0 <= thr ->
  let bad := exists lo hi, smallest lo lam /\ largest hi lam /\ lo < - thr * hi in
  (eig (lower (stdmom m)) = Some lam -> eigenvalues (hmat (stdmom m)) lam ->
   let r := exec2 eig w (ENewStd v (n : RN) (s : RN) m (thr : RN)) in
   (bad -> r = (w, Throw InvalidArgument)) /\ (~ bad -> snd r = Ret tt)) /\
  (eig (lower (cenmom c)) = Some lam -> eigenvalues (hmat (cenmom c)) lam ->
   let r := exec2 eig w (ENew v (n : RN) c (thr : RN)) in
   (bad -> r = (w, Throw InvalidArgument)) /\ (~ bad -> snd r = Ret tt)).
Proof.
  intros eig w v n s thr m c lam Hs Ht bad.
  assert (OK : ok_cond thr lam -> ~ bad).
  { intros H (lo & hi & L & G & C). assert (A := H lo hi L G). lra. }
  split; intros EE EV r; unfold r.
  - destruct (new_std_check eig w v n s m thr Hs Ht) as [N1 N2].
    destruct (check_out eig (moms_list m) (stdmom m) thr lam (hankel_std m) eq_refl Ht EE EV) as [[A B]|[A B]].
    + split; [intro; now destruct (OK A)|]. intro. now apply N1.
    + split; [intro; now apply N2|]. intro. contradiction.
  - destruct (new_cen_check eig w v n c thr Ht) as [N1 N2].
    destruct (check_out eig (cmoms_list c) (cenmom c) thr lam (hankel_cen c) eq_refl Ht EE EV) as [[A B]|[A B]].
    + split; [intro; now destruct (OK A)|]. intro. now apply N1.
    + split; [intro; now apply N2|]. intro. contradiction.
Qed.

Lemma psd_bad mu lam : eigenvalues (hmat mu) lam -> psd (hmat mu) -> ~ (exists lo hi, smallest lo lam /\ largest hi lam /\ lo < - 0 * hi).
Proof. intros EV H (lo & hi & [Hlo _] & _ & C). assert (A := proj1 (psd_eig _ _ EV) H lo Hlo). lra. Qed.

Lemma C31_threshold_zero_proof : forall eig (w : world2 RN) v (n s : R) (m : moms RN) (c : cmoms RN) lam, 0 <= s ->
  (eig (lower (stdmom m)) = Some lam -> eigenvalues (hmat (stdmom m)) lam ->
   let r := exec2 eig w (ENewStd v (n : RN) (s : RN) m (0 : RN)) in
   (r = (w, Throw InvalidArgument) <-> ~ psd (hmat (stdmom m))) /\ (snd r = Ret tt <-> psd (hmat (stdmom m)))) /\
  (eig (lower (cenmom c)) = Some lam -> eigenvalues (hmat (cenmom c)) lam ->
   let r := exec2 eig w (ENew v (n : RN) c (0 : RN)) in
   (r = (w, Throw InvalidArgument) <-> ~ psd (hmat (cenmom c))) /\ (snd r = Ret tt <-> psd (hmat (cenmom c)))).
Proof.
  intros eig w v n s m c lam Hs.
  assert (K : forall (r : world2 RN * outcome unit) (bad : Prop) (ps : Prop), (bad -> r = (w, Throw InvalidArgument)) -> (~ bad -> snd r = Ret tt) ->
    (ps -> ~ bad) -> (bad \/ ps) -> (r = (w, Throw InvalidArgument) <-> ~ ps) /\ (snd r = Ret tt <-> ps)).
  { intros r bad ps H1 H2 H3 H4. split; split.
    - intros E P. apply H3, H2 in P. rewrite E in P. discriminate.
    - intro N. destruct H4 as [B|P]; [auto|contradiction].
    - intro E. destruct H4 as [B|P]; [|exact P]. apply H1 in B. rewrite B in E. discriminate.
    - auto. }
  assert (D : forall mu, mu 0%nat = 1 -> eigenvalues (hmat mu) lam -> (exists lo hi, smallest lo lam /\ largest hi lam /\ lo < - 0 * hi) \/ psd (hmat mu)).
  { intros mu M0 EV. destruct (Forall_Exists_dec (fun a => 0 <= a) (fun a => Rle_dec 0 a) lam) as [A|A].
    - right. apply (psd_eig _ _ EV). now apply Forall_forall.
    - left. assert (B : exists lo, smallest lo lam /\ exists hi, largest hi lam).
      { clear - A. apply Exists_exists in A as (a & Ha & _).
        assert (G : forall l : list R, l <> [] -> (exists lo, smallest lo l) /\ exists hi, largest hi l).
        { clear. induction l as [|a l IH]; [congruence|]. intros _. destruct l as [|b l].
          - split; exists a; (split; [now left|]); intros x [<-|[]]; lra.
          - destruct (IH ltac:(discriminate)) as [(lo & Hlo & Mlo) (hi & Hhi & Mhi)]. split.
            + destruct (Rle_dec a lo); [exists a|exists lo]; (split; [|intros x [<-|Hx]; [lra|]; assert (X := Mlo x Hx); lra]); [now left|now right].
            + destruct (Rle_dec hi a); [exists a|exists hi]; (split; [|intros x [<-|Hx]; [lra|]; assert (X := Mhi x Hx); lra]); [now left|now right]. }
        destruct (G lam) as [(lo & Hlo) (hi & Hhi)]; [intros ->; destruct Ha|]. exists lo. split; [exact Hlo|]. exists hi. exact Hhi. }
      destruct B as (lo & Hlo & hi & Hhi). exists lo, hi. split; [exact Hlo|]. split; [exact Hhi|].
      apply Exists_exists in A as (a & Ha & Na). assert (X := proj2 Hlo a Ha). lra. }
  destruct (C31_check_with_threshold_proof eig w v n s 0 m c lam Hs (Rle_refl 0)) as [T1 T2].
  split; intros EE EV r; unfold r.
  - destruct (T1 EE EV) as [A B]. apply (K _ _ _ A B); [intro P; exact (psd_bad _ _ EV P)|]. now apply D.
  - destruct (T2 EE EV) as [A B]. apply (K _ _ _ A B); [intro P; exact (psd_bad _ _ EV P)|]. now apply D.
Qed.

Lemma C31_distributions_accepted_proof : forall eig (w : world2 RN) v (n s thr : R) (m : moms RN) (c : cmoms RN) (P : prob) (Z : Om P -> R) lam,
  0 <= s -> 0 <= thr ->
  (eig (lower (stdmom m)) = Some lam -> eigenvalues (hmat (stdmom m)) lam -> moments_of (stdmom m) P Z ->
   snd (exec2 eig w (ENewStd v (n : RN) (s : RN) m (thr : RN))) = Ret tt) /\
  (eig (lower (cenmom c)) = Some lam -> eigenvalues (hmat (cenmom c)) lam -> moments_of (cenmom c) P Z ->
   snd (exec2 eig w (ENew v (n : RN) c (thr : RN))) = Ret tt).
Proof.
  intros eig w v n s thr m c P Z lam Hs Ht.
  assert (K : forall mu, mu 0%nat = 1 -> eigenvalues (hmat mu) lam -> moments_of mu P Z -> ~ (exists lo hi, smallest lo lam /\ largest hi lam /\ lo < - thr * hi)).
  { intros mu M0 EV MO (lo & hi & [Hlo _] & [_ Mhi] & C). apply moments_psd in MO.
    assert (A := proj1 (psd_eig _ _ EV) MO lo Hlo). destruct (eig_pos _ _ EV M0) as (a & Ha & Pa). assert (B := Mhi a Ha). nra. }
  destruct (C31_check_with_threshold_proof eig w v n s thr m c lam Hs Ht) as [T1 T2].
  split; intros EE EV MO; [apply (T1 EE EV), (K (stdmom m))|apply (T2 EE EV), (K (cenmom c))]; auto.
Qed.

Lemma C31_negative_threshold_proof : forall eig (w : world2 RN) v (n s thr : R) (m : moms RN) (c : cmoms RN), 0 <= s -> thr < 0 ->
  snd (exec2 eig w (ENewStd v (n : RN) (s : RN) m (thr : RN))) = Ret tt /\ snd (exec2 eig w (ENew v (n : RN) c (thr : RN))) = Ret tt.
Proof.
  intros eig w v n s thr m c Hs Ht. cbn [exec2]. unfold u2_new_std, u2_new.
  change (nltb s n0) with (Rltb s 0). change (nltb thr n0) with (Rltb thr 0).
  destruct (Rltb_spec s 0); [lra|]. destruct (Rltb_spec thr 0); [|lra]. cbn [negb assign2]. split; reflexivity.
Qed.

Lemma C31_failures_consume_nothing_proof : forall eig (w : world2 RN) v (n s thr : R) (m : moms RN) (c : cmoms RN),
  (s < 0 -> exec2 eig w (ENewStd v (n : RN) (s : RN) m (thr : RN)) = (w, Throw InvalidArgument)) /\
  (0 <= s -> 0 <= thr -> eig (lower (stdmom m)) = None -> exec2 eig w (ENewStd v (n : RN) (s : RN) m (thr : RN)) = (w, Throw RuntimeError)) /\
  (0 <= thr -> eig (lower (cenmom c)) = None -> exec2 eig w (ENew v (n : RN) c (thr : RN)) = (w, Throw RuntimeError)) /\
  forall k, (exists x y t q, k = ENewStd v x y t q) \/ (exists x t q, k = ENew v x t q) ->
    snd (exec2 eig w k) = Ret tt \/ fst (exec2 eig w k) = w.
Proof.
  intros eig w v n s thr m c. split; [|split; [|split]].
  - intro Hs. cbn [exec2]. unfold u2_new_std. change (nltb s n0) with (Rltb s 0). destruct (Rltb_spec s 0); [|lra].
    cbn [assign2]. now rewrite set_last_same.
  - intros Hs Ht E. apply (new_std_check eig w v n s m thr Hs Ht). unfold check_moments_throw, check_moments, hamburger.
    rewrite hankel_std, E. change (nleb n0 thr) with (Rleb 0 thr). destruct (Rleb_spec 0 thr); [|contradiction]. reflexivity.
  - intros Ht E. apply (new_cen_check eig w v n c thr Ht). unfold check_moments_throw, check_moments, hamburger.
    rewrite hankel_cen, E. change (nleb n0 thr) with (Rleb 0 thr). destruct (Rleb_spec 0 thr); [|contradiction]. reflexivity.
  - intros k [(x & y & t & q & ->)|(x & t & q & ->)]; cbn [exec2].
    + unfold u2_new_std. destruct (nltb y n0); [right; cbn [assign2 fst]; apply set_last_same|].
      destruct (if negb _ then _ else _) as [[]| | |]; cbn [assign2 fst snd]; auto; right; apply set_last_same.
    + unfold u2_new. destruct (if negb _ then _ else _) as [[]| | |]; cbn [assign2 fst snd]; auto; right; apply set_last_same.
Qed.

(** ** Accepted moments that no distribution has *)
Definition odd8 : moms RN := mkM 0 1 0 1 0 2.
Lemma odd8_psd : psd (hmat (stdmom odd8)).
Proof.
  intro x. unfold mform, hmat, five. cbn.
  assert (0 <= (x 0%nat + x 2%nat + x 4%nat) ^ 2 + (x 1%nat + x 3%nat) ^ 2 + x 4%nat ^ 2) by (assert (S := pow2_ge_0); assert (A := S (x 0%nat + x 2%nat + x 4%nat)); assert (B := S (x 1%nat + x 3%nat)); assert (C := S (x 4%nat)); lra).
  lra.
Qed.

Lemma C50_boundary_moments_refuted_proof : exists m : moms RN,
  (forall eig (w : world2 RN) v (n s : R) lam, 0 <= s ->
     eig (lower (stdmom m)) = Some lam -> eigenvalues (hmat (stdmom m)) lam ->
     snd (exec2 eig w (ENewStd v (n : RN) (s : RN) m (0 : RN))) = Ret tt) /\
  ~ exists pts : list (R * R), (forall p, In p pts -> 0 <= fst p) /\
      forall k, (k <= 8)%nat -> rsum pts (fun p => fst p * snd p ^ k) = stdmom m k.
Proof.
  exists odd8. split.
  - intros eig w v n s lam Hs EE EV.
    destruct (C31_threshold_zero_proof eig w v n s odd8 (mkCM RN (1 : RN) odd8) lam Hs) as [T _].
    apply (T EE EV). exact odd8_psd.
  - intros (pts & Pos & H).
    assert (Z0 : rsum pts (fun p => fst p * ((snd p ^ 2 - 1) * (snd p ^ 2 - 1))) = 0).
    { rewrite (rsum_ext pts _ (fun p => fst p * snd p ^ 4 - 2 * (fst p * snd p ^ 2) + fst p * snd p ^ 0)) by (intros; ring).
      rewrite rsum_plus, rsum_minus, rsum_scal, !H by lia. cbn. lra. }
    assert (Z1 : forall p, In p pts -> fst p * ((snd p ^ 2 - 1) * (snd p ^ 2 - 1)) = 0).
    { clear H. revert Pos Z0. induction pts as [|q pts IH]; intros Pos Z0 p Hp; [destruct Hp|]. cbn [rsum] in Z0.
      assert (A : 0 <= fst q * ((snd q ^ 2 - 1) * (snd q ^ 2 - 1))) by (apply Rmult_le_pos; [apply Pos; now left|apply Rle_0_sqr]).
      assert (B : 0 <= rsum pts (fun p => fst p * ((snd p ^ 2 - 1) * (snd p ^ 2 - 1)))).
      { apply rsum_nonneg. intros r Hr. apply Rmult_le_pos; [apply Pos; now right|apply Rle_0_sqr]. }
      destruct Hp as [<-|Hp]; [lra|]. apply IH; [intros; apply Pos; now right|lra|exact Hp]. }
    assert (Z2 : rsum pts (fun p => fst p * snd p ^ 8) = rsum pts (fun p => fst p * snd p ^ 0)).
    { apply rsum_ext. intros p Hp. assert (A := Z1 p Hp). apply Rmult_integral in A as [->|A]; [ring|].
      apply Rsqr_0_uniq in A. assert (E : snd p ^ 2 = 1) by lra. replace (snd p ^ 8) with ((snd p ^ 2) ^ 4) by ring. rewrite E. ring. }
    rewrite !H in Z2 by lia. cbn in Z2. lra.
Qed.
