(** * DistrProofs2: queries of the variables made by the distribution factories, and their acceptance *)

From Coq Require Import List ZArith Bool Reals Lra Lia.
From Coquelicot Require Import Coquelicot.
From Verif Require Import Base Num Map UReal Stat HessGrad Moments CheckMoments UReal2 World World2 Distr Sums SpecProb SpecHankel SpecDistr
  Integrals DensProb DistrProofs MomNew CheckProofs.
Import ListNotations.
Local Open Scope R_scope.

Lemma average_scal (f : R -> R) (Fa Fb : (R -> Prop) -> Prop) {FFa : ProperFilter Fa} {FFb : ProperFilter Fb} g h c m :
  (forall x, h x = c * g x) -> average f Fa Fb g m -> average f Fa Fb h (c * m).
Proof.
  intros E (t & Ht & It & Ig). exists t. split; [exact Ht|]. split; [exact It|].
  generalize (rint_scal c _ _ Ig). apply rint_ext; [|rr; ring]. intro x. rewrite E. rr. ring.
Qed.

Lemma new_std_out eig last (n s : R) (m : moms RN) l x : u2_new_std eig last (n : RN) (s : RN) m 0 = (l, Ret x) ->
  x = mkU2 (N := RN) (hg_diag l (fun _ => mkD (s : RN) n0 (Some m)) hg_empty) n /\ ~ s < 0.
Proof.
  unfold u2_new_std. change (nltb s n0) with (Rltb s 0). destruct (Rltb_spec s 0) as [H|H]; [discriminate|].
  destruct (if negb _ then _ else _) as [[]| | |]; try discriminate. intros [=<- <-]. auto.
Qed.
Lemma new_std_neg eig last (n s : R) (m : moms RN) : s < 0 -> u2_new_std eig last (n : RN) (s : RN) m 0 = (last, Throw InvalidArgument).
Proof. intro H. unfold u2_new_std. change (nltb s n0) with (Rltb s 0). destruct (Rltb_spec s 0); [reflexivity|contradiction]. Qed.

Lemma std_describes (f : R -> R) (Fa Fb : (R -> Prop) -> Prop) {FFa : ProperFilter Fa} {FFb : ProperFilter Fb} eig last (n s : R) (m : moms RN) l x : 0 < s ->
  average f Fa Fb (fun t => t) n ->
  (forall k, (k <= 8)%nat -> average f Fa Fb (fun t => ((t - n) / s) ^ k) (stdmom m k)) ->
  u2_new_std eig last (n : RN) (s : RN) m 0 = (l, Ret x) -> describes f Fa Fb n x.
Proof.
  intros Hs An A E. destruct (new_std_out _ _ _ _ _ _ _ E) as [-> _].
  assert (C : forall k, (k <= 8)%nat -> average f Fa Fb (fun t => (t - n) ^ k) (s ^ k * stdmom m k)).
  { intros k Hk. apply (average_scal f Fa Fb (fun t => ((t - n) / s) ^ k)); [|now apply A].
    intro t. rewrite <- Rpow_mult_distr. f_equal. field. lra. }
  destruct (fresh_moments l s m n) as (M1 & M2 & M3 & M4). destruct (fresh_stats l s m n Hs) as (S1 & S2 & S3).
  split; [exact An|]. split; [reflexivity|]. split; [intro p; apply fresh_n|]. split.
  - intros k Hk. exists (s ^ k * stdmom m k). split; [apply C; lia|].
    assert (k = 1%nat \/ k = 2%nat \/ k = 3%nat \/ k = 4%nat) as [->|[->|[->| ->]]] by lia; cbn [Z.of_nat Pos.of_succ_nat Pos.succ stdmom].
    + rewrite M1. refine (f_equal (@Ret R) _). ring.
    + rewrite M2. refine (f_equal (@Ret R) _). ring.
    + rewrite M3. refine (f_equal (@Ret R) _). ring.
    + rewrite M4. refine (f_equal (@Ret R) _). ring.
  - exists s, (v3 m), (v4 m). split; [exact Hs|]. split; [|split; [exact S1|split; [exact (A 3%nat ltac:(lia))|split; [exact S2|split; [exact (A 4%nat ltac:(lia))|exact S3]]]]].
    replace (s ^ 2) with (s ^ 2 * stdmom m 2) by (cbn; ring). apply C. lia.
Qed.

Lemma normal_mean mu sigma : 0 < sigma -> average (normal_density mu sigma) minus_infinity plus_infinity (fun t => t) mu.
Proof.
  intro Hs. destruct (normal_average mu sigma 1 Hs) as (t & Ht & It & I1). exists t. split; [exact Ht|]. split; [exact It|].
  generalize (rint_plus _ _ _ _ (rint_scal mu _ _ It) (rint_scal sigma _ _ I1)). apply rint_ext; [|rr; cbn; ring]. intro x. rr. field. lra.
Qed.

Lemma C37_queries_proof : forall eig last l x,
  (forall mu sigma : R, 0 < sigma -> d_normal (N := RN) eig last mu sigma = (l, Ret x) ->
     describes (normal_density mu sigma) minus_infinity plus_infinity mu x) /\
  (forall k : Z, (0 < k)%Z -> d_chisquare (N := RN) eig last k = (l, Ret x) ->
     describes (chisquare_density (IZR k)) zero_plus plus_infinity (IZR k) x) /\
  (forall left right : R, left < right -> d_uniform (N := RN) eig last left right = (l, Ret x) ->
     describes uniform_density (at_point left) (at_point right) ((left + right) / 2) x).
Proof.
  intros eig last l x. split; [|split].
  - intros mu sigma Hs E. destruct (C37_normal_proof mu sigma) as (m & Em & A). rewrite Em in E.
    apply (std_describes _ _ _ eig last mu sigma m l x Hs); auto. now apply normal_mean.
  - intros k Hk E. destruct (C37_chisquare_proof k) as (_ & _ & H). destruct (H Hk) as (m & Em & A1 & _ & A). cbv zeta in *. rewrite Em in E.
    apply (std_describes _ _ _ eig last (IZR k) (sqrt (2 * IZR k)) m l x); auto. apply sqrt_lt_R0. assert (0 < IZR k) by now apply (IZR_lt 0). lra.
  - intros left right H E. destruct (C37_uniform_proof left right) as (m & s & Em & _ & _ & A). destruct (A H) as (Hs & A1 & _ & A2). rewrite Em in E.
    apply (std_describes _ _ _ eig last ((left + right) / 2) s m l x); auto.
Qed.

Lemma C37_invalid_parameters_proof : forall eig last,
  (forall mu sigma : R, sigma < 0 -> d_normal (N := RN) eig last mu sigma = (last, Throw InvalidArgument)) /\
  (forall k : Z, (k < 0)%Z -> d_chisquare (N := RN) eig last k = (last, Throw InvalidArgument)) /\
  (forall left right : R, right < left -> d_uniform (N := RN) eig last left right = (last, Throw InvalidArgument)).
Proof.
  intros eig last. split; [|split].
  - intros mu sigma H. apply new_std_neg, H.
  - intros k H. apply C37_chisquare_proof, H.
  - intros left right H. destruct (C37_uniform_proof left right) as (m & s & Em & N & _). rewrite Em. apply new_std_neg, N, H.
Qed.

(** Zero width: a variable without spread; no degrees of freedom: a constant, which takes no identifier. *)
Lemma C37_degenerate_proof : forall eig last l x,
  (forall mu : R, d_normal (N := RN) eig last mu 0 = (l, Ret x) \/ d_uniform (N := RN) eig last mu mu = (l, Ret x) ->
     u2_first_order_n x = mu /\ (forall p, u2_n p x = Ret (mu : RN)) /\ u2_s x = Ret (0 : RN) /\
     forall k, (1 <= k <= 4)%nat -> u2_m x (Z.of_nat k) = Ret (0 : RN)) /\
  (d_chisquare (N := RN) eig last 0 = (l, Ret x) -> l = last /\ u2_isindep x = true /\ (forall p, u2_n p x = Ret (0 : RN)) /\
     forall k, (1 <= k <= 4)%nat -> u2_m x (Z.of_nat k) = Ret (0 : RN)).
Proof.
  intros eig last l x. split.
  - intros mu H.
    assert (exists m : moms RN, u2_new_std eig last (mu : RN) (0 : RN) m 0 = (l, Ret x)) as (m & E).
    { destruct H as [E|E].
      - destruct (C37_normal_proof mu 0) as (m & Em & _). rewrite Em in E. eauto.
      - destruct (C37_uniform_proof mu mu) as (m & s & Em & _ & Z & _). rewrite Em, (Z eq_refl) in E. exists m.
        replace ((mu + mu) / 2) with mu in E by field. exact E. }
    destruct (new_std_out _ _ _ _ _ _ _ E) as [-> _].
    destruct (fresh_moments l 0 m mu) as (M1 & M2 & M3 & M4).
    split; [reflexivity|]. split; [intro p; apply fresh_n|]. split.
    + unfold u2_s. rewrite M2. cbn [bind]. refine (f_equal (@Ret R) _). cbn [nsqrt RN]. replace (0 ^ 2) with 0 by ring. apply sqrt_0.
    + intros k Hk. assert (k = 1%nat \/ k = 2%nat \/ k = 3%nat \/ k = 4%nat) as [->|[->|[->| ->]]] by lia; cbn [Z.of_nat Pos.of_succ_nat Pos.succ];
        rewrite ?M1, ?M2, ?M3, ?M4; refine (f_equal (@Ret R) _); ring.
  - intros [=<- <-]. split; [reflexivity|]. split; [reflexivity|]. split; [intros [ ]; lazy -[Rplus Rmult IZR]; refine (f_equal (@Ret R) _); ring|].
    intros k Hk. assert (k = 1%nat \/ k = 2%nat \/ k = 3%nat \/ k = 4%nat) as [->|[->|[->| ->]]] by lia; lazy -[Rplus Rmult Rminus Ropp IZR];
      refine (f_equal (@Ret R) _); ring.
Qed.

(** ** C39 *)
Lemma dens_moments (f : R -> R) (Fa Fb : (R -> Prop) -> Prop) {FFa : ProperFilter Fa} {FFb : ProperFilter Fb} (n s : R) (m : moms RN) :
  filter_prod Fa Fb (fun ab => fst ab <= snd ab /\ forall x, fst ab < x < snd ab -> 0 <= f x) ->
  (forall k, (k <= 8)%nat -> average f Fa Fb (fun t => ((t - n) / s) ^ k) (stdmom m k)) ->
  psd (hmat (stdmom m)).
Proof.
  intros O A. destruct (A 0%nat ltac:(lia)) as (t & Ht & It & _).
  apply (moments_psd _ (dens_prob f t Ht It O) (fun x => (x - n) / s)). intros k Hk. apply dens_average. now apply A.
Qed.

Lemma std_accepted eig last (n s : R) (m : moms RN) : solver_correct eig -> psd (hmat (stdmom m)) -> 0 <= s ->
  exists x, u2_new_std eig last (n : RN) (s : RN) m 0 = (wrap32 (last + 1), Ret x).
Proof.
  intros SC P Hs. destruct (SC (stdmom m)) as (lam & EE & EV).
  set (w := mkW2 (mkW (N := RN) last (w_var w_init)) (fun _ => u2_default)).
  destruct (C31_threshold_zero_proof eig w 0%nat n s m (mkCM RN 0 m) lam Hs) as [T _]. destruct (T EE EV) as [_ [_ R]].
  specialize (R P). cbn [exec2] in R. change (w2_last w) with last in R. unfold u2_new_std in *.
  change (nltb s n0) with (Rltb s 0) in *. destruct (Rltb_spec s 0); [lra|].
  destruct (if negb _ then _ else _) as [[]| | |]; cbn [assign2 snd] in R; try discriminate R. eauto.
Qed.

Lemma normal_psd : psd (hmat (stdmom normal_moments)).
Proof.
  apply (dens_moments (normal_density 0 1) minus_infinity plus_infinity 0 1).
  - exists (fun a => a < 0) (fun b => 0 < b); [exists 0; auto|exists 0; auto|]. intros a b Ha Hb. cbn. split; [lra|]. intros x _. left. apply exp_pos.
  - intros k Hk. destruct (C37_normal_proof 0 1) as (m & Em & A).
    replace (stdmom normal_moments k) with (normal_mom k); [apply normal_average; lra|]. do 9 (destruct k as [|k]; [cbn; ring|]). lia.
Qed.
Lemma uniform_psd : psd (hmat (stdmom uniform_moments)).
Proof.
  destruct (uniform_std 0 1 ltac:(lra)) as [_ A]. apply (dens_moments uniform_density (at_point 0) (at_point 1) _ _ _) in A; [exact A|].
  exists (fun a => a = 0) (fun b => b = 1); [reflexivity|reflexivity|]. intros a b -> ->. cbn. split; [lra|]. intros x _. unfold uniform_density. lra.
Qed.
Lemma chisquare_psd k : (0 < k)%Z -> psd (hmat (stdmom (chisquare_moments k))).
Proof.
  intro Hk. assert (HK : 0 < IZR k) by now apply (IZR_lt 0).
  apply (dens_moments (chisquare_density (IZR k)) zero_plus plus_infinity (IZR k) (sqrt 2 * sqrt (IZR k))).
  - exists (fun x => 0 < x /\ x <= 1) (fun x => 1 < x); [apply filter_right_zero; lra|exists 1; auto|].
    intros a b Ha Hb. cbn. split; [lra|]. intros x _. left. apply chi_pos.
  - intros j Hj. rewrite chisquare_std by assumption. now apply chi_std.
Qed.

Lemma C39_valid_parameters_accepted_proof : forall eig last, solver_correct eig ->
  (forall mu sigma : R, 0 <= sigma -> exists x, d_normal (N := RN) eig last mu sigma = (wrap32 (last + 1), Ret x)) /\
  (forall k : Z, (0 < k)%Z -> exists x, d_chisquare (N := RN) eig last k = (wrap32 (last + 1), Ret x)) /\
  (exists x, d_chisquare (N := RN) eig last 0 = (last, Ret x)) /\
  (forall left right : R, left <= right -> exists x, d_uniform (N := RN) eig last left right = (wrap32 (last + 1), Ret x)).
Proof.
  intros eig last SC. split; [|split; [|split]].
  - intros mu sigma H. apply std_accepted; auto. apply normal_psd.
  - intros k H. unfold d_chisquare. replace (k <? 0)%Z with false by lia. replace (k =? 0)%Z with false by lia.
    apply std_accepted; auto; [now apply chisquare_psd|]. apply Rmult_le_pos; apply sqrt_pos.
  - eexists. reflexivity.
  - intros left right H. apply std_accepted; auto; [apply uniform_psd|]. apply Rmult_le_pos; [apply sqrt_pos|]. cbn [nsub RN]. lra.
Qed.
