(** * DistrAcc: the distributions of distr.hpp on doubles (C77) *)

From Coq Require Import List ZArith Reals Bool Lra Lia Psatz.
From Coquelicot Require Import Coquelicot.
From Flocq Require Import Core BinarySingleNaN.
From Verif Require Import Base Num Map UReal World HessGrad CheckMoments UReal2 Distr SpecObs Ieee IeeeFacts SpecIeee IeeeProofs3 IeeeProofs4
  IeeeCov SpecProb SpecDistr Integrals DensProb DistrProofs DistrProofs2 SpecMathIeee SpecDistrIeee IeeeRel MathAcc2 IoAcc1.
Import ListNotations.
Local Open Scope R_scope.

(** ** Sums, products, quotients and square roots of positive numbers of moderate size *)
Definition nb (k : nat) (lo hi : Z) (a : double) (r : R) : Prop := near ur k a r /\ rng lo hi r.
Lemma ur_ok : ur <= ur <= pow2 (-20). Proof. split; [lra|apply pow2_le; lia]. Qed.
Lemma nb_int z lo hi : rng lo hi (IZR z) -> (Z.abs z <= 2 ^ 53)%Z -> nb 0 lo hi (dofZ z) (IZR z).
Proof. intros R0 H. destruct (dofZ_exact z H) as [F E]. split; [|exact R0]. rewrite <- E. now apply near_exact. Qed.
Lemma nb_mul k l l1 h1 l2 h2 a b r s : (k + l <= 900)%nat -> (-1000 <= l1 + l2)%Z -> (h1 + h2 <= 1000)%Z ->
  nb k l1 h1 a r -> nb l l2 h2 b s -> nb (S (k + l)) (l1 + l2) (h1 + h2) (dmul a b) (r * s).
Proof.
  intros K L H [A A'] [B B']. assert (M := rng_mul _ _ _ _ _ _ A' B'). split; [|exact M].
  apply (near_mul ur ur_ok); [lia|exact A|exact B|]. apply (rng_regular (l1 + l2) (h1 + h2)); [lia|lia|exact M].
Qed.
Lemma nb_div k l l1 h1 l2 h2 a b r s : (k + l <= 900)%nat -> (-1000 <= l1 - h2)%Z -> (h1 - l2 <= 1000)%Z ->
  nb k l1 h1 a r -> nb l l2 h2 b s -> nb (S (k + l)) (l1 - h2) (h1 - l2) (ddiv a b) (r / s).
Proof.
  intros K L H [A A'] [B B']. assert (M : rng (l1 - h2) (h1 - l2) (r / s)) by exact (rng_mul _ _ _ _ _ _ A' (rng_inv _ _ _ B')).
  split; [|exact M]. assert (P := rng_pos _ _ _ B').
  apply (near_div ur ur_ok); [lia|exact A|exact B|lra|]. apply (rng_regular (l1 - h2) (h1 - l2)); [lia|lia|exact M].
Qed.
Lemma nb_add k l lo h1 l2 h2 a b r s : (k + l <= 900)%nat -> (h1 <= 1000)%Z -> (h2 <= 1000)%Z ->
  nb k lo h1 a r -> nb l l2 h2 b s -> nb (S (Nat.max k l)) (Z.max lo l2) (Z.max h1 h2 + 1) (dadd a b) (r + s).
Proof.
  intros K H1 H2 [A A'] [B B']. assert (P := rng_pos _ _ _ A'). assert (Q := rng_pos _ _ _ B').
  assert (M : rng (Z.max lo l2) (Z.max h1 h2 + 1) (r + s)).
  { destruct A' as [A1 A2], B' as [B1 B2]. split.
    - destruct (Z.max_spec lo l2) as [[_ ->]|[_ ->]]; lra.
    - rewrite pow2_add. change (pow2 1) with 2. assert (T1 := pow2_le h1 (Z.max h1 h2) ltac:(lia)). assert (T2 := pow2_le h2 (Z.max h1 h2) ltac:(lia)). lra. }
  split; [|exact M]. apply (near_add ur ur_ok); [lia| | |lra|lra|].
  - apply (near_weaken ur ur_ok k); [lia|exact A].
  - apply (near_weaken ur ur_ok l); [lia|exact B].
  - eapply Rle_trans; [exact (proj2 M)|]. apply pow2_le. lia.
Qed.
Lemma nb_sqrt k lo hi a r : (k <= 900)%nat -> (-1000 <= lo)%Z -> (hi <= 1000)%Z ->
  nb k (lo + lo) (hi + hi) a r -> nb (S k) lo hi (dsqrt a) (sqrt r).
Proof.
  intros K L H [A A']. assert (M := rng_sqrt _ _ _ A'). split; [|exact M]. assert (P := rng_pos _ _ _ A').
  apply (near_sqrt ur ur_ok); [lia|lra|exact A|]. apply (rng_regular lo hi); [lia|lia|exact M].
Qed.
Lemma nb_close k lo hi a r e : (k <= 500)%nat -> (INR k + 1) * ur <= e -> nb k lo hi a r -> close e a r.
Proof.
  intros K E [A M]. destruct (close_near ur ur_ok k a r K A) as [F B]. split; [exact F|]. eapply Rle_trans; [exact B|].
  apply Rmult_le_compat_r; [apply Rabs_pos|exact E].
Qed.

(** ** The chi-square distribution *)
Lemma nb_lit z : (1 <= z <= 65536)%Z -> nb 0 0 16 (dofZ z) (IZR z).
Proof.
  intro H. apply nb_int; [|lia]. split; [change (pow2 0) with (IZR 1)|change (pow2 16) with (IZR 65536)]; apply IZR_le; lia.
Qed.
Lemma nb_k k : (0 < k < 2 ^ 31)%Z -> nb 0 0 32 (dofZ k) (IZR k).
Proof.
  intro H. apply nb_int; [|lia]. split; [change (pow2 0) with (IZR 1)|change (pow2 32) with (IZR (2 ^ 32))]; apply IZR_le; lia.
Qed.
Lemma nb_sqrt2 : nb 1 0 1 (dsqrt (dofZ 2)) (sqrt 2).
Proof.
  apply nb_sqrt; [lia|lia|lia|]. apply nb_int; [|lia]. split; [change (pow2 (0 + 0)) with 1|change (pow2 (1 + 1)) with 4]; lra.
Qed.
Lemma nb_sqrtK k : (0 < k < 2 ^ 31)%Z -> nb 1 0 16 (dsqrt (dofZ k)) (sqrt (IZR k)).
Proof. intro H. apply nb_sqrt; [lia|lia|lia|]. exact (nb_k k H). Qed.

Definition nbs (a : double) (r : R) : Prop := exists k lo hi, (k <= 8)%nat /\ nb k lo hi a r.
Lemma nbs_close a r : nbs a r -> close (9 * ur) a r.
Proof.
  intros (k & lo & hi & K & A). assert (U := ur_small). apply (nb_close k lo hi); [lia| |exact A].
  apply le_INR in K. replace (INR 8) with 8 in K by (cbn; ring). apply Rmult_le_compat_r; lra.
Qed.
Lemma chi_close k : (0 < k < 2 ^ 31)%Z ->
  close (4 * ur) (dmul (dsqrt (dofZ 2)) (dsqrt (dofZ k))) (sqrt 2 * sqrt (IZR k)) /\
  forall j, (3 <= j <= 8)%nat -> close (9 * ur) (given (chisquare_moments (N := DN) k) j) (stdmom (chisquare_moments (N := RN) k) j).
Proof.
  intro H. assert (K := nb_k k H). assert (S2 := nb_sqrt2). assert (SK := nb_sqrtK k H).
  split.
  - apply (nb_close 3 0 17); [lia|cbn [INR]; lra|]. apply (nb_mul 1 1 0 1 0 16); [lia|lia|lia|exact S2|exact SK].
  - intros j Hj. apply nbs_close.
    assert (L : forall z, (1 <= z <= 65536)%Z -> nb 0 0 16 (dofZ z) (IZR z)) by exact nb_lit.
    destruct j as [|[|[|[|[|[|[|[|[|j]]]]]]]]]; try lia; unfold given, stdmom, chisquare_moments; cbn [v3 v4 v5 v6 v7 v8];
      change (@nmul DN) with dmul; change (@nadd DN) with dadd; change (@ndiv DN) with ddiv; change (@nsqrt DN) with dsqrt; change (@nofZ DN) with dofZ;
      change (@nmul RN) with Rmult; change (@nadd RN) with Rplus; change (@ndiv RN) with Rdiv; change (@nsqrt RN) with sqrt; change (@nofZ RN) with IZR;
      do 3 eexists; (split; cycle 1;
      [repeat match goal with
       | |- nb _ _ _ (dofZ k) _ => exact K
       | |- nb _ _ _ (dofZ _) _ => apply L; lia
       | |- nb _ _ _ (dsqrt (dofZ 2)) _ => exact S2
       | |- nb _ _ _ (dsqrt (dofZ k)) _ => exact SK
       | |- nb _ _ _ (dmul _ _) _ => eapply nb_mul
       | |- nb _ _ _ (dadd _ _) _ => eapply nb_add
       | |- nb _ _ _ (ddiv _ _) _ => eapply nb_div
       end|]); lia.
Qed.
Lemma C77_chisquare_proof : forall k, (0 < k < 2 ^ 31)%Z -> exists (mu s : double) (m : moms DN),
  (forall eig last, d_chisquare (N := DN) eig last k = u2_new_std (N := DN) eig last mu s m (dofZ 0)) /\
  finite mu /\ real_of mu = IZR k /\
  parameters (chisquare_density (IZR k)) zero_plus plus_infinity (IZR k) (sqrt (2 * IZR k)) (4 * uround) (9 * uround) s m.
Proof.
  intros k H. exists (dofZ k), (dmul (dsqrt (dofZ 2)) (dsqrt (dofZ k))), (chisquare_moments (N := DN) k).
  assert (HK : 0 < IZR k) by (apply (IZR_lt 0); lia).
  destruct (dofZ_exact k ltac:(lia)) as [F E]. destruct (chi_close k H) as [Cs Cm].
  destruct (proj2 (proj2 (C37_chisquare_proof k)) ltac:(lia)) as (m & _ & A1 & A2 & _).
  split; [|split; [exact F|split; [exact E|split; [|split; [exact A1|split; [exact A2|split]]]]]].
  - intros eig last. unfold d_chisquare. replace (k <? 0)%Z with false by lia. replace (k =? 0)%Z with false by lia. reflexivity.
  - apply sqrt_lt_R0. lra.
  - rewrite sqrt_mult by lra. exact Cs.
  - intros j Hj. exists (stdmom (chisquare_moments (N := RN) k) j). split; [|apply Cm; exact Hj].
    rewrite sqrt_mult by lra. rewrite chisquare_std by (assumption || lia). apply chi_std; [exact HK|lia].
Qed.

(** ** The normal distribution *)
Lemma close_exact a : finite a -> close 0 a (real_of a).
Proof. intro F. split; [exact F|]. rewrite Rminus_diag_eq, Rabs_R0 by reflexivity. lra. Qed.
Lemma close_int z : (Z.abs z <= 1024)%Z -> close 0 (dofZ z) (IZR z).
Proof. intro H. destruct (dofZ_exact z ltac:(lia)) as [F E]. rewrite <- E. now apply close_exact. Qed.
Lemma C77_normal_proof : forall mu sigma : double, exists m : moms DN,
  (forall eig last, d_normal (N := DN) eig last mu sigma = u2_new_std (N := DN) eig last mu sigma m (dofZ 0)) /\
  (finite sigma -> 0 < real_of sigma ->
     parameters (normal_density (real_of mu) (real_of sigma)) minus_infinity plus_infinity (real_of mu) (real_of sigma) 0 0 sigma m).
Proof.
  intros mu sigma. exists (normal_moments (N := DN)). split; [reflexivity|]. intros F P.
    assert (A : forall k, (k <= 8)%nat -> average (normal_density (real_of mu) (real_of sigma)) minus_infinity plus_infinity
     (fun x => ((x - real_of mu) / real_of sigma) ^ k) (stdmom (normal_moments (N := RN)) k)).
  { intros k Hk. replace (stdmom (normal_moments (N := RN)) k) with (normal_mom k); [now apply normal_average|].
    do 9 (destruct k as [|k]; [cbn; ring|]). lia. }
  split; [exact P|]. split; [now apply normal_mean|]. split; [|split; [now apply close_exact|]].
  - replace (real_of sigma ^ 2) with (real_of sigma ^ 2 * stdmom (normal_moments (N := RN)) 2) by (cbn; ring).
    apply (average_scal _ _ _ (fun x => ((x - real_of mu) / real_of sigma) ^ 2)); [|apply A; lia].
    intro x. field. lra.
  - intros k Hk. exists (stdmom (normal_moments (N := RN)) k). split; [apply A; lia|].
    do 9 (destruct k as [|k]; [try lia; apply close_int; lia|]). lia.
Qed.

(** ** The uniform distribution *)
Lemma double_format (a : double) : nearest (2 * real_of a) = 2 * real_of a.
Proof.
  unfold nearest. apply round_generic; [apply valid_rnd_N|].
  destruct (FLT_format_generic radix2 (-1074) 53 (real_of a) (B2R_format a)) as [[z ex] E1 E2 E3]. cbn in E2, E3.
  apply generic_format_FLT. exists (Float radix2 z (ex + 1)); cbn [Fnum Fexp]; [|exact E2|lia].
  rewrite E1. unfold F2R. cbn [Fnum Fexp]. rewrite bpow_plus. change (bpow radix2 1) with 2. ring.
Qed.
Lemma nearest_mono r s : r <= s -> nearest r <= nearest s.
Proof. intro H. unfold nearest. apply round_le; [apply FLT_exp_valid; reflexivity|apply valid_rnd_N|exact H]. Qed.
Lemma dltb_neg (s : double) : finite s -> real_of s < 0 -> nltb (n := DN) s (n0 (n := DN)) = true.
Proof.
  intros F H. change (nltb (n := DN) s (n0 (n := DN))) with (Bltb s (dofZ 0)). destruct (dofZ_exact 0 ltac:(lia)) as [F0 E0].
  rewrite (Bltb_correct 53 1024 s (dofZ 0) F F0). apply Rlt_bool_true. change (B2R s) with (real_of s). change (B2R (dofZ 0)) with (real_of (dofZ 0)). now rewrite E0.
Qed.
Lemma half_round (a : double) : Rabs (nearest (real_of a / 2) - real_of a / 2) <= pow2 (-1075).
Proof.
  destruct (FLT_format_generic radix2 (-1074) 53 (real_of a) (B2R_format a)) as [[z ex] E1 E2 E3]. cbn in E2, E3.
  assert (N : forall f, generic_format radix2 (FLT_exp (-1074) 53) f -> Rabs (nearest (real_of a / 2) - real_of a / 2) <= Rabs (f - real_of a / 2)).
  { intros f Ff. apply (round_N_pt radix2 (FLT_exp (-1074) 53) (fun x => negb (Z.even x)) (real_of a / 2)). exact Ff. }
  assert (P := pow2_pos (-1075)).
  destruct (Z.eq_dec ex (-1074)) as [->|Ne].
  - set (q := (z / 2)%Z). assert (Q : (0 <= z - 2 * q <= 1)%Z) by (unfold q; assert (M := Z.mod_pos_bound z 2 ltac:(lia)); assert (D := Z.div_mod z 2 ltac:(lia)); lia).
    eapply Rle_trans; [apply (N (IZR q * pow2 (-1074)))|].
    + apply generic_format_FLT. exists (Float radix2 q (-1074)); [reflexivity| |cbn; lia]. cbn [Fnum]. change (Z.abs q < 2 ^ 53)%Z. change (Z.abs z < 2 ^ 53)%Z in E2. lia.
    + rewrite E1. unfold F2R. cbn [Fnum Fexp]. change (bpow radix2 (-1074)) with (pow2 (-1074)).
      replace (pow2 (-1074)) with (2 * pow2 (-1075)) by (unfold pow2; change (-1074)%Z with (1 + -1075)%Z; rewrite bpow_plus; reflexivity).
      replace (IZR q * (2 * pow2 (-1075)) - IZR z * (2 * pow2 (-1075)) / 2) with (- (IZR (z - 2 * q) * pow2 (-1075))) by (rewrite minus_IZR, mult_IZR; field).
      rewrite Rabs_Ropp. destruct Q as [Q1 Q2]. apply IZR_le in Q1, Q2. rewrite Rabs_pos_eq by nra. nra.
  - eapply Rle_trans; [apply (N (real_of a / 2))|].
    + apply generic_format_FLT. exists (Float radix2 z (ex - 1)); cbn [Fnum Fexp]; [|exact E2|lia].
      rewrite E1. unfold F2R. cbn [Fnum Fexp]. unfold Zminus. rewrite bpow_plus. change (bpow radix2 (- (1))) with (/ 2). field.
    + rewrite Rminus_diag_eq, Rabs_R0 by reflexivity. lra.
Qed.
Lemma uni_mean l r : finite l -> finite r -> Rabs (real_of l) <= pow2 1020 -> Rabs (real_of r) <= pow2 1020 ->
  let mu := ddiv (dadd r l) (dofZ 2) in finite mu /\ (real_of l <= real_of r -> real_of l <= real_of mu <= real_of r) /\
  Rabs (real_of mu - (real_of l + real_of r) / 2) <= uround * Rabs ((real_of l + real_of r) / 2) + pow2 (-1075).
Proof.
  intros Fl Fr Bl Br mu. assert (P21 : pow2 1021 = 2 * pow2 1020) by (unfold pow2; change 1021%Z with (1 + 1020)%Z; rewrite bpow_plus; reflexivity).
  assert (Bs : Rabs (real_of r + real_of l) <= pow2 1021) by (eapply Rle_trans; [apply Rabs_triang|lra]).
  assert (B23 := pow2_le 1021 1023 ltac:(lia)).
  destruct (dadd_round r l Fr Fl ltac:(apply fits; lra)) as [Fs Es].
  destruct (dofZ_exact 2 ltac:(lia)) as [F2 E2].
  assert (Bn := nearest_bound 1021 _ ltac:(lia) Bs).
  assert (P22 := pow2_pos 1020).
  destruct (ddiv_round (dadd r l) (dofZ 2) Fs) as [Fm Em]; [rewrite E2; lra| |].
  { apply fits. rewrite Es, E2. unfold Rdiv. rewrite Rabs_mult, (Rabs_pos_eq (/ 2)) by lra. lra. }
  fold mu in Fm, Em. rewrite Es, E2 in Em. split; [exact Fm|]. split.
  - intro Hlr. rewrite Em. split.
    + rewrite <- (nearest_format l) at 1. apply nearest_mono.
      assert (H := nearest_mono (2 * real_of l) (real_of r + real_of l) ltac:(lra)). rewrite double_format in H. lra.
    + rewrite <- (nearest_format r) at 2. apply nearest_mono.
      assert (H := nearest_mono (real_of r + real_of l) (2 * real_of r) ltac:(lra)). rewrite double_format in H. lra.
  - assert (H := half_round (dadd r l)). rewrite Es in H. rewrite Em. destruct (nearest_sum r l) as (e & He & Ee). rewrite Ee in *.
    set (x := real_of r + real_of l) in *. replace (real_of l + real_of r) with x by (unfold x; ring).
    replace (nearest (x * (1 + e) / 2) - x / 2) with (e * (x / 2) + (nearest (x * (1 + e) / 2) - x * (1 + e) / 2)) by field.
    eapply Rle_trans; [apply Rabs_triang|]. apply Rplus_le_compat; [|exact H]. rewrite Rabs_mult. apply Rmult_le_compat_r; [apply Rabs_pos|exact He].
Qed.

Lemma nb_sqrt12 : nb 2 (-3) 2 (dsqrt (ddiv (dofZ 1) (dofZ 12))) (sqrt (1 / 12)).
Proof.
  apply nb_sqrt; [lia|lia|lia|]. assert (A := nb_lit 1 ltac:(lia)). assert (B := nb_lit 12 ltac:(lia)).
  destruct (nb_div 0 0 0 16 0 16 _ _ _ _ ltac:(lia) ltac:(lia) ltac:(lia) A B) as [C _]. split; [exact C|].
  split; [change (pow2 (-3 + -3)) with (/ 64)|change (pow2 (2 + 2)) with 16]; lra.
Qed.
Lemma uni_sigma l r : finite l -> finite r -> Rabs (real_of l) <= pow2 1020 -> Rabs (real_of r) <= pow2 1020 ->
  real_of r = real_of l \/ pow2 (-1000) <= Rabs (real_of r - real_of l) ->
  near ur 4 (dmul (dsqrt (ddiv (dofZ 1) (dofZ 12))) (dsub r l)) (sqrt (1 / 12) * (real_of r - real_of l)).
Proof.
  intros Fl Fr Bl Br Hd. assert (P21 : pow2 1021 = 2 * pow2 1020) by (unfold pow2; change 1021%Z with (1 + 1020)%Z; rewrite bpow_plus; reflexivity).
  assert (Bs : Rabs (real_of r - real_of l) <= pow2 1021) by (eapply Rle_trans; [apply Rabs_triang|rewrite Rabs_Ropp; lra]).
  destruct (dsub_round r l Fr Fl ltac:(apply fits; eapply Rle_trans; [exact Bs|apply pow2_le; lia])) as [Fs Es].
  destruct (nearest_sum r (dopp l)) as (e & He & Ee).
  replace (real_of (dopp l)) with (- real_of l) in Ee by (symmetry; apply B2R_Bopp). fold (Rminus (real_of r) (real_of l)) in Ee. rewrite Ee in Es.
  assert (D : near ur 1 (dsub r l) (real_of r - real_of l)).
  { apply (near_close ur ur_ok). split; [exact Fs|]. rewrite Es. replace (_ * (1 + e) - _) with (e * (real_of r - real_of l)) by ring.
    rewrite Rabs_mult. apply Rmult_le_compat_r; [apply Rabs_pos|exact He]. }
  destruct nb_sqrt12 as [C [C1 C2]]. apply (near_mul ur ur_ok 2 1); [lia|exact C|exact D|].
  destruct Hd as [Hd|Hd]; [left; rewrite Hd; ring|right].
  assert (P := pow2_pos (-3)). assert (P' := pow2_pos (-1000)).
  rewrite Rabs_mult, (Rabs_pos_eq (sqrt _)) by lra. split.
  - apply Rle_trans with (pow2 (-3) * pow2 (-1000)); [rewrite <- pow2_add; apply pow2_le; lia|]. apply Rmult_le_compat; lra.
  - assert (Q : sqrt (1 / 12) <= 1) by (apply Rle_trans with (sqrt 1); [apply sqrt_le_1_alt; lra|rewrite sqrt_1; lra]).
    assert (T := Rmult_le_compat_r _ _ _ (Rabs_pos (real_of r - real_of l)) Q). eapply Rle_trans; [exact T|]. rewrite Rmult_1_l.
    eapply Rle_trans; [exact Bs|apply pow2_le; lia].
Qed.

Lemma C77_uniform_proof : forall left right : double, finite left -> finite right ->
  Rabs (real_of left) <= pow2 1020 -> Rabs (real_of right) <= pow2 1020 ->
  let l := real_of left in let r := real_of right in exists (mu s : double) (m : moms DN),
    (forall eig last, d_uniform (N := DN) eig last left right = u2_new_std (N := DN) eig last mu s m (dofZ 0)) /\
    finite mu /\ (l <= r -> l <= real_of mu <= r) /\
    Rabs (real_of mu - (l + r) / 2) <= uround * Rabs ((l + r) / 2) + pow2 (-1075) /\
    (l = r -> finite s /\ real_of s = 0) /\
    (pow2 (-1000) <= l - r -> forall eig last, d_uniform (N := DN) eig last left right = (last, Throw InvalidArgument)) /\
    (pow2 (-1000) <= r - l -> exists dev,
       parameters uniform_density (at_point l) (at_point r) ((l + r) / 2) dev (5 * uround) (2 * uround) s m).
Proof.
  intros left right Fl Fr Bl Br l r. destruct (uni_mean left right Fl Fr Bl Br) as (Fm & Mb & Me).
  set (s := dmul (dsqrt (ddiv (dofZ 1) (dofZ 12))) (dsub right left)).
  exists (ddiv (dadd right left) (dofZ 2)), s, (uniform_moments (N := DN)).
  assert (E : forall eig last, d_uniform (N := DN) eig last left right = u2_new_std (N := DN) eig last (ddiv (dadd right left) (dofZ 2)) s (uniform_moments (N := DN)) (dofZ 0)) by reflexivity.
  assert (Q0 := pow2_pos (-1000)). destruct nb_sqrt12 as [_ Q12]. apply rng_pos in Q12.
  split; [exact E|]. split; [exact Fm|]. split; [exact Mb|]. split; [exact Me|].
  split; [|split].
  - intro H. destruct (uni_sigma left right Fl Fr Bl Br (or_introl (eq_sym H))) as [Fs (t & Et & _)]. split; [exact Fs|].
    unfold s. rewrite Et. unfold l, r in H. rewrite H. ring.
  - intros H eig last. rewrite E.
    destruct (uni_sigma left right Fl Fr Bl Br) as [Fs (t & Et & Wt)]; [right; fold l r; rewrite Rabs_left1; lra|].
    assert (Tp := within_pos ur ur_ok _ _ Wt). fold s in Fs, Et. unfold u2_new_std. rewrite dltb_neg; [reflexivity|exact Fs|].
    rewrite Et. fold l r. assert (N : 0 < sqrt (1 / 12) * (l - r)) by (apply Rmult_lt_0_compat; lra). nra.
  - intro H. exists (sqrt (1 / 12) * (r - l)).
    destruct (C37_uniform_proof l r) as (m0 & s0 & _ & _ & _ & A0). destruct (A0 ltac:(lra)) as (_ & A1 & _).
    destruct (uniform_std l r ltac:(lra)) as [T A].
    assert (Ps : 0 < sqrt (1 / 12) * (r - l)) by (apply Rmult_lt_0_compat; lra).
    split; [exact Ps|]. split; [exact A1|]. split; [|split].
    + replace ((sqrt (1 / 12) * (r - l)) ^ 2) with ((sqrt (1 / 12) * (r - l)) ^ 2 * stdmom (uniform_moments (N := RN)) 2) by (cbn; ring).
      apply (average_scal _ _ _ (fun x => ((x - (l + r) / 2) / (sqrt (1 / 12) * (r - l))) ^ 2)); [|apply (A 2%nat); lia]. intro x. field. split; lra.
    + destruct (close_near ur ur_ok 4 s (sqrt (1 / 12) * (r - l)) ltac:(lia)) as [Fs Cs].
      { apply uni_sigma; auto. right. fold l r. rewrite Rabs_pos_eq; lra. }
      split; [exact Fs|]. eapply Rle_trans; [exact Cs|]. right. cbn [INR]. ring.
    + intros k Hk. exists (stdmom (uniform_moments (N := RN)) k). split; [apply A; lia|].
      assert (U := ur_small).
      assert (Cz : forall z, (Z.abs z <= 1024)%Z -> close (2 * ur) (dofZ z) (IZR z)).
      { intros z Hz. destruct (close_int z Hz) as [Fz Ez]. split; [exact Fz|]. eapply Rle_trans; [exact Ez|]. assert (Ap := Rabs_pos (IZR z)). nra. }
      assert (Cd : forall y z, (1 <= y <= 1024)%Z -> (1 <= z <= 1024)%Z -> close (2 * ur) (ddiv (dofZ y) (dofZ z)) (IZR y / IZR z)).
      { intros y z Hy Hz. apply (nb_close 1 (0 - 16) (16 - 0)); [lia|cbn [INR]; lra|].
        apply (nb_div 0 0 0 16 0 16); [lia|lia|lia|apply nb_lit; lia|apply nb_lit; lia]. }
      destruct k as [|[|[|[|[|[|[|[|[|k]]]]]]]]]; try lia.
      * apply (Cz 0%Z). lia.
      * apply (Cd 9%Z 5%Z); lia.
      * apply (Cz 0%Z). lia.
      * apply (Cd 27%Z 7%Z); lia.
      * apply (Cz 0%Z). lia.
      * apply (Cz 9%Z). lia.
Qed.

(** ** Where the interval is extreme *)
Lemma new_std_same eig last (n s n' s' : double) (m : moms DN) th l x :
  nltb (n := DN) s' (n0 (n := DN)) = false ->
  u2_new_std (N := DN) eig last n s m th = (l, Ret x) ->
  u2_new_std (N := DN) eig last n' s' m th = (l, Ret (mkU2 (N := DN) (hg_diag l (fun _ => mkD (N := DN) s' (n0 (n := DN)) (Some m)) hg_empty) n')).
Proof.
  intros H. unfold u2_new_std. rewrite H. destruct (nltb (n := DN) s (n0 (n := DN))); [discriminate|].
  destruct (if negb _ then _ else _) as [[]| | |]; try discriminate. intros [=<- <-]. reflexivity.
Qed.
Lemma new_std_mean eig last (n s : double) (m : moms DN) th l x : u2_new_std (N := DN) eig last n s m th = (l, Ret x) -> u2mu (N := DN) x = n.
Proof.
  unfold u2_new_std. destruct (nltb (n := DN) s (n0 (n := DN))); [discriminate|].
  destruct (if negb _ then _ else _) as [[]| | |]; try discriminate. intros [=<- <-]. reflexivity.
Qed.
(** 2^-1074 *)
Definition dmin : double := @B754_finite 53 1024 false 1 (-1074) eq_refl.
(** 2^1023 *)
Definition dbig : double := @B754_finite 53 1024 false 4503599627370496 971 eq_refl.
(** 2^1023 + 2^971 *)
Definition dbig' : double := @B754_finite 53 1024 false 4503599627370497 971 eq_refl.
Lemma C77_uniform_throws_refuted_proof : exists left right : double, finite left /\ finite right /\ real_of right < real_of left /\
  forall eig last l x, d_uniform (N := DN) eig last (dofZ 0) (dofZ 1) = (l, Ret x) ->
    exists y, d_uniform (N := DN) eig last left right = (l, Ret y).
Proof.
  exists dmin, (dofZ 0). split; [reflexivity|]. split; [reflexivity|]. split.
  { destruct (dofZ_exact 0 ltac:(lia)) as [_ ->]. unfold real_of, dmin. apply (F2R_gt_0 radix2 (Float radix2 1 (-1074))). reflexivity. }
  intros eig last l x H. unfold d_uniform in *. eexists. eapply new_std_same; [vm_compute; reflexivity|exact H].
Qed.
Lemma C77_uniform_mean_refuted_proof : exists left right : double, finite left /\ finite right /\ 0 < real_of left < real_of right /\
  forall eig last l x, d_uniform (N := DN) eig last (dofZ 0) (dofZ 1) = (l, Ret x) ->
    exists y, d_uniform (N := DN) eig last left right = (l, Ret y) /\ ~ finite (u2_first_order_n (N := DN) y).
Proof.
  exists dbig, dbig'. split; [reflexivity|]. split; [reflexivity|]. split.
  { unfold real_of, dbig, dbig', B2R. split; [apply F2R_gt_0; reflexivity|apply F2R_lt; reflexivity]. }
  intros eig last l x H. unfold d_uniform in *. eexists. split; [eapply new_std_same; [vm_compute; reflexivity|exact H]|].
  vm_compute. discriminate.
Qed.
