(** * MathAcc2: accuracy of the functions of math.hpp without cancellation (C65) *)

From Coq Require Import List ZArith Reals Bool Lra Lia Psatz.
From Coquelicot Require Import Coquelicot.
From Flocq Require Import Core BinarySingleNaN.
From Verif Require Import Base Num Map UReal World SpecObs Ieee IeeeFacts SpecIeee IeeeProofs3 IeeeProofs4
  IeeeCov Nan Math SpecMathIeee IeeeRel MathAcc Derivs.
Import ListNotations.
Local Open Scope R_scope.

(** ** Ranges *)
Definition rng (lo hi : Z) (r : R) : Prop := pow2 lo <= r <= pow2 hi.
Lemma rng_pos lo hi r : rng lo hi r -> 0 < r. Proof. intros [A _]. assert (P := pow2_pos lo). lra. Qed.
Lemma rng_regular lo hi r : (-1021 <= lo)%Z -> (hi <= 1022)%Z -> rng lo hi r -> regular r.
Proof.
  intros L H R0. assert (P := rng_pos _ _ _ R0). destruct R0 as [A B]. right. rewrite Rabs_pos_eq by lra.
  split; [apply Rle_trans with (pow2 lo)|apply Rle_trans with (pow2 hi)]; auto; apply pow2_le; lia.
Qed.
Lemma rng_inv lo hi r : rng lo hi r -> rng (- hi) (- lo) (/ r).
Proof.
  intro H. assert (P := rng_pos _ _ _ H). destruct H as [A B]. split; rewrite <- pow2_inv.
  - apply Rinv_le_contravar; lra.
  - apply Rinv_le_contravar; [apply pow2_pos|exact A].
Qed.
Lemma rng_mul l1 h1 l2 h2 r s : rng l1 h1 r -> rng l2 h2 s -> rng (l1 + l2) (h1 + h2) (r * s).
Proof.
  intros [A B] [C D]. assert (P := pow2_pos l1). assert (Q := pow2_pos l2). split; rewrite pow2_add; apply Rmult_le_compat; lra.
Qed.
Lemma rng_weaken lo hi lo' hi' r : (lo' <= lo)%Z -> (hi <= hi')%Z -> rng lo hi r -> rng lo' hi' r.
Proof. intros L H [A B]. split; [apply Rle_trans with (pow2 lo)|apply Rle_trans with (pow2 hi)]; auto; now apply pow2_le. Qed.
Lemma rng_sqrt lo hi r : rng (lo + lo) (hi + hi) r -> rng lo hi (sqrt r).
Proof.
  intros [A B]. assert (P := pow2_pos lo). assert (Q := pow2_pos hi). rewrite pow2_add in A, B. split.
  - rewrite <- (sqrt_square (pow2 lo)) by lra. now apply sqrt_le_1_alt.
  - rewrite <- (sqrt_square (pow2 hi)) by lra. now apply sqrt_le_1_alt.
Qed.
Lemma pow2_val e (r : R) : r = pow2 e -> pow2 e = r. Proof. auto. Qed.
Lemma ln2_rng : rng (-1) 0 (ln 2).
Proof.
  split.
  - change (pow2 (-1)) with (/ 2). apply Rlt_le. exact ln_lt_2.
  - change (pow2 0) with 1. rewrite <- (ln_exp 1). apply Rlt_le, ln_increasing; [lra|]. assert (E := exp_ineq1 1 ltac:(lra)). lra.
Qed.
Lemma ln10_rng : rng 0 3 (ln 10).
Proof.
  destruct ln2_rng as [A B]. change (pow2 (-1)) with (/ 2) in A. change (pow2 0) with 1 in B.
  assert (E8 : ln 8 = 3 * ln 2). { replace 8 with (2 * (2 * 2)) by lra. rewrite !ln_mult by lra. ring. }
  assert (E16 : ln 16 = 4 * ln 2). { replace 16 with (2 * (2 * (2 * 2))) by lra. rewrite !ln_mult by lra. ring. }
  assert (L1 : ln 8 < ln 10) by (apply ln_increasing; lra). assert (L2 : ln 10 < ln 16) by (apply ln_increasing; lra).
  split; [change (pow2 0) with 1|change (pow2 3) with 8]; lra.
Qed.
Lemma Rpower2_bpow n : Rpower 2 (IZR n) = pow2 n.
Proof. unfold pow2. rewrite bpow_powerRZ. symmetry. change (IZR radix2) with 2. apply powerRZ_Rpower. lra. Qed.
Lemma Rpower2_rng lo hi a : IZR lo <= a <= IZR hi -> rng lo hi (Rpower 2 a).
Proof. intros [A B]. split; rewrite <- Rpower2_bpow; apply Rle_Rpower; lra. Qed.
Lemma exp_rng a : Rabs a <= 500 -> rng (-1000) 1000 (exp a).
Proof.
  intro H. apply Rabs_le_inv in H. destruct ln2_rng as [A _]. change (pow2 (-1)) with (/ 2) in A.
  replace (exp a) with (Rpower 2 (a / ln 2)) by (unfold Rpower; f_equal; field; apply Rgt_not_eq; lra).
  apply Rpower2_rng. assert (P := Rinv_0_lt_compat (ln 2) ltac:(lra)). assert (Q := Rinv_le_contravar (/ 2) (ln 2) ltac:(lra) A).
  rewrite Rinv_involutive in Q by lra.
  unfold Rdiv. split; nra.
Qed.

(** ** The functions *)
Lemma small_K (k : R) e : ur <= e <= pow2 (-20) -> k <= 1000 -> k * e <= / 2.
Proof.
  intros He H. assert (S := e_small e He). destruct (Rle_dec 0 k) as [P|N]; [|apply Rnot_le_lt in N; nra].
  apply Rle_trans with (1000 * / 1000000); [apply Rmult_le_compat|]; lra.
Qed.

Ltac start FM FD :=
  apply (accurate1_intro _ _ _ _ FM FD); [intros; reflexivity|];
  intros M e a He A Fa Da Rg; cbn beta in *.
(** the derivative [d] is computed with [k] roundings *)
Ltac fin_near k dv :=
  match goal with He : ur <= ?e <= pow2 (-20) |- _ =>
    split; [|split; [lra|split; [apply (small_K _ e He); lra|
      eexists; split; [exact dv|];
      match goal with |- forall c, _ -> _ -> close (?K * _) _ _ => replace K with (INR k + 2) by (rewrite INR_IZR_INZ; simpl; lra) end;
      apply (coef_near e k _ _ He); [lia|]]]] end.

Notation one := (dofZ 1).
Lemma near_lit_small e z : ur <= e <= pow2 (-20) -> (Z.abs z <= 1024)%Z -> near e 0 (dofZ z) (IZR z).
Proof. intros He H. apply near_lit. rewrite <- abs_IZR. now apply IZR_le. Qed.

Lemma real_lit z : (Z.abs z <=? 1024)%Z = true -> real_of (dofZ z) = IZR z.
Proof.
  intro H. apply Z.leb_le in H. assert (He : ur <= ur <= pow2 (-20)) by (split; [lra|apply pow2_le; lia]).
  destruct (near_lit_small ur z He H) as [_ (t & E & W)]. rewrite E. destruct W as [A B]. rewrite pow_O in A, B. rewrite Rinv_1 in B.
  replace t with 1 by lra. ring.
Qed.
Lemma log1p_dom a : pow2 (-1000) <= 1 + a <= pow2 1000 -> -1 < a.
Proof. intros [H _]. assert (P := pow2_pos (-1000)). lra. Qed.
Lemma near_1p e (a : double) : ur <= e <= pow2 (-20) -> finite a -> pow2 (-1000) <= 1 + real_of a <= pow2 1000 -> near e 1 (dadd one a) (1 + real_of a).
Proof.
  intros He Fa H. assert (P := pow2_pos (-1000)). assert (O : real_of one = 1) by exact (real_lit 1 eq_refl).
  assert (Hi : Rabs (real_of one + real_of a) <= pow2 1023).
  { rewrite O, Rabs_pos_eq by lra. apply Rle_trans with (pow2 1000); [apply H|apply pow2_le; lia]. }
  destruct (dadd_round one a eq_refl Fa (fits _ Hi)) as [F E]. split; [exact F|]. destruct (nearest_sum one a) as (dl & D & N).
  exists (1 + dl). split; [rewrite E, N, O; ring|]. apply (within_delta e He). lra.
Qed.
Lemma sq1_rng a : Rabs a <= pow2 500 -> rng 0 1001 (1 + a * a).
Proof.
  intro H. assert (Q := Rle_0_sqr a). unfold Rsqr in Q. split; [change (pow2 0) with 1; lra|].
  replace (a * a) with (Rabs a * Rabs a) by (unfold Rabs; destruct (Rcase_abs a); ring).
  assert (B : Rabs a * Rabs a <= pow2 500 * pow2 500) by (apply Rmult_le_compat; auto using Rabs_pos). rewrite <- pow2_add in B. change (500 + 500)%Z with 1000%Z in B.
  change 1001%Z with (1 + 1000)%Z. rewrite pow2_add. change (pow2 1) with 2.
  assert (1 <= pow2 1000) by (change 1 with (pow2 0); apply pow2_le; lia). lra.
Qed.
Lemma cosh_regular a : Rabs a <= 500 -> regular (cosh a).
Proof.
  intro H. assert (E1 := exp_rng a H). assert (E2 : rng (-1000) 1000 (exp (- a))) by (apply exp_rng; now rewrite Rabs_Ropp).
  apply (rng_regular (-1000) 1000); [lia|lia|]. unfold cosh. destruct E1, E2. split; lra.
Qed.

Lemma A_exp : accurate1 g_exp (fun _ _ => True) (exp) (fun _ => 3).
Proof.
  start (fun (M : cmath DN) (a : double) => c_exp M a) (fun (M : cmath DN) (a : double) => c_exp M a).
  fin_near 1%nat (proj1 (proj2 D_exp) (real_of a) I).
  - apply A; auto.
  - apply near_close; [exact He|]. apply A; auto.
Qed.
Lemma A_exp2 : accurate1 g_exp2 (fun _ a => -1000 <= a <= 1000) (fun x => Rpower 2 x) (fun _ => 5).
Proof.
  start (fun (M : cmath DN) (a : double) => c_exp2 M a) (fun (M : cmath DN) (a : double) => dmul (c_log M (dofZ 2)) (c_exp2 M a)).
  fin_near 3%nat (proj1 (proj2 D_exp2) (real_of a) I).
  - apply A; auto.
  - assert (P := Rpower2_rng (-1000) 1000 _ Da). assert (L2 := near_lit_small e 2 He ltac:(lia)). destruct L2 as [F2 (t & E2 & W)].
    assert (V : real_of (dofZ 2) = 2) by exact (real_lit 2 eq_refl).
    apply (near_mul e He 1 1); [lia| | |].
    + apply (near_close e He). assert (Q := acc_log M e A (dofZ 2) F2). rewrite V in Q. apply Q; [lra|].
      apply (rng_regular (-1) 0); [lia|lia|exact ln2_rng].
    + apply (near_close e He). apply A; auto.
    + apply (rng_regular (-1001) 1000); [lia|lia|]. exact (rng_mul (-1) 0 (-1000) 1000 _ _ ln2_rng P).
Qed.
Lemma A_expm1 : accurate1 g_expm1 (fun _ a => Rabs a <= 500) (fun x => exp x - 1) (fun _ => 3).
Proof.
  start (fun (M : cmath DN) (a : double) => c_expm1 M a) (fun (M : cmath DN) (a : double) => c_exp M a).
  fin_near 1%nat (proj1 (proj2 D_expm1) (real_of a) I).
  - apply A; auto.
  - apply (near_close e He). apply A; auto. apply (rng_regular (-1000) 1000); [lia|lia|now apply exp_rng].
Qed.
Lemma A_log : accurate1 g_log (fun _ a => pow2 (-1000) <= a <= pow2 1000) (ln) (fun _ => 3).
Proof.
  start (fun (M : cmath DN) (a : double) => c_log M a) (fun (M : cmath DN) (a : double) => ddiv (dofZ 1) a).
  fin_near 1%nat (proj1 (proj2 D_ln) (real_of a) (rng_pos _ _ _ Da)).
  - apply A; auto. exact (rng_pos _ _ _ Da).
  - assert (P := rng_pos _ _ _ Da). apply (near_eq _ _ _ (1 / real_of a)); [field; lra|].
    apply (near_div e He 0 0); [lia|now apply near_lit_small|now apply near_exact|lra|].
    unfold Rdiv. rewrite Rmult_1_l. apply (rng_regular (-1000) 1000); [lia|lia|]. exact (rng_inv _ _ _ Da).
Qed.
Lemma A_log10 : accurate1 g_log10 (fun _ a => pow2 (-1000) <= a <= pow2 1000) (fun x => ln x / ln 10) (fun _ => 5).
Proof.
  start (fun (M : cmath DN) (a : double) => c_log10 M a) (fun (M : cmath DN) (a : double) => ddiv (dofZ 1) (dmul a (c_log M (dofZ 10)))).
  fin_near 3%nat (proj1 (proj2 (D_logb 10 ltac:(lra))) (real_of a) (rng_pos _ _ _ Da)).
  - apply A; auto. exact (rng_pos _ _ _ Da).
  - assert (P := rng_pos _ _ _ Da). assert (Lp := rng_pos _ _ _ ln10_rng). assert (Mr := rng_mul _ _ _ _ _ _ Da ln10_rng).
    assert (Mp := rng_pos _ _ _ Mr). destruct (near_lit_small e 10 He ltac:(lia)) as [F2 _]. assert (V : real_of (dofZ 10) = 10) by exact (real_lit 10 eq_refl).
    apply (near_eq _ _ _ (1 / (real_of a * ln 10))); [field; lra|].
    apply (near_div e He 0 2); [lia|now apply near_lit_small| |lra|].
    + apply (near_mul e He 0 1); [lia|now apply near_exact| |].
      * apply (near_close e He). assert (Q := acc_log M e A (dofZ 10) F2). rewrite V in Q. apply Q; [lra|].
        apply (rng_regular (0) 3); [lia|lia|exact ln10_rng].
      * apply (rng_regular _ _ _) with (3 := Mr); lia.
    + unfold Rdiv. rewrite Rmult_1_l. apply (rng_regular _ _ _) with (3 := rng_inv _ _ _ Mr); lia.
Qed.
Lemma A_log2 : accurate1 g_log2 (fun _ a => pow2 (-1000) <= a <= pow2 1000) (fun x => ln x / ln 2) (fun _ => 5).
Proof.
  start (fun (M : cmath DN) (a : double) => c_log2 M a) (fun (M : cmath DN) (a : double) => ddiv (dofZ 1) (dmul a (c_log M (dofZ 2)))).
  fin_near 3%nat (proj1 (proj2 (D_logb 2 ltac:(lra))) (real_of a) (rng_pos _ _ _ Da)).
  - apply A; auto. exact (rng_pos _ _ _ Da).
  - assert (P := rng_pos _ _ _ Da). assert (Lp := rng_pos _ _ _ ln2_rng). assert (Mr := rng_mul _ _ _ _ _ _ Da ln2_rng).
    assert (Mp := rng_pos _ _ _ Mr). destruct (near_lit_small e 2 He ltac:(lia)) as [F2 _]. assert (V : real_of (dofZ 2) = 2) by exact (real_lit 2 eq_refl).
    apply (near_eq _ _ _ (1 / (real_of a * ln 2))); [field; lra|].
    apply (near_div e He 0 2); [lia|now apply near_lit_small| |lra|].
    + apply (near_mul e He 0 1); [lia|now apply near_exact| |].
      * apply (near_close e He). assert (Q := acc_log M e A (dofZ 2) F2). rewrite V in Q. apply Q; [lra|].
        apply (rng_regular (-1) 0); [lia|lia|exact ln2_rng].
      * apply (rng_regular _ _ _) with (3 := Mr); lia.
    + unfold Rdiv. rewrite Rmult_1_l. apply (rng_regular _ _ _) with (3 := rng_inv _ _ _ Mr); lia.
Qed.
Lemma A_log1p : accurate1 g_log1p (fun _ a => pow2 (-1000) <= 1 + a <= pow2 1000) (fun x => ln (1 + x)) (fun _ => 4).
Proof.
  start (fun (M : cmath DN) (a : double) => c_log1p M a) (fun (M : cmath DN) (a : double) => ddiv (dofZ 1) (dadd (dofZ 1) a)).
  fin_near 2%nat (proj1 (proj2 D_log1p) (real_of a) (log1p_dom _ Da)).
  - apply A; auto. exact (log1p_dom _ Da).
  - assert (P := rng_pos _ _ _ Da). apply (near_eq _ _ _ (1 / (1 + real_of a))); [field; lra|].
    apply (near_div e He 0 1); [lia|now apply near_lit_small|now apply near_1p|lra|].
    unfold Rdiv. rewrite Rmult_1_l. apply (rng_regular (-1000) 1000); [lia|lia|]. exact (rng_inv _ _ _ Da).
Qed.
Lemma A_sqrt : accurate1 (fun _ => g_sqrt) (fun _ a => pow2 (-1000) <= a <= pow2 1000) (sqrt) (fun _ => 5).
Proof.
  start (fun (M : cmath DN) (a : double) => dsqrt a) (fun (M : cmath DN) (a : double) => ddiv (dofZ 1) (dmul (dofZ 2) (dsqrt a))).
  fin_near 3%nat (proj1 (proj2 D_sqrt) (real_of a) (rng_pos _ _ _ Da)).
  - assert (P := rng_pos _ _ _ Da). destruct (sqrt_d a Fa ltac:(lra)) as [F V]. split; [exact F|]. rewrite V.
    assert (Sr := rng_sqrt (-500) 500 _ Da). assert (Sp := rng_pos _ _ _ Sr). eapply Rle_trans; [apply rel_err|].
    + rewrite Rabs_pos_eq by lra. apply Rle_trans with (pow2 (-500)); [apply pow2_le; lia|apply Sr].
    + apply Rmult_le_compat_r; [apply Rabs_pos|exact (proj1 He)].
  - assert (P := rng_pos _ _ _ Da). assert (Sr := rng_sqrt (-500) 500 _ Da). assert (Sp := rng_pos _ _ _ Sr).
    assert (Mr : rng (-499) 501 (2 * sqrt (real_of a))) by (apply (rng_mul 1 1 (-500) 500); [split; right; reflexivity|exact Sr]).
    apply (near_eq _ _ _ (1 / (2 * sqrt (real_of a)))); [field; lra|].
    apply (near_div e He 0 2); [lia|now apply near_lit_small| |lra|].
    + apply (near_mul e He 0 1); [lia|now apply near_lit_small| |apply (rng_regular _ _ _) with (3 := Mr); lia].
      apply (near_sqrt e He 0); [lia|lra|now apply near_exact|apply (rng_regular _ _ _) with (3 := Sr); lia].
    + unfold Rdiv. rewrite Rmult_1_l. apply (rng_regular _ _ _) with (3 := rng_inv _ _ _ Mr); lia.
Qed.
Lemma A_sin : accurate1 g_sin (fun _ a => regular (cos a)) (sin) (fun _ => 3).
Proof.
  start (fun (M : cmath DN) (a : double) => c_sin M a) (fun (M : cmath DN) (a : double) => c_cos M a).
  fin_near 1%nat (proj1 (proj2 D_sin) (real_of a) I).
  - apply A; auto.
  - apply (near_close e He). apply A; auto.
Qed.
Lemma A_cos : accurate1 g_cos (fun _ a => regular (sin a)) (cos) (fun _ => 3).
Proof.
  start (fun (M : cmath DN) (a : double) => c_cos M a) (fun (M : cmath DN) (a : double) => dopp (c_sin M a)).
  fin_near 1%nat (proj1 (proj2 D_cos) (real_of a) I).
  - apply A; auto.
  - apply near_opp, (near_close e He). apply A; auto.
Qed.
Lemma A_tan : accurate1 g_tan (fun _ a => cos a <> 0 /\ Rabs (tan a) <= pow2 500) (tan) (fun _ => 7).
Proof.
  start (fun (M : cmath DN) (a : double) => c_tan M a) (fun (M : cmath DN) (a : double) => dadd (dofZ 1) (dmul (c_tan M a) (c_tan M a))).
  fin_near 5%nat (proj1 (proj2 D_tan) (real_of a) (proj1 Da)).
  - apply A; tauto.
  - apply (near_1psq e 1 _ _ He); [lia|apply (near_close e He); apply A; tauto|apply Da].
Qed.
Lemma A_atan : accurate1 g_atan (fun _ a => Rabs a <= pow2 500) (atan) (fun _ => 6).
Proof.
  start (fun (M : cmath DN) (a : double) => c_atan M a) (fun (M : cmath DN) (a : double) => ddiv (dofZ 1) (dadd (dofZ 1) (dmul a a))).
  fin_near 4%nat (proj1 (proj2 D_atan) (real_of a) I).
  - apply A; auto.
  - assert (Q := sq1_rng _ Da). assert (Qp := rng_pos _ _ _ Q). apply (near_eq _ _ _ (1 / (1 + real_of a * real_of a))); [field; lra|].
    apply (near_div e He 0 3); [lia|now apply near_lit_small|apply (near_1psq e 0 _ _ He); [lia|now apply near_exact|exact Da]|lra|].
    unfold Rdiv. rewrite Rmult_1_l. apply (rng_regular _ _ _) with (3 := rng_inv _ _ _ Q); lia.
Qed.
Lemma A_sinh : accurate1 g_sinh (fun _ a => Rabs a <= 500) (sinh) (fun _ => 3).
Proof.
  start (fun (M : cmath DN) (a : double) => c_sinh M a) (fun (M : cmath DN) (a : double) => c_cosh M a).
  fin_near 1%nat (proj1 (proj2 D_sinh) (real_of a) I).
  - apply A; auto.
  - apply (near_close e He). apply A; auto. now apply cosh_regular.
Qed.
Lemma A_cosh : accurate1 g_cosh (fun _ a => regular (sinh a)) (cosh) (fun _ => 3).
Proof.
  start (fun (M : cmath DN) (a : double) => c_cosh M a) (fun (M : cmath DN) (a : double) => c_sinh M a).
  fin_near 1%nat (proj1 (proj2 D_cosh) (real_of a) I).
  - apply A; auto.
  - apply (near_close e He). apply A; auto.
Qed.
Lemma A_asinh : accurate1 g_asinh (fun _ a => Rabs a <= pow2 500) (R_asinh) (fun _ => 7).
Proof.
  start (fun (M : cmath DN) (a : double) => c_asinh M a) (fun (M : cmath DN) (a : double) => ddiv (dofZ 1) (dsqrt (dadd (dmul a a) (dofZ 1)))).
  fin_near 5%nat (proj1 (proj2 D_asinh) (real_of a) I).
  - apply A; auto.
  - assert (Q := sq1_rng _ Da). assert (Qp := rng_pos _ _ _ Q). assert (Q' : rng (-1 + -1) (501 + 501) (1 + real_of a * real_of a)) by (apply (rng_weaken 0 1001); [lia|lia|exact Q]).
    assert (Sr := rng_sqrt _ _ _ Q'). assert (Sp := rng_pos _ _ _ Sr). rewrite dadd_comm, (Rplus_comm (real_of a * real_of a) 1).
    apply (near_eq _ _ _ (1 / sqrt (1 + real_of a * real_of a))); [field; lra|].
    apply (near_div e He 0 4); [lia|now apply near_lit_small| |lra|].
    + apply (near_sqrt e He 3); [lia|lra|apply (near_1psq e 0 _ _ He); [lia|now apply near_exact|exact Da]|apply (rng_regular _ _ _) with (3 := Sr); lia].
    + unfold Rdiv. rewrite Rmult_1_l. apply (rng_regular _ _ _) with (3 := rng_inv _ _ _ Sr); lia.
Qed.
Lemma A_abs : accurate1 (fun _ => g_abs) (fun _ a => a <> 0) Rabs (fun _ => 0).
Proof.
  start (fun (M : cmath DN) (a : double) => dabs a) (fun (M : cmath DN) (a : double) => if Bleb (dofZ 0) a then dofZ 1 else dofZ (-1)).
  assert (S := e_small e He).
  split; [|split; [lra|split; [lra|]]].
  - split; [unfold finite, dabs; now rewrite is_finite_Babs|]. unfold real_of at 1, dabs. rewrite B2R_Babs. fold (real_of a).
    rewrite Rminus_eq_0, Rabs_R0. apply Rmult_le_pos; [lra|apply Rabs_pos].
  - exists (if Rle_dec 0 (real_of a) then 1 else -1). split.
    { assert (D := proj1 (proj2 D_abs) (real_of a) Da). unfold Rleb in D. destruct (Rle_dec 0 (real_of a)); exact D. }
    assert (C : Bleb (dofZ 0) a = if Rle_dec 0 (real_of a) then true else false).
    { rewrite Bleb_correct by (reflexivity || exact Fa). fold (real_of a). change (B2R (dofZ 0)) with (real_of (dofZ 0)). rewrite (real_lit 0 eq_refl).
      destruct (Rle_dec 0 (real_of a)) as [L|L]; [now apply Rle_bool_true|apply Rle_bool_false; lra]. }
    rewrite C. intros c Fc _. rewrite !Rmult_0_l. destruct (Rle_dec 0 (real_of a)).
    + rewrite dmul_comm, dmul_1_l. split; [exact Fc|]. rewrite Rmult_1_l, Rminus_eq_0, Rabs_R0. lra.
    + replace (dofZ (-1)) with (dopp (dofZ 1)) by (apply B2SF_inj; reflexivity). rewrite dmul_comm, dmul_m1_l.
      split; [unfold finite, dopp; now rewrite is_finite_Bopp|]. unfold real_of at 1, dopp. rewrite B2R_Bopp. fold (real_of c).
      replace (- real_of c - -1 * real_of c) with 0 by ring. rewrite Rabs_R0. lra.
Qed.
