(** * MathAcc7: the operators and functions of two arguments on doubles (C66) *)

From Coq Require Import List ZArith Reals Bool Lra Lia Psatz.
From Coquelicot Require Import Coquelicot.
From Flocq Require Import Core BinarySingleNaN.
From Verif Require Import Base Num Map UReal World SpecObs URealFacts URealProofs Ieee IeeeFacts SpecIeee IeeeProofs IeeeProofs2 IeeeProofs3 IeeeProofs4
  IeeeProofs5 IeeeCov IeeeCorr Nan Math ADProofs Derivs Derivs2d SpecMathIeee SpecMathIeee2 IeeeRel MathAcc MathAcc2 MathAcc3 MathAcc5 MathAcc6.
Import ListNotations.
Local Open Scope R_scope.

Ltac start2 K FM F1 F2 :=
  match goal with |- accurate2 _ _ _ _ ?k => replace k with (K + 4) by lra end;
  apply (accurate2_intro _ _ _ _ _ FM F1 F2); [lra|intros; reflexivity|];
  intros M e a b He A Fa Fb Da Rg; cbn beta in *.

Lemma exact_close h (a : double) r : 0 <= h -> finite a -> real_of a = r -> close h a r.
Proof. intros H F <-. split; [exact F|]. rewrite Rminus_eq_0, Rabs_R0. apply Rmult_le_pos; [exact H|apply Rabs_pos]. Qed.
Lemma lit1 h : 0 <= h -> close h one 1. Proof. intro H. apply exact_close; [exact H|reflexivity|exact (real_lit 1 eq_refl)]. Qed.
Lemma lit0 h : 0 <= h -> close h (dofZ 0) 0. Proof. intro H. apply exact_close; [exact H|reflexivity|exact (real_lit 0 eq_refl)]. Qed.
Lemma litm1 h : 0 <= h -> close h (dopp one) (-1).
Proof. intro H. apply exact_close; [exact H|reflexivity|]. unfold real_of, dopp. rewrite B2R_Bopp. change (- real_of one = -1). rewrite (real_lit 1 eq_refl). lra. Qed.
Lemma regular_1022 r : regular r -> Rabs r <= pow2 1022.
Proof. intros [->|[_ H]]; [|exact H]. rewrite Rabs_R0. left. apply pow2_pos. Qed.
Lemma regular_1023 r : regular r -> Rabs r <= pow2 1023.
Proof. intro H. eapply Rle_trans; [apply regular_1022, H|]. apply pow2_le. lia. Qed.
Lemma close_sum e (a b c : double) (r : R) : ur <= e <= pow2 (-20) ->
  (exists dl, Rabs dl <= ur /\ real_of c = r * (1 + dl)) -> finite c -> close (1 * e) c r.
Proof.
  intros He (dl & D & E) F. split; [exact F|]. rewrite E. replace (r * (1 + dl) - r) with (dl * r) by ring. rewrite Rabs_mult.
  apply Rmult_le_compat_r; [apply Rabs_pos|lra].
Qed.
Lemma near_K e k (K : R) a r : ur <= e <= pow2 (-20) -> (k <= 500)%nat -> INR k + 1 = K -> near e k a r -> close (K * e) a r.
Proof. intros He H <- N. now apply close_near. Qed.
Ltac nearK k := apply (near_K _ k); [assumption|lia|simpl; lra|].

Lemma B_add : accurate2 (fun _ => u_add) (fun _ _ _ => True) Rplus 1 4.
Proof.
  start2 0 (fun (_ : cmath DN) a b => dadd a b) (fun (_ : cmath DN) (a b : double) => one) (fun (_ : cmath DN) (a b : double) => one). split.
  - destruct (dadd_round a b Fa Fb (fits _ (regular_1023 _ Rg))) as [F E]. apply close_sum; try assumption. rewrite E. destruct (nearest_sum a b) as (dl & D & N). now exists dl.
  - exists 1, 1. split; [apply diff_add|]. split; apply lit1; lra.
Qed.
Lemma B_sub : accurate2 (fun _ => u_sub) (fun _ _ _ => True) Rminus 1 4.
Proof.
  start2 0 (fun (_ : cmath DN) a b => dsub a b) (fun (_ : cmath DN) (a b : double) => one) (fun (_ : cmath DN) (a b : double) => dopp one). split.
  - destruct (dsub_round a b Fa Fb (fits _ (regular_1023 _ Rg))) as [F E]. apply close_sum; try assumption. rewrite E.
    destruct (nearest_sum a (dopp b)) as (dl & D & N). exists dl. split; [exact D|].
    replace (real_of (dopp b)) with (- real_of b) in N by (unfold real_of, dopp; now rewrite B2R_Bopp). exact N.
  - exists 1, (-1). split; [apply diff_sub|]. split; [apply lit1|apply litm1]; lra.
Qed.
Lemma B_mul : accurate2 (fun _ => u_mul) (fun _ _ _ => True) Rmult 2 4.
Proof.
  start2 0 (fun (_ : cmath DN) a b => dmul a b) (fun (_ : cmath DN) (a b : double) => b) (fun (_ : cmath DN) (a b : double) => a). split.
  - nearK 1%nat. apply (near_mul e He 0 0); try apply near_exact; try assumption; lia.
  - exists (real_of b), (real_of a). split; [apply diff_mul|]. split; apply exact_close; try assumption; try reflexivity; lra.
Qed.
Lemma B_div : accurate2 (fun _ => u_div) (fun _ a b => b <> 0 /\ regular (/ b) /\ regular (a / (b * b))) Rdiv 3 9.
Proof.
  start2 5 (fun (_ : cmath DN) a b => dmul a (ddiv one b)) (fun (_ : cmath DN) (a b : double) => ddiv one b)
    (fun (_ : cmath DN) (a b : double) => dmul (dopp (dmul a (ddiv one b))) (ddiv one b)). destruct Da as (Nb & R1 & R2).
  assert (I1 : near e 1 (ddiv one b) (/ real_of b)).
  { apply (near_eq e 1 _ (1 / real_of b)); [unfold Rdiv; ring|]. apply (near_div e He 0 0); [lia|exact (near_lit_small e 1 He ltac:(lia))|now apply near_exact|exact Nb|].
    unfold Rdiv. now rewrite Rmult_1_l. }
  assert (I2 : near e 2 (dmul a (ddiv one b)) (real_of a / real_of b)) by (apply (near_mul e He 0 1); [lia|now apply near_exact|exact I1|exact Rg]).
  assert (E2 : - (real_of a / real_of b) * / real_of b = - real_of a / (real_of b * real_of b)) by (field; exact Nb).
  split; [nearK 2%nat; exact I2|]. exists (/ real_of b), (- real_of a / (real_of b * real_of b)). split; [now apply diff_div|]. split.
  - apply (close_weaken (2 * e)); [assert (S := e_small e He); lra|]. nearK 1%nat. exact I1.
  - nearK 4%nat. rewrite <- E2. apply (near_mul e He 2 1); [lia|apply near_opp; exact I2|exact I1|]. rewrite E2.
    replace (- real_of a / (real_of b * real_of b)) with (- (real_of a / (real_of b * real_of b))) by (field; exact Nb). now apply reg_opp.
Qed.
Lemma B_pow : accurate2 g_pow (fun _ a b => 0 < a /\ regular (ln a) /\ regular (Rpower a b * b) /\ regular (Rpower a b * b / a) /\ regular (Rpower a b * ln a)) Rpower 1 8.
Proof.
  start2 4 (fun (M : cmath DN) a b => c_pow M a b) (fun (M : cmath DN) (a b : double) => ddiv (dmul (c_pow M a b) b) a)
    (fun (M : cmath DN) (a b : double) => dmul (c_pow M a b) (c_log M a)). destruct Da as (Pa & R1 & R2 & R3 & R4).
  assert (P := acc_pow M e A a b Fa Fb Pa Rg). assert (I1 := near_close e He _ _ P).
  split; [now rewrite Rmult_1_l|]. eexists; eexists. split; [exact (proj1 (proj2 D2_pow) (real_of a) (real_of b) Pa)|]. split.
  - nearK 3%nat. apply (near_eq e 3 _ (Rpower (real_of a) (real_of b) * real_of b / real_of a)); [unfold Rdiv; ring|].
    apply (near_div e He 2 0); [lia| |now apply near_exact|lra|exact R3]. apply (near_mul e He 1 0); [lia|exact I1|now apply near_exact|exact R2].
  - nearK 3%nat. apply (near_mul e He 1 1); [lia|exact I1| |exact R4]. apply near_close; [exact He|]. apply A; auto.
Qed.
Lemma B_hypot : accurate2 g_hypot (fun _ a b => (a <> 0 \/ b <> 0) /\ regular (a / sqrt (a * a + b * b)) /\ regular (b / sqrt (a * a + b * b)))
  (fun a b => sqrt (a * a + b * b)) 1 7.
Proof.
  start2 3 (fun (M : cmath DN) a b => c_hypot M a b) (fun (M : cmath DN) (a b : double) => ddiv a (c_hypot M a b))
    (fun (M : cmath DN) (a b : double) => ddiv b (c_hypot M a b)). destruct Da as (Nz & R1 & R2).
  assert (P := acc_hypot M e A a b Fa Fb I Rg). cbv beta in P. assert (I1 := near_close e He _ _ P).
  assert (Np : sqrt (real_of a * real_of a + real_of b * real_of b) <> 0).
  { assert (0 < sqrt (real_of a * real_of a + real_of b * real_of b)); [apply sqrt_lt_R0; destruct Nz; nra|lra]. }
  split; [now rewrite Rmult_1_l|]. eexists; eexists. split; [exact (proj1 (proj2 D2_hypot) (real_of a) (real_of b) Nz)|]. cbv beta. unfold R_hypot.
  split; nearK 2%nat; (apply (near_div e He 0 1); [lia|now apply near_exact|exact I1|exact Np|assumption]).
Qed.
Lemma Beqb_real (a b : double) : finite a -> finite b -> Beqb a b = true <-> real_of a = real_of b.
Proof. intros Fa Fb. rewrite Beqb_correct by assumption. unfold real_of. case Req_bool_spec; intuition congruence. Qed.
Lemma B_fmax : accurate2 g_fmax (fun _ a b => a <> b) Rmax 0 4.
Proof.
  start2 0 (fun (M : cmath DN) a b => c_fmax M a b) (fun (M : cmath DN) (a b : double) => if Beqb (c_fmax M a b) a then one else dofZ 0)
    (fun (M : cmath DN) (a b : double) => if Beqb (c_fmax M a b) a then dofZ 0 else one).
  destruct (acc_fmax M e A a b Fa Fb) as [F E]. split; [apply exact_close; [lra|exact F|exact E]|].
  eexists; eexists. split; [exact (proj1 (proj2 D2_fmax) (real_of a) (real_of b) Da)|]. cbv beta.
  assert (Q := Beqb_real _ _ F Fa). rewrite E in Q. destruct (Beqb (c_fmax M a b) a) eqn:B.
  - assert (X := proj1 Q eq_refl). assert (Y := Rmax_r (real_of a) (real_of b)). destruct (Rltb_spec (real_of a) (real_of b)) as [L|L]; [lra|].
    split; [apply lit1|apply lit0]; lra.
  - destruct (Rltb_spec (real_of a) (real_of b)) as [L|L]; [split; [apply lit0|apply lit1]; lra|]. exfalso.
    assert (X : Rmax (real_of a) (real_of b) = real_of a) by (apply Rmax_left; lra). apply Q in X. discriminate X.
Qed.
Lemma B_fmin : accurate2 g_fmin (fun _ a b => a <> b) Rmin 0 4.
Proof.
  start2 0 (fun (M : cmath DN) a b => c_fmin M a b) (fun (M : cmath DN) (a b : double) => if Beqb (c_fmin M a b) a then one else dofZ 0)
    (fun (M : cmath DN) (a b : double) => if Beqb (c_fmin M a b) a then dofZ 0 else one).
  destruct (acc_fmin M e A a b Fa Fb) as [F E]. split; [apply exact_close; [lra|exact F|exact E]|].
  eexists; eexists. split; [exact (proj1 (proj2 D2_fmin) (real_of a) (real_of b) Da)|]. cbv beta.
  assert (Q := Beqb_real _ _ F Fa). rewrite E in Q. destruct (Beqb (c_fmin M a b) a) eqn:B.
  - assert (X := proj1 Q eq_refl). assert (Y := Rmin_r (real_of a) (real_of b)). destruct (Rltb_spec (real_of a) (real_of b)) as [L|L]; [|exfalso; lra].
    split; [apply lit1|apply lit0]; lra.
  - destruct (Rltb_spec (real_of a) (real_of b)) as [L|L]; [|split; [apply lit0|apply lit1]; lra]. exfalso.
    assert (X : Rmin (real_of a) (real_of b) = real_of a) by (apply Rmin_left; lra). apply Q in X. discriminate X.
Qed.

(** ** fmod and remainder: the quotient is rounded before its integral part is taken *)
Lemma trunc_abs q : Rabs (IZR (Ztrunc q)) <= Rabs q.
Proof. rewrite <- abs_IZR, <- Ztrunc_abs, Ztrunc_floor by apply Rabs_pos. apply Zfloor_lb. Qed.
Lemma integer_regular z : Rabs (IZR z) <= pow2 1022 -> regular (IZR z).
Proof.
  intro H. destruct (Z.eq_dec z 0) as [->|N]; [now left|]. right. split; [|exact H]. rewrite <- abs_IZR.
  apply Rle_trans with 1; [change 1 with (pow2 0); apply pow2_le; lia|]. apply (IZR_le 1). lia.
Qed.
Lemma B_fmod : accurate2 g_fmod (fun _ a b => b <> 0 /\ (forall n, n <> 0%Z -> a / b <> IZR n) /\ regular (a / b) /\ Ztrunc (nearest (a / b)) = Ztrunc (a / b)) R_fmod 1 6.
Proof.
  start2 2 (fun (M : cmath DN) a b => c_fmod M a b) (fun (M : cmath DN) (a b : double) => one) (fun (M : cmath DN) (a b : double) => dopp (c_trunc M (ddiv a b))).
  destruct Da as (Nb & NJ & R1 & T). split; [rewrite Rmult_1_l; now apply A|].
  eexists; eexists. split; [exact (proj1 (proj2 D2_fmod) (real_of a) (real_of b) (conj Nb NJ))|]. cbv beta. split; [apply lit1; assert (S := e_small e He); lra|].
  nearK 1%nat. apply near_opp. apply near_close; [exact He|].
  destruct (ddiv_round a b Fa Nb (fits _ (regular_1023 _ R1))) as [F E].
  assert (C := acc_trunc M e A (ddiv a b) F I). rewrite E, T in C. apply C. apply integer_regular. eapply Rle_trans; [apply trunc_abs|]. now apply regular_1022.
Qed.
Lemma round_abs q : regular q -> Rabs (IZR (ZnearestE q)) <= pow2 1022.
Proof.
  intro H. assert (Rg := regular_1022 _ H). apply Rabs_le. apply Rabs_le_inv in Rg. destruct Rg as [L U].
  assert (P : pow2 1022 = IZR (2 ^ 1022)) by (unfold pow2; rewrite <- IZR_Zpower by lia; reflexivity). rewrite P in *. rewrite <- opp_IZR in *.
  split; apply IZR_le.
  - rewrite <- (Zrnd_IZR ZnearestE (- 2 ^ 1022)). now apply Zrnd_le; [apply valid_rnd_N|].
  - rewrite <- (Zrnd_IZR ZnearestE (2 ^ 1022)). now apply Zrnd_le; [apply valid_rnd_N|].
Qed.
Lemma B_remainder : accurate2 g_remainder (fun _ a b => b <> 0 /\ (forall n, a / b <> IZR n + / 2) /\ regular (a / b) /\ ZnearestA (nearest (a / b)) = ZnearestA (a / b)) R_remainder 1 6.
Proof.
  start2 2 (fun (M : cmath DN) a b => c_remainder M a b) (fun (M : cmath DN) (a b : double) => one) (fun (M : cmath DN) (a b : double) => dopp (c_round M (ddiv a b))).
  destruct Da as (Nb & NJ & R1 & T). split; [rewrite Rmult_1_l; now apply A|].
  eexists; eexists. split; [exact (proj1 (proj2 D2_remainder) (real_of a) (real_of b) (conj Nb NJ))|]. cbv beta. split; [apply lit1; assert (S := e_small e He); lra|].
  nearK 1%nat. apply near_opp. apply near_close; [exact He|].
  destruct (ddiv_round a b Fa Nb (fits _ (regular_1023 _ R1))) as [F E].
  assert (C := acc_round M e A (ddiv a b) F I). rewrite E, T, (nearestA_E _ NJ) in C. apply C. apply integer_regular. now apply round_abs.
Qed.

(** the quotient is far enough from the integers *)
Lemma quotient_rel q : regular q -> Rabs (nearest q - q) <= ur * Rabs q.
Proof.
  intros [->|[L _]]; [assert (Z : nearest 0 = 0) by (apply round_0, valid_rnd_N); rewrite Z, Rminus_eq_0, Rabs_R0; lra|].
  apply rel_err. eapply Rle_trans; [|exact L]. apply pow2_le. lia.
Qed.
Lemma trunc_same q y : 0 <= q -> Rabs (y - q) <= ur * q -> (forall n, n <> 0%Z -> ur * q < Rabs (q - IZR n)) -> Ztrunc y = Ztrunc q.
Proof.
  intros Q H N. assert (U := ur_small). apply Rabs_le_inv in H. assert (Y : 0 <= y) by nra. rewrite !Ztrunc_floor by assumption.
  assert (L := Zfloor_lb q). assert (B := Zfloor_ub q). apply Zfloor_imp. set (n := Zfloor q) in *. rewrite plus_IZR.
  assert (N0 : (0 <= n)%Z) by (apply Zfloor_lub; exact Q).
  assert (N1 := N (n + 1)%Z ltac:(lia)). rewrite plus_IZR, Rabs_left1 in N1 by lra. split; [|lra].
  destruct (Z.eq_dec n 0) as [E|E]; [rewrite E; exact Y|]. assert (N2 := N n E). rewrite Rabs_pos_eq in N2 by lra. lra.
Qed.
Lemma C66_quotient_trunc_proof : forall q, regular q -> (forall n, n <> 0%Z -> uround * Rabs q < Rabs (q - IZR n)) -> Ztrunc (nearest q) = Ztrunc q.
Proof.
  intros q Rg N. assert (H := quotient_rel q Rg). destruct (Rle_dec 0 q) as [P|P].
  - rewrite (Rabs_pos_eq q) in H by exact P. apply trunc_same; [exact P|exact H|]. intros n Hn. rewrite <- (Rabs_pos_eq q) at 1 by exact P. now apply N.
  - apply Rnot_le_lt in P. rewrite (Rabs_left q) in H by exact P. apply Z.opp_inj. rewrite <- !Ztrunc_opp. apply trunc_same; [lra| |].
    + replace (- nearest q - - q) with (- (nearest q - q)) by ring. now rewrite Rabs_Ropp.
    + intros n Hn. assert (X := N (- n)%Z ltac:(lia)). rewrite opp_IZR, (Rabs_left q) in X by exact P. rewrite <- Rabs_Ropp. now replace (- (- q - IZR n)) with (q - - IZR n) by ring.
Qed.
Lemma C66_quotient_round_proof : forall q, regular q -> (forall n, uround * Rabs q < Rabs (q - (IZR n + / 2))) -> ZnearestA (nearest q) = ZnearestA q.
Proof.
  intros q Rg N. assert (H := quotient_rel q Rg).
  assert (NJ : no_jump_round q).
  { intros k E. assert (X := N k). rewrite <- E, Rminus_eq_0, Rabs_R0 in X. assert (U := ur_small). assert (Z := Rabs_pos q). change uround with ur in X. nra. }
  rewrite (nearestA_E q NJ). assert (B := no_jump_near q NJ). set (n := ZnearestE q) in *. apply Znearest_imp.
  apply Rabs_def2 in B. apply Rabs_le_inv in H. set (h := ur * Rabs q) in *. change uround with ur in N. fold h in N.
  assert (N1 := N n). assert (N2 := N (n - 1)%Z). rewrite minus_IZR in N2. rewrite Rabs_left in N1 by lra. rewrite Rabs_pos_eq in N2 by lra.
  apply Rabs_def1; lra.
Qed.

Lemma C66_operators_proof :
  accurate2 (fun _ => u_add) (fun _ _ _ => True) Rplus 1 4 /\
  accurate2 (fun _ => u_sub) (fun _ _ _ => True) Rminus 1 4 /\
  accurate2 (fun _ => u_mul) (fun _ _ _ => True) Rmult 2 4 /\
  accurate2 (fun _ => u_div) (fun _ a b => b <> 0 /\ regular (/ b) /\ regular (a / (b * b))) Rdiv 3 9.
Proof. exact (conj B_add (conj B_sub (conj B_mul B_div))). Qed.
Lemma C66_functions_proof :
  accurate2 g_pow (fun _ a b => 0 < a /\ regular (ln a) /\ regular (Rpower a b * b) /\ regular (Rpower a b * b / a) /\ regular (Rpower a b * ln a)) Rpower 1 8 /\
  accurate2 g_hypot (fun _ a b => (a <> 0 \/ b <> 0) /\ regular (a / sqrt (a * a + b * b)) /\ regular (b / sqrt (a * a + b * b)))
    (fun a b => sqrt (a * a + b * b)) 1 7 /\
  accurate2 g_fmax (fun _ a b => a <> b) Rmax 0 4 /\
  accurate2 g_fmin (fun _ a b => a <> b) Rmin 0 4.
Proof. exact (conj B_pow (conj B_hypot (conj B_fmax B_fmin))). Qed.
Lemma C66_quotient_partial_proof :
  accurate2 g_fmod (fun _ a b => b <> 0 /\ (forall n, n <> 0%Z -> a / b <> IZR n) /\ regular (a / b) /\ Ztrunc (nearest (a / b)) = Ztrunc (a / b))
    (fun x y => x - IZR (Ztrunc (x / y)) * y) 1 6 /\
  accurate2 g_remainder (fun _ a b => b <> 0 /\ (forall n, a / b <> IZR n + / 2) /\ regular (a / b) /\ ZnearestA (nearest (a / b)) = ZnearestA (a / b))
    (fun x y => x - IZR (ZnearestE (x / y)) * y) 1 6.
Proof. exact (conj B_fmod B_remainder). Qed.

(** ** Without that condition *)
Definition two_vars (a b : double) : list (call DN) := [CNew 0%nat (a : DN) (dofZ 1 : DN); CNew 1%nat (b : DN) (dofZ 1 : DN)].
Lemma two_vars_run a b : run w_init (two_vars a b) = Ret (after (two_vars a b)).
Proof. reflexivity. Qed.
Lemma two_vars_legal a b : dlegal (two_vars a b).
Proof. apply dlegal_small; [repeat constructor|cbn; lia]. Qed.
Lemma refute2 (m : cmath DN -> ureal DN -> ureal DN -> outcome (ureal DN)) (dom : R -> R -> R -> Prop) (F : R -> R -> R) (k0 K : R) (mu d1 d2 : double) (a b : double) (ra rb dx dy : R) :
  accurate2 m dom F k0 K -> (forall x y : ureal DN, u_n x = a -> u_n y = b -> m rounded_cmath x y = u_binary x y mu d1 d2) ->
  finite a -> finite b -> real_of a = ra -> real_of b = rb -> dom uround ra rb -> regular (F ra rb) ->
  dpl F ra rb dx dy -> regular dy -> Rabs (real_of (dadd (n0 : DN) (dmul d2 (dofZ 1))) - dy) <= K * ur * Rabs dy.
Proof.
  intros H Em Fa Fb <- <- D Rg Df Rd. set (w := after (two_vars a b)).
  assert (Ux : u_n (w_var w 0%nat) = a) by reflexivity. assert (Uy : u_n (w_var w 1%nat) = b) by reflexivity.
  destruct (H rounded_cmath uround ltac:(split; [apply Rle_refl|apply pow2_le; lia]) rounded_accurate (two_vars a b) w (two_vars_legal a b) ltac:(repeat constructor) (two_vars_run a b) 0%nat 1%nat) as (z & e1 & e2 & Ez & _ & D1 & _ & C & _).
  - rewrite Ux. exact Fa.
  - rewrite Uy. exact Fb.
  - rewrite Ux, Uy. exact D.
  - rewrite Ux, Uy. exact Rg.
  - rewrite Ux, Uy in D1. rewrite (Em _ _ Ux Uy) in Ez.
    destruct (differentiable_pt_lim_unique _ _ _ _ _ D1) as [X1 Y1]. destruct (differentiable_pt_lim_unique _ _ _ _ _ Df) as [X2 Y2].
    assert (e1 = dx) by congruence. assert (e2 = dy) by congruence. clear X1 X2 Y1 Y2 D1. subst e1 e2.
    assert (Rw : dreachable w) by (exists (two_vars a b); split; [apply two_vars_legal|apply two_vars_run]). destruct (dreach_wwf w Rw) as [[Pl W] B].
    destruct (binary_wf (N := DN) (w_last w) _ _ mu d1 d2 (W 0%nat) (W 1%nat) B) as (z' & Ez' & Wz & Mz & Fz & _).
    rewrite Ez' in Ez. injection Ez as <-. specialize (C (uid (w_var w 1%nat))).
    set (i := uid (w_var w 1%nat)) in *.
    assert (Cx : stored (w_var w 0%nat) i = None) by reflexivity. assert (Cy : stored (w_var w 1%nat) i = Some (dofZ 1)) by reflexivity.
    unfold coef, finite_at in C. change (stored z' i) with (ufind i z') in C. rewrite Fz in C. change (ufind i (w_var w 0%nat)) with (stored (w_var w 0%nat) i) in C.
    change (ufind i (w_var w 1%nat)) with (stored (w_var w 1%nat) i) in C. rewrite Cx, Cy in C. cbn [comb2] in C. rewrite (real_lit 1 eq_refl) in C.
    change (nadd (n := DN) n0 (nmul (n := DN) d2 (dofZ 1))) with (dadd (n0 : DN) (dmul d2 (dofZ 1))) in C.
    rewrite !Rmult_0_r, Rmult_1_r, Rabs_R0, !Rplus_0_l in C. apply C. split; [exact I|]. split; [reflexivity|]. split; [now left|]. split; [exact Rd|].
    now apply regular_1022.
Qed.
Definition a_fmod : double := dadd (dofZ 3) (half 1 51).
Definition a_rem : double := dadd (half 5 1) (half 1 51).
Definition b_quot : double := dadd (dofZ 1) (half 1 52).
Lemma a_fmod_real : real_of a_fmod = 3 + / 2251799813685248. Proof. realval. lra. Qed.
Lemma a_rem_real : real_of a_rem = 5 / 2 + / 2251799813685248. Proof. realval. lra. Qed.
Lemma b_quot_real : real_of b_quot = 1 + / 4503599627370496. Proof. realval. lra. Qed.
Lemma q_fmod : real_of (ddiv a_fmod b_quot) = 3. Proof. realval. lra. Qed.
Lemma q_rem : real_of (ddiv a_rem b_quot) = 5 / 2. Proof. realval. lra. Qed.
Lemma unit_coef (c : double) : finite c -> real_of (dadd (n0 : DN) (dmul c (dofZ 1))) = real_of c.
Proof.
  intro F. assert (G : nearest (real_of c) = real_of c) by (apply round_generic; [apply valid_rnd_N|apply (generic_format_B2R 53 1024)]).
  destruct (dmul_round c (dofZ 1) F eq_refl) as [Fp Ep]; rewrite (real_lit 1 eq_refl), Rmult_1_r in *.
  - unfold no_overflow. rewrite G. apply (abs_B2R_lt_emax 53 1024).
  - rewrite (proj2 (add_zero _ Fp)). now rewrite Ep, G.
Qed.
Lemma int_coef z (t : double) : (Z.abs z <=? 1024)%Z = true -> t = R2B (IZR z) -> real_of (dadd (n0 : DN) (dmul (dopp t) (dofZ 1))) = - IZR z.
Proof.
  intros H ->. assert (E : finite (R2B (IZR z)) /\ real_of (R2B (IZR z)) = IZR z).
  { apply R2B_exact. exists (dofZ z). split; [|now apply real_lit]. apply (near_lit_small uround z); [split; [apply Rle_refl|apply pow2_le; lia]|now apply Z.leb_le]. }
  destruct E as [F E]. rewrite unit_coef; [unfold real_of, dopp in *; rewrite B2R_Bopp; now rewrite E|]. unfold finite, dopp. now rewrite is_finite_Bopp.
Qed.
Lemma quotient_off K (c : R) : K <= 4194304 -> Rabs (- IZR 3 - - IZR 2) <= K * ur * Rabs (- IZR 2) -> False.
Proof. intros HK B. assert (S := small_K22 K HK). rewrite Rabs_Ropp, (Rabs_pos_eq 2) in B by lra. replace (- (3) - - (2)) with (- (1)) in B by lra. rewrite Rabs_Ropp, Rabs_R1 in B. lra. Qed.
Lemma C66_quotient_refuted_proof : forall k K, K <= 4194304 ->
  ~ accurate2 g_fmod (fun _ a b => b <> 0 /\ (forall n, n <> 0%Z -> a / b <> IZR n) /\ regular (a / b)) (fun x y => x - IZR (Ztrunc (x / y)) * y) k K /\
  ~ accurate2 g_remainder (fun _ a b => b <> 0 /\ (forall n, a / b <> IZR n + / 2) /\ regular (a / b)) (fun x y => x - IZR (ZnearestE (x / y)) * y) k K.
Proof.
  intros k K HK. split; intro H.
  - set (ra := 3 + / 2251799813685248) in *. set (rb := 1 + / 4503599627370496) in *. set (q := ra / rb).
    assert (Nb : rb <> 0) by (apply Rgt_not_eq; unfold rb; lra).
    assert (Q : rb * q = ra) by (unfold q, rb, ra; field). assert (Qb : 2 < q < 3) by (unfold ra, rb in Q; split; nra).
    assert (T : Ztrunc q = 2%Z) by (rewrite Ztrunc_floor by lra; apply Zfloor_imp; simpl; lra).
    assert (NJ : no_jump_trunc q).
    { intros n Hn E. rewrite E in Qb. destruct Qb as [A B]. apply lt_IZR in A. apply lt_IZR in B. lia. }
    assert (Rf : R_fmod ra rb = 1) by (unfold R_fmod; fold q; rewrite T; unfold ra, rb; lra).
    assert (B := refute2 _ _ _ _ _ (c_fmod rounded_cmath a_fmod b_quot) one (dopp (c_trunc rounded_cmath (ddiv a_fmod b_quot))) a_fmod b_quot ra rb 1 (- IZR (Ztrunc q)) H
      ltac:(intros x y Ex Ey; cbv beta delta [g_fmod g_remainder]; rewrite Ex, Ey; reflexivity) eq_refl eq_refl a_fmod_real b_quot_real
      ltac:(split; [exact Nb|]; split; [exact NJ|]; apply reg_mid; change (ra / rb) with q; lra)
      ltac:(change (regular (R_fmod ra rb)); rewrite Rf; apply reg_mid; lra)
      (proj1 (proj2 D2_fmod) ra rb (conj Nb NJ)) ltac:(rewrite T; apply reg_opp, reg_mid; simpl; lra)).
    rewrite T in B. rewrite (int_coef 3 _ eq_refl) in B.
    + exact (quotient_off K 0 HK B).
    + change (c_trunc rounded_cmath (ddiv a_fmod b_quot)) with (R2B (IZR (Ztrunc (real_of (ddiv a_fmod b_quot))))). rewrite q_fmod. now rewrite (Ztrunc_IZR 3).
  - set (ra := 5 / 2 + / 2251799813685248) in *. set (rb := 1 + / 4503599627370496) in *. set (q := ra / rb).
    assert (Nb : rb <> 0) by (apply Rgt_not_eq; unfold rb; lra).
    assert (Q : rb * q = ra) by (unfold q, rb, ra; field). assert (Qb : 2 < q < 5 / 2) by (unfold ra, rb in Q; split; nra).
    assert (NJ : no_jump_round q).
    { intros n E. rewrite E in Qb. destruct Qb as [A B]. assert (IZR n < 2) by lra. assert (1 < IZR n) by lra. apply lt_IZR in H0. apply lt_IZR in H1. lia. }
    assert (T : ZnearestE q = 2%Z) by (apply Znearest_imp; apply Rabs_def1; simpl; lra).
    assert (Rf : R_remainder ra rb = / 2) by (unfold R_remainder; fold q; rewrite T; unfold ra, rb; lra).
    assert (B := refute2 _ _ _ _ _ (c_remainder rounded_cmath a_rem b_quot) one (dopp (c_round rounded_cmath (ddiv a_rem b_quot))) a_rem b_quot ra rb 1 (- IZR (ZnearestE q)) H
      ltac:(intros x y Ex Ey; cbv beta delta [g_fmod g_remainder]; rewrite Ex, Ey; reflexivity) eq_refl eq_refl a_rem_real b_quot_real
      ltac:(split; [exact Nb|]; split; [exact NJ|]; apply reg_mid; change (ra / rb) with q; lra)
      ltac:(change (regular (R_remainder ra rb)); rewrite Rf; apply reg_mid; lra)
      (proj1 (proj2 D2_remainder) ra rb (conj Nb NJ)) ltac:(rewrite T; apply reg_opp, reg_mid; simpl; lra)).
    rewrite T in B. rewrite (int_coef 3 _ eq_refl) in B.
    + exact (quotient_off K 0 HK B).
    + change (c_round rounded_cmath (ddiv a_rem b_quot)) with (R2B (IZR (ZnearestA (real_of (ddiv a_rem b_quot))))). rewrite q_rem. f_equal. f_equal.
      unfold Znearest. replace (Zfloor (5 / 2)) with 2%Z by (symmetry; apply Zfloor_imp; simpl; lra).
      rewrite Rcompare_Eq by (simpl; lra). cbn [Z.leb]. apply Zceil_imp. simpl. lra.
Qed.
