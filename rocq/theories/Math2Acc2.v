(** * Math2Acc2: the functions without cancellation on UReal2<double> (C78) *)

From Coq Require Import List ZArith Reals Bool Lra Lia Psatz.
From Coquelicot Require Import Coquelicot.
From Flocq Require Import Core BinarySingleNaN.
From Verif Require Import Base Num Map UReal World SpecObs HessGrad UReal2 World2 SpecU2Run.
From Verif Require Import Ieee IeeeFacts SpecIeee IeeeProofs3 IeeeProofs4 IeeeCov Nan Math SpecMathIeee IeeeRel MathAcc MathAcc2 MathAcc3 MathAcc4.
From Verif Require Import Derivs Math2 SpecMath2 SpecAcc3 SpecMath2Ieee Math2Acc.
Import ListNotations.
Local Open Scope R_scope.

Ltac nz := first [assumption | apply Rgt_not_eq; lra].
Ltac srt := repeat first [eassumption | apply sr_lit; lia | eapply sr_opp | eapply sr_inv; [nz|] | eapply sr_div; [nz| |] | eapply sr_mul].
Ltac reg := first [assumption | eapply sr_regular; cycle 2; [srt|lia|lia]].
Ltac start2 FM FD FDD :=
  apply (accurate1_2nd_intro _ _ _ _ _ FM FD FDD); [intros; reflexivity|];
  intros M e a He A Fa r Da Rg; cbn beta in *.
Ltac fin2 k1 k2 dv :=
  match goal with He : ur <= ?e <= pow2 (-20) |- _ =>
    split; [|do 2 eexists; split; [exact dv|]; exists e, k1, k2;
      split; [lra|split; [lia|split; [lia|split; [right; f_equal; rewrite INR_IZR_INZ; simpl; lra|split; [right; f_equal; rewrite INR_IZR_INZ; simpl; lra|split; [intro R1|intros R1 R2]]]]]]] end.
Ltac lits := match goal with |- near _ 0 (dofZ ?z) _ => apply near_lit_small; [assumption|lia] end.

Lemma B_abs : accurate1_2nd (fun _ => g2_abs) (fun _ a => a <> 0) Rabs (fun _ => 2) (fun _ => 6).
Proof.
  start2 (fun (_ : cmath DN) (a : double) => dabs a) (fun (_ : cmath DN) (a : double) => if Bleb (dofZ 0) a then dofZ 1 else dofZ (-1)) (fun (_ : cmath DN) (_ : double) => dofZ 0).
  fin2 0%nat 0%nat (derivs2_twice _ _ _ _ r D_abs Da).
  - split; [unfold finite, dabs; now rewrite is_finite_Babs|].
    replace (real_of (dabs a)) with (Rabs r) by (unfold real_of, dabs; now rewrite B2R_Babs).
    rewrite Rminus_eq_0, Rabs_R0. assert (S := e_small e He). apply Rmult_le_pos; [lra|apply Rabs_pos].
  - assert (E : Bleb (dofZ 0) a = Rleb 0 r).
    { rewrite Bleb_correct by (reflexivity || exact Fa). fold (real_of a). change (B2R (dofZ 0)) with (real_of (dofZ 0)). rewrite (real_lit 0 eq_refl). fold r.
      destruct (Rleb_spec 0 r) as [L|L]; [now apply Rle_bool_true|apply Rle_bool_false; lra]. }
    rewrite E. destruct (Rleb 0 r); lits.
  - lits.
Qed.
Lemma B_exp : accurate1_2nd g2_exp (fun _ _ => True) exp (fun _ => 3) (fun _ => 7).
Proof.
  start2 (fun (M : cmath DN) (a : double) => c_exp M a) (fun (M : cmath DN) (a : double) => c_exp M a) (fun (M : cmath DN) (a : double) => c_exp M a).
  assert (C : close e (c_exp M a) (exp r)) by (apply A; auto).
  fin2 1%nat 1%nat (derivs2_twice _ _ _ _ r D_exp I); [exact C|now apply near_close..].
Qed.
Lemma log_lit M e z : ur <= e <= pow2 (-20) -> accurate M e -> (2 <= z <= 1024)%Z -> regular (ln (IZR z)) -> near e 1 (c_log M (dofZ z)) (ln (IZR z)).
Proof.
  intros He A Hz Rg. apply near_close; [exact He|]. assert (V : real_of (dofZ z) = IZR z) by (apply real_lit, Z.leb_le; lia).
  assert (Q := acc_log M e A (dofZ z) (proj1 (near_lit_small e z He ltac:(lia)))). rewrite V in Q. apply Q; [apply IZR_lt; lia|exact Rg].
Qed.
Lemma ln2_sr : sr (-1) 0 (ln 2). Proof. exact (sr_rng _ _ _ ln2_rng). Qed.
Lemma ln10_sr : sr 0 3 (ln 10). Proof. exact (sr_rng _ _ _ ln10_rng). Qed.
Lemma B_exp2 : accurate1_2nd g2_exp2 (fun _ _ => True) (fun x => Rpower 2 x) (fun _ => 5) (fun _ => 11).
Proof.
  start2 (fun (M : cmath DN) (a : double) => c_exp2 M a) (fun (M : cmath DN) (a : double) => dmul (c_log M (dofZ 2)) (c_exp2 M a))
    (fun (M : cmath DN) (a : double) => dmul (dmul (c_log M (dofZ 2)) (c_log M (dofZ 2))) (c_exp2 M a)).
  assert (C : close e (c_exp2 M a) (Rpower 2 r)) by (apply A; auto). assert (N := near_close e He _ _ C).
  assert (S2 := ln2_sr). assert (L := log_lit M e 2 He A ltac:(lia) ltac:(reg)).
  fin2 3%nat 5%nat (derivs2_twice _ _ _ _ r D_exp2 I); [exact C| |].
  - apply (near_mul e He 1 1); [lia|exact L|exact N|exact R1].
  - rewrite <- Rmult_assoc in R2 |- *. apply (near_mul e He 3 1); [lia| |exact N|exact R2].
    apply (near_mul e He 1 1); [lia|exact L|exact L|reg].
Qed.
Lemma B_expm1 : accurate1_2nd g2_expm1 (fun _ _ => True) (fun x => exp x - 1) (fun _ => 3) (fun _ => 7).
Proof.
  start2 (fun (M : cmath DN) (a : double) => c_expm1 M a) (fun (M : cmath DN) (a : double) => c_exp M a) (fun (M : cmath DN) (a : double) => c_exp M a).
  fin2 1%nat 1%nat (derivs2_twice _ _ _ _ r D_expm1 I); [apply A; auto|apply near_close; [exact He|]; apply A; auto..].
Qed.
Lemma near_sq e (a : double) : ur <= e <= pow2 (-20) -> finite a -> regular (real_of a * real_of a) -> near e 1 (dmul a a) (real_of a * real_of a).
Proof. intros He Fa Rg. apply (near_mul e He 0 0); [lia|now apply near_exact..|exact Rg]. Qed.
Lemma near_m1 e : ur <= e <= pow2 (-20) -> near e 0 (dopp (dofZ 1)) (-1).
Proof. intro He. apply (near_eq _ _ _ (- (1))); [lra|]. apply near_opp. now apply near_lit_small. Qed.
Lemma near_m2 e : ur <= e <= pow2 (-20) -> near e 0 (dopp (dofZ 2)) (-2).
Proof. intro He. apply (near_eq _ _ _ (- (2))); [lra|]. apply near_opp. now apply near_lit_small. Qed.
Lemma B_log : accurate1_2nd g2_log (fun _ a => pow2 (-500) <= a <= pow2 500) ln (fun _ => 3) (fun _ => 8).
Proof.
  start2 (fun (M : cmath DN) (a : double) => c_log M a) (fun (M : cmath DN) (a : double) => ddiv (dofZ 1) a) (fun (M : cmath DN) (a : double) => ddiv (dopp (dofZ 1)) (dmul a a)).
  assert (P := rng_pos _ _ _ Da). assert (Sa := sr_rng _ _ _ Da). assert (P2 : 0 < r * r) by nra.
  fin2 1%nat 2%nat (derivs2_twice _ _ _ _ r D_ln P).
  - apply A; auto.
  - apply (near_eq _ _ _ (1 / r)); [field; lra|]. apply (near_div e He 0 0); [lia|lits|now apply near_exact|unfold r in *; lra|].
    fold r. unfold Rdiv. rewrite Rmult_1_l. reg.
  - apply (near_eq _ _ _ (-1 / (r * r))); [field; lra|]. apply (near_div e He 0 1); [lia|now apply near_m1|apply near_sq; auto; fold r; reg|lra|reg].
Qed.
Lemma B_logb (b : Z) (g : forall M : cmath DN, ureal2 DN -> outcome (ureal2 DN)) (cl : cmath DN -> double -> double) : (2 <= b <= 10)%Z -> sr (-1) 3 (ln (IZR b)) ->
  (forall M x, g M x = u2_unary x (cl M (u2mu x) : DN) (ddiv (ddiv (dofZ 1) (c_log M (dofZ b))) (u2mu x) : DN)
     (ddiv (dopp (ddiv (dofZ 1) (c_log M (dofZ b)))) (dmul (u2mu x) (u2mu x)) : DN)) ->
  (forall M e, accurate M e -> lib1 e (cl M) (fun x => 0 < x) (fun x => ln x / ln (IZR b))) ->
  accurate1_2nd g (fun _ a => pow2 (-500) <= a <= pow2 500) (fun x => ln x / ln (IZR b)) (fun _ => 5) (fun _ => 10).
Proof.
  intros Hb Sb Eg Acl.
  apply (accurate1_2nd_intro _ _ _ _ _ cl (fun M a => ddiv (ddiv (dofZ 1) (c_log M (dofZ b))) a) (fun M a => ddiv (dopp (ddiv (dofZ 1) (c_log M (dofZ b)))) (dmul a a))); [exact Eg|].
  intros M e a He A Fa r Da Rg. assert (P := rng_pos _ _ _ Da). assert (Sa := sr_rng _ _ _ Da). assert (P2 : 0 < r * r) by nra.
  assert (B1 : 1 < IZR b) by (apply IZR_lt; lia). assert (Lb := ln_gt1 _ B1). set (l := ln (IZR b)) in *.
  assert (L : near e 1 (c_log M (dofZ b)) l) by (apply log_lit; [exact He|exact A|lia|reg]).
  assert (Nl : l <> 0) by lra.
  assert (Ni : near e 2 (ddiv (dofZ 1) (c_log M (dofZ b))) (1 / l)) by (apply (near_div e He 0 1); [lia|lits|exact L|exact Nl|unfold Rdiv; rewrite Rmult_1_l; reg]).
  assert (Nr : r <> 0) by lra. assert (Nr2 : r * r <> 0) by lra.
  fin2 3%nat 4%nat (derivs2_twice _ _ _ _ r (D_logb (IZR b) B1) P).
  - apply (Acl M e A); auto.
  - fold l in R1 |- *. replace (/ (r * l)) with (1 / l / r) in R1 |- * by (field; lra).
    apply (near_div e He 2 0); [lia|exact Ni|now apply near_exact|exact Nr|exact R1].
  - fold l in R2 |- *. replace (- / (r * r * l)) with (- (1 / l) / (r * r)) in R2 |- * by (field; lra).
    apply (near_div e He 2 1); [lia|now apply near_opp|apply near_sq; auto; fold r; reg|exact Nr2|exact R2].
Qed.
Lemma B_log10 : accurate1_2nd g2_log10 (fun _ a => pow2 (-500) <= a <= pow2 500) (fun x => ln x / ln 10) (fun _ => 5) (fun _ => 10).
Proof. apply (B_logb 10 g2_log10 c_log10); [lia|apply (sr_weaken 0 3); [lia|lia|exact ln10_sr]|reflexivity|]. intros M e A. exact (acc_log10 M e A). Qed.
Lemma B_log2 : accurate1_2nd g2_log2 (fun _ a => pow2 (-500) <= a <= pow2 500) (fun x => ln x / ln 2) (fun _ => 5) (fun _ => 10).
Proof. apply (B_logb 2 g2_log2 c_log2); [lia|apply (sr_weaken (-1) 0); [lia|lia|exact ln2_sr]|reflexivity|]. intros M e A. exact (acc_log2 M e A). Qed.
Lemma B_log1p : accurate1_2nd g2_log1p (fun _ a => pow2 (-500) <= 1 + a <= pow2 500) (fun x => ln (1 + x)) (fun _ => 4) (fun _ => 11).
Proof.
  start2 (fun (M : cmath DN) (a : double) => c_log1p M a) (fun (M : cmath DN) (a : double) => ddiv (dofZ 1) (dadd (dofZ 1) a))
    (fun (M : cmath DN) (a : double) => dmul (dopp (ddiv (dofZ 1) (dadd (dofZ 1) a))) (ddiv (dofZ 1) (dadd (dofZ 1) a))).
  assert (P := rng_pos _ _ _ Da). assert (Sa := sr_rng _ _ _ Da). assert (Dm : -1 < r) by lra. assert (Np : 1 + r <> 0) by lra.
  assert (Da' := rng_weaken (-500) 500 (-1000) 1000 _ ltac:(lia) ltac:(lia) Da).
  assert (N1 : near e 2 (ddiv (dofZ 1) (dadd (dofZ 1) a)) (/ (1 + r))).
  { apply (near_eq _ _ _ (1 / (1 + r))); [field; lra|]. apply (near_div e He 0 1); [lia|lits|now apply near_1p|exact Np|]. unfold Rdiv. rewrite Rmult_1_l. reg. }
  fin2 2%nat 5%nat (derivs2_twice _ _ _ _ r D_log1p Dm).
  - apply A; auto.
  - exact N1.
  - replace (- / ((1 + r) * (1 + r))) with (- / (1 + r) * / (1 + r)) in R2 |- * by (field; lra).
    apply (near_mul e He 2 2); [lia|now apply near_opp|exact N1|exact R2].
Qed.
Lemma B_sqrt : accurate1_2nd (fun _ => g2_sqrt) (fun _ a => pow2 (-500) <= a <= pow2 500) sqrt (fun _ => 5) (fun _ => 10).
Proof.
  start2 (fun (_ : cmath DN) (a : double) => dsqrt a) (fun (_ : cmath DN) (a : double) => ddiv (dofZ 1) (dmul (dofZ 2) (dsqrt a)))
    (fun (_ : cmath DN) (a : double) => ddiv (dopp (dofZ 1)) (dmul (dmul (dofZ 4) a) (dsqrt a))).
  assert (P := rng_pos _ _ _ Da). assert (Sa := sr_rng _ _ _ Da). assert (Q : rng (-250) 250 (sqrt r)) by (now apply rng_sqrt).
  assert (Sq := sr_rng _ _ _ Q). assert (Pq := rng_pos _ _ _ Q).
  assert (Ns : near e 1 (dsqrt a) (sqrt r)) by (apply (near_sqrt e He 0); [lia|lra|now apply near_exact|exact Rg]).
  assert (T2 : 2 * sqrt r <> 0) by lra. assert (T4 : 4 * r * sqrt r <> 0) by (apply Rmult_integral_contrapositive; lra).
  fin2 3%nat 4%nat (derivs2_twice _ _ _ _ r D_sqrt P).
  - destruct (sqrt_d a Fa ltac:(fold r; lra)) as [F E]. split; [exact F|]. rewrite E. fold r.
    assert (RE := rel_err (sqrt r)). fold ur in RE. eapply Rle_trans; [apply RE|apply Rmult_le_compat_r; [apply Rabs_pos|lra]].
    rewrite Rabs_pos_eq by lra. eapply Rle_trans; [|exact (proj1 Q)]. apply pow2_le. lia.
  - replace (/ (2 * sqrt r)) with (1 / (2 * sqrt r)) in R1 |- * by (field; lra).
    apply (near_div e He 0 2); [lia|lits| |exact T2|exact R1]. apply (near_mul e He 0 1); [lia|lits|exact Ns|reg].
  - replace (- / (4 * r * sqrt r)) with (-1 / (4 * r * sqrt r)) in R2 |- * by (field; lra).
    apply (near_div e He 0 3); [lia|now apply near_m1| |exact T4|exact R2].
    apply (near_mul e He 1 1); [lia| |exact Ns|reg]. apply (near_mul e He 0 0); [lia|lits|now apply near_exact|reg].
Qed.
Lemma cbrt_sr n x : (0 <= n)%Z -> sr (- n + - n + - n) (n + n + n) x -> sr (- n) n (R_cbrt x).
Proof.
  intros Hn Hx. assert (C := cbrt_cube x). set (c := R_cbrt x) in *. destruct (Req_dec c 0) as [->|N]; [now left|]. right.
  destruct Hx as [E|[L U]]. { exfalso. rewrite E in C. assert (c * c * c <> 0) by (repeat apply Rmult_integral_contrapositive_currified; assumption). contradiction. }
  rewrite <- C, !Rabs_mult, !pow2_add in L, U. assert (P := Rabs_pos_lt c N). set (y := Rabs c) in *. assert (P1 := pow2_pos n). assert (P2 := pow2_pos (- n)).
  split; apply Rnot_lt_le; intro H.
  - assert (y * y < pow2 (- n) * pow2 (- n)) by nra. assert (y * y * y < pow2 (- n) * pow2 (- n) * pow2 (- n)); [|lra].
    apply Rmult_le_0_lt_compat; nra.
  - assert (pow2 n * pow2 n < y * y) by nra. assert (pow2 n * pow2 n * pow2 n < y * y * y); [|lra].
    apply Rmult_le_0_lt_compat; nra.
Qed.
Lemma B_cbrt : accurate1_2nd g2_cbrt (fun _ a => pow2 (-750) <= Rabs a <= pow2 750) R_cbrt (fun _ => 7) (fun _ => 13).
Proof.
  start2 (fun (M : cmath DN) (a : double) => c_cbrt M a)
    (fun (M : cmath DN) (a : double) => ddiv (ddiv (dofZ 1) (dmul (c_cbrt M a) (c_cbrt M a))) (dofZ 3))
    (fun (M : cmath DN) (a : double) => dmul (ddiv (dopp (dofZ 2)) (dmul (dofZ 9) a)) (ddiv (dofZ 1) (dmul (c_cbrt M a) (c_cbrt M a)))).
  assert (Sa : sr (-750) 750 r) by now right. assert (Nr : r <> 0). { intro E. rewrite E, Rabs_R0 in Da. assert (P := pow2_pos (-750)). lra. }
  assert (Sc := cbrt_sr 250 r ltac:(lia) Sa). assert (Nc := cbrt_neq0 r Nr). set (c := R_cbrt r) in *.
  assert (C : close e (c_cbrt M a) c) by (apply A; auto). assert (N := near_close e He _ _ C).
  assert (Ncc : c * c <> 0) by now apply Rmult_integral_contrapositive. assert (N9 : 9 * r <> 0) by lra. assert (N3 : 3 <> 0) by lra.
  assert (Sl9 : sr 0 4 9) by (apply sr_lit; lia). assert (Sl3 : sr 0 4 3) by (apply sr_lit; lia). assert (Slm : sr 0 4 (-2)) by (apply sr_lit; lia).
  assert (Ni : near e 4 (ddiv (dofZ 1) (dmul (c_cbrt M a) (c_cbrt M a))) (/ (c * c))).
  { apply (near_eq _ _ _ (1 / (c * c))); [field; assumption|]. apply (near_div e He 0 3); [lia|lits| |exact Ncc|].
    - apply (near_mul e He 1 1); [lia|exact N|exact N|reg].
    - unfold Rdiv. rewrite Rmult_1_l. reg. }
  fin2 5%nat 7%nat (derivs2_twice _ _ _ _ r D_cbrt Nr).
  - exact C.
  - fold c in R1 |- *. replace (/ (3 * (c * c))) with (/ (c * c) / 3) in R1 |- * by (field; exact Nc).
    apply (near_div e He 4 0); [lia|exact Ni|lits|exact N3|exact R1].
  - fold c in R2 |- *. replace (- 2) with (-2) in * by reflexivity. apply (near_mul e He 2 4); [lia| |exact Ni|exact R2].
    apply (near_div e He 0 1); [lia|now apply near_m2| |exact N9|reg]. apply (near_mul e He 0 0); [lia|lits|now apply near_exact|reg].
Qed.
Lemma B_sin : accurate1_2nd g2_sin (fun _ _ => True) sin (fun _ => 3) (fun _ => 7).
Proof.
  start2 (fun (M : cmath DN) (a : double) => c_sin M a) (fun (M : cmath DN) (a : double) => c_cos M a) (fun (M : cmath DN) (a : double) => dopp (c_sin M a)).
  assert (C : close e (c_sin M a) (sin r)) by (apply A; auto).
  fin2 1%nat 1%nat (derivs2_twice _ _ _ _ r D_sin I); [exact C| |].
  - apply near_close; [exact He|]. apply A; auto.
  - apply near_opp. now apply near_close.
Qed.
Lemma reg_opp' r : regular (- r) -> regular r.
Proof. intros [H|H]; [left; lra|right]. now rewrite Rabs_Ropp in H. Qed.
Lemma B_cos : accurate1_2nd g2_cos (fun _ _ => True) cos (fun _ => 3) (fun _ => 7).
Proof.
  start2 (fun (M : cmath DN) (a : double) => c_cos M a) (fun (M : cmath DN) (a : double) => dopp (c_sin M a)) (fun (M : cmath DN) (a : double) => dopp (c_cos M a)).
  assert (C : close e (c_cos M a) (cos r)) by (apply A; auto).
  fin2 1%nat 1%nat (derivs2_twice _ _ _ _ r D_cos I); [exact C| |].
  - apply near_opp. apply near_close; [exact He|]. apply A; auto. now apply reg_opp'.
  - apply near_opp. now apply near_close.
Qed.
Lemma regular_double r hi : Rabs r <= pow2 hi -> (hi <= 1021)%Z -> regular r -> regular (2 * r).
Proof.
  intros B H [->|[L U]]; [left; ring|right]. rewrite Rabs_mult, (Rabs_pos_eq 2) by lra. assert (P := Rabs_pos r). split; [lra|].
  change 1022%Z with (1 + 1021)%Z. rewrite pow2_add. change (pow2 1) with 2. apply Rmult_le_compat_l; [lra|]. eapply Rle_trans; [exact B|now apply pow2_le].
Qed.
Lemma B_tan : accurate1_2nd g2_tan (fun _ a => cos a <> 0 /\ Rabs (tan a) <= pow2 500) tan (fun _ => 7) (fun _ => 14).
Proof.
  start2 (fun (M : cmath DN) (a : double) => c_tan M a) (fun (M : cmath DN) (a : double) => dadd (dofZ 1) (dmul (c_tan M a) (c_tan M a)))
    (fun (M : cmath DN) (a : double) => dmul (dmul (dofZ 2) (c_tan M a)) (dadd (dofZ 1) (dmul (c_tan M a) (c_tan M a)))).
  destruct Da as [Dc Dt]. assert (C : close e (c_tan M a) (tan r)) by (apply A; auto). assert (N := near_close e He _ _ C).
  assert (N1 := near_1psq e 1 _ _ He ltac:(lia) N Dt). change (1 + 1 + 3)%nat with 5%nat in N1.
  fin2 5%nat 8%nat (derivs2_twice _ _ _ _ r D_tan Dc); [exact C|exact N1|].
  apply (near_mul e He 2 5); [lia| |exact N1|exact R2]. apply (near_mul e He 0 1); [lia|lits|exact N|]. apply (regular_double _ 500); [exact Dt|lia|exact Rg].
Qed.
Lemma plain_500 r : plain r -> Rabs r <= pow2 500.
Proof. intros [->|[_ H]]; [rewrite Rabs_R0; left; apply pow2_pos|]. eapply Rle_trans; [exact H|apply pow2_le; lia]. Qed.
Lemma plain_1sq r : plain r -> sr 0 501 (1 + r * r).
Proof.
  intros H. apply sr_rng. assert (Q := Rle_0_sqr r). unfold Rsqr in Q. split; [change (pow2 0) with 1; lra|].
  assert (B : Rabs r <= pow2 250) by (destruct H as [->|[_ H]]; [rewrite Rabs_R0; left; apply pow2_pos|exact H]).
  replace (r * r) with (Rabs r * Rabs r) by (unfold Rabs; destruct (Rcase_abs r); ring).
  assert (X : Rabs r * Rabs r <= pow2 250 * pow2 250) by (apply Rmult_le_compat; auto using Rabs_pos). rewrite <- pow2_add in X. change (250 + 250)%Z with 500%Z in X.
  change 501%Z with (1 + 500)%Z. rewrite pow2_add. change (pow2 1) with 2. assert (1 <= pow2 500) by (change 1 with (pow2 0); apply pow2_le; lia). lra.
Qed.
Lemma near_i1xx e (a : double) : ur <= e <= pow2 (-20) -> finite a -> plain (real_of a) -> near e 4 (ddiv (dofZ 1) (dadd (dofZ 1) (dmul a a))) (/ (1 + real_of a * real_of a)).
Proof.
  intros He Fa Da. set (r := real_of a) in *. assert (P := sq1_pos r). assert (Np : 1 + r * r <> 0) by lra. assert (S1 := plain_1sq r Da).
  apply (near_eq _ _ _ (1 / (1 + r * r))); [field; exact Np|]. apply (near_div e He 0 3); [lia|lits| |exact Np|].
  - apply (near_1psq e 0 _ _ He); [lia|now apply near_exact|now apply plain_500].
  - unfold Rdiv. rewrite Rmult_1_l. reg.
Qed.
Lemma B_atan : accurate1_2nd g2_atan (fun _ a => plain a) atan (fun _ => 6) (fun _ => 17).
Proof.
  start2 (fun (M : cmath DN) (a : double) => c_atan M a) (fun (M : cmath DN) (a : double) => ddiv (dofZ 1) (dadd (dofZ 1) (dmul a a)))
    (fun (M : cmath DN) (a : double) => dmul (dmul (dmul (dopp (dofZ 2)) a) (ddiv (dofZ 1) (dadd (dofZ 1) (dmul a a)))) (ddiv (dofZ 1) (dadd (dofZ 1) (dmul a a)))).
  assert (Ni := near_i1xx e a He Fa Da). fold r in Ni. assert (Sa := plain_sr _ Da). assert (S1 := plain_1sq r Da). assert (P := sq1_pos r). assert (Np : 1 + r * r <> 0) by lra.
  assert (Slm : sr 0 4 (-2)) by (apply sr_lit; lia).
  fin2 4%nat 11%nat (derivs2_twice _ _ _ _ r D_atan I); [apply A; auto|exact Ni|].
  replace (-2 * r / ((1 + r * r) * (1 + r * r))) with (-2 * r * / (1 + r * r) * / (1 + r * r)) in R2 |- * by (field; exact Np).
  apply (near_mul e He 6 4); [lia| |exact Ni|exact R2]. apply (near_mul e He 1 4); [lia| |exact Ni|reg].
  apply (near_mul e He 0 0); [lia|now apply near_m2|now apply near_exact|reg].
Qed.
Lemma B_sinh : accurate1_2nd g2_sinh (fun _ _ => True) sinh (fun _ => 3) (fun _ => 7).
Proof.
  start2 (fun (M : cmath DN) (a : double) => c_sinh M a) (fun (M : cmath DN) (a : double) => c_cosh M a) (fun (M : cmath DN) (a : double) => c_sinh M a).
  fin2 1%nat 1%nat (derivs2_twice _ _ _ _ r D_sinh I); [apply A; auto|apply near_close; [exact He|]; apply A; auto..].
Qed.
Lemma B_cosh : accurate1_2nd g2_cosh (fun _ _ => True) cosh (fun _ => 3) (fun _ => 7).
Proof.
  start2 (fun (M : cmath DN) (a : double) => c_cosh M a) (fun (M : cmath DN) (a : double) => c_sinh M a) (fun (M : cmath DN) (a : double) => c_cosh M a).
  fin2 1%nat 1%nat (derivs2_twice _ _ _ _ r D_cosh I); [apply A; auto|apply near_close; [exact He|]; apply A; auto..].
Qed.
Lemma sqrt_inv_eq q : 0 < q -> sqrt (/ q) = / sqrt q.
Proof. intro H. rewrite sqrt_inv. reflexivity. Qed.
Lemma B_asinh : accurate1_2nd g2_asinh (fun _ a => plain a) R_asinh (fun _ => 7) (fun _ => 17).
Proof.
  start2 (fun (M : cmath DN) (a : double) => c_asinh M a) (fun (M : cmath DN) (a : double) => dsqrt (ddiv (dofZ 1) (dadd (dofZ 1) (dmul a a))))
    (fun (M : cmath DN) (a : double) => dmul (dmul (dopp a) (ddiv (dofZ 1) (dadd (dofZ 1) (dmul a a)))) (dsqrt (ddiv (dofZ 1) (dadd (dofZ 1) (dmul a a))))).
  assert (Ni := near_i1xx e a He Fa Da). fold r in Ni. assert (Sa := plain_sr _ Da). assert (S1 := plain_1sq r Da). assert (P := sq1_pos r). assert (Np : 1 + r * r <> 0) by lra.
  assert (E1 : r * r + 1 = 1 + r * r) by ring. assert (Ps : 0 < sqrt (1 + r * r)) by now apply sqrt_lt_R0.
  assert (N1 : regular (/ sqrt (1 + r * r)) -> near e 5 (dsqrt (ddiv (dofZ 1) (dadd (dofZ 1) (dmul a a)))) (/ sqrt (1 + r * r))).
  { intro R1. rewrite <- sqrt_inv_eq in R1 |- * by exact P. apply (near_sqrt e He 4); [lia|left; now apply Rinv_0_lt_compat|exact Ni|exact R1]. }
  fin2 5%nat 11%nat (derivs2_twice _ _ _ _ r D_asinh I); [apply A; auto| |]; rewrite E1 in *; [now apply N1|].
  replace (- r / ((1 + r * r) * sqrt (1 + r * r))) with (- r * / (1 + r * r) * / sqrt (1 + r * r)) in R2 |- * by (field; lra).
  apply (near_mul e He 5 5); [lia| |now apply N1|exact R2].
  apply (near_mul e He 0 4); [lia|apply near_opp; now apply near_exact|exact Ni|reg].
Qed.
