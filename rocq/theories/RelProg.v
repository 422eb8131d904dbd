(** * RelProg: relative errors of programs whose sums do not cancel (C87) *)

From Coq Require Import List ZArith Bool Reals Lra Lia Psatz.
From Coquelicot Require Import Coquelicot.
From Flocq Require Import Core BinarySingleNaN.
From Verif Require Import Base Num Map UReal World URealFacts Sums SpecLin SpecObs URealR URealProofs URealProofs2 SpecCast ConvProofs.
From Verif Require Import Ieee IeeeFacts SpecIeee IeeeProofs IeeeProofs2 IeeeProofs3 IeeeProofs4 IeeeCov IeeeCorr SpecMathIeee IeeeRel SpecMathIeee2 MathAcc6 IoAcc1 SpecAcc2 Track AccMom2 SpecAcc3 PolyAcc3 SpecAcc4 SpecAcc5 UPoly UPoly2 UPoly4 UPoly6 SpecRel.
Import ListNotations.
Local Open Scope R_scope.

Lemma ur_ok : ur <= ur <= pow2 (-20). Proof. split; [lra|]. apply pow2_le. lia. Qed.
Notation nr := (near ur).

Lemma near_sum k (a b z : double) r s : (k <= 999)%nat -> nr k a r -> nr k b s -> add_ok r s ->
  (no_overflow (real_of a + real_of b) -> finite z /\ real_of z = nearest (real_of a + real_of b)) -> nr (S k) z (r + s).
Proof.
  intros K [Fa (t1 & E1 & W1)] [Fb (t2 & E2 & W2)] [Sg U] Z.
  assert (A1 := within_2 ur ur_ok k _ ltac:(lia) W1). assert (A2 := within_2 ur ur_ok k _ ltac:(lia) W2).
  assert (P23 : pow2 1023 = 2 * pow2 1022) by (change 1023%Z with (1 + 1022)%Z; now rewrite pow2_add).
  assert (Q : exists t, real_of a + real_of b = (r + s) * t /\ within ur k t).
  { rewrite E1, E2. destruct (Req_dec (r + s) 0) as [Z0|Nz].
    - assert (r = 0) by nra. assert (s = 0) by nra. subst. exists 1. split; [ring|apply (within_one ur ur_ok)].
    - destruct (Rle_or_lt 0 r) as [R0|R0], (Rle_or_lt 0 s) as [S0|S0].
      + apply (within_mean ur); auto; lra.
      + assert (r = 0) by nra. subst r. exists t2. split; [ring|exact W2].
      + assert (s = 0) by nra. subst s. exists t1. split; [ring|exact W1].
      + destruct (within_mean ur k (- r) (- s) t1 t2 ltac:(lra) ltac:(lra) ltac:(lra) W1 W2) as (t & Et & Wt). exists t. split; [lra|exact Wt]. }
  destruct Q as (t & Et & Wt). assert (T2 := within_2 ur ur_ok k t ltac:(lia) Wt).
  assert (Hi : Rabs (real_of a + real_of b) <= pow2 1023).
  { rewrite Et, Rabs_mult, (Rabs_pos_eq t) by lra. rewrite P23, (Rmult_comm 2). apply Rmult_le_compat; [apply Rabs_pos|lra|exact U|lra]. }
  destruct (Z (fits _ Hi)) as [F E]. split; [exact F|]. destruct (nearest_sum a b) as (dl & D & N). exists (t * (1 + dl)). split.
  - rewrite E, N, Et. ring.
  - replace (S k) with (k + 1)%nat by lia. apply (within_mul ur ur_ok); [exact Wt|]. apply (within_delta ur ur_ok). exact D.
Qed.
Lemma near_plus k a b r s : (k <= 999)%nat -> nr k a r -> nr k b s -> add_ok r s -> nr (S k) (dadd a b) (r + s).
Proof. intros K A B O. apply (near_sum k a b); try assumption. apply dadd_round; [apply A|apply B]. Qed.
Lemma near_minus k a b r s : (k <= 999)%nat -> nr k a r -> nr k b s -> add_ok r (- s) -> nr (S k) (dsub a b) (r + - s).
Proof.
  intros K A B O. assert (B' := near_opp ur k b s B). apply (near_sum k a (dopp b)); try assumption. intro H.
  assert (E : real_of (dopp b) = - real_of b) by (unfold real_of, dopp; apply B2R_Bopp). rewrite E in *. apply dsub_round; [apply A|apply B|exact H].
Qed.
(** multiplying by 1 and by -1 is exact *)
Lemma mul_exact (d a : double) z : real_of d = z -> finite d -> Rabs z = 1 -> finite a -> finite (dmul d a) /\ real_of (dmul d a) = z * real_of a.
Proof.
  intros E Fd Hz Fa. assert (N : nearest (z * real_of a) = z * real_of a).
  { assert (z = 1 \/ z = -1) as [-> | ->] by (unfold Rabs in Hz; destruct (Rcase_abs z); [right|left]; lra).
    - rewrite Rmult_1_l. apply nearest_format.
    - replace (-1 * real_of a) with (real_of (dopp a)) by (unfold real_of, dopp; rewrite B2R_Bopp; ring). apply nearest_format. }
  destruct (dmul_round d a Fd Fa) as [F V]; rewrite E in *.
  - unfold no_overflow. rewrite N, Rabs_mult, Hz, Rmult_1_l. apply (abs_B2R_lt_emax 53 1024).
  - split; [exact F|]. now rewrite V, N.
Qed.
Lemma near_sign k (d a : double) z r : real_of d = z -> finite d -> Rabs z = 1 -> nr k a r -> nr k (dmul d a) (z * r).
Proof.
  intros E Fd Hz [Fa (t & Ea & W)]. destruct (mul_exact d a z E Fd Hz Fa) as [F V]. split; [exact F|]. exists t. split; [rewrite V, Ea; ring|exact W].
Qed.
Lemma one_ok : real_of (n1 : DN) = 1 /\ finite (n1 : DN).
Proof. split; [exact one_real|reflexivity]. Qed.
Lemma minus_ok : real_of (nopp (n1 : DN) : double) = -1 /\ finite (nopp (n1 : DN)).
Proof.
  split; [|reflexivity]. change (real_of (dopp (dofZ 1)) = -1). replace (real_of (dopp (dofZ 1))) with (- real_of (dofZ 1)) by (symmetry; unfold real_of, dopp; apply B2R_Bopp).
  rewrite one_real. ring.
Qed.

(** A variable and its exact value. *)
Definition drep (k : nat) (x : ureal DN) (a : lin) : Prop :=
  nr k (umu x : double) (l_mean a) /\ (forall i, ufind i x <> None <-> l_dep a i) /\ forall i, nr k (coef_on x i : double) (l_coef a i).
Lemma near_zero k (r : R) : nr k (n0 : DN) r -> r = 0.
Proof.
  intros [_ (t & E & W)]. assert (T := within_pos ur ur_ok _ _ W). change (0 = r * t) in E. nra.
Qed.
Lemma zero_near k : nr k (n0 : DN) 0.
Proof. split; [reflexivity|]. exists 1. split; [change (0 = 0 * 1); ring|apply (within_one ur ur_ok)]. Qed.
(** what comb2 computes from terms which are known *)
Lemma comb_near k (dx dy : double) (ox oy : option double) (px py : R) : (k <= 999)%nat ->
  nr k (match ox with Some c => dmul dx c | None => n0 : DN end) px -> nr k (match oy with Some c => dmul dy c | None => n0 : DN end) py ->
  add_ok px py ->
  nr (S k) (match comb2 (N := DN) dx dy ox oy with Some c => c | None => n0 : DN end) (px + py).
Proof.
  intros K A B O. destruct ox as [cx|], oy as [cy|]; cbn [comb2].
  - now apply near_plus.
  - apply near_zero in B. subst py. rewrite Rplus_0_r. apply (near_weaken ur ur_ok k); [lia|exact A].
  - apply near_zero in A. subst px. rewrite Rplus_0_l. apply (near_weaken ur ur_ok k); [lia|].
    change (nadd (n := DN) n0 (nmul (n := DN) dy cy)) with (dadd (n0 : DN) (dmul dy cy)). destruct B as [F (t & E & W)]. destruct (add_zero _ F) as [F' E']. split; [exact F'|]. exists t. now rewrite E'.
  - apply near_zero in A. apply near_zero in B. subst. rewrite Rplus_0_r. apply zero_near.
Qed.

Lemma term_near k k' (x : ureal DN) a i (d : double) d' : drep k x a -> (forall c, nr k c (l_coef a i) -> nr k' (dmul d c) (d' * l_coef a i)) ->
  nr k' (match ufind i x with Some c => dmul d c | None => n0 : DN end) (d' * l_coef a i).
Proof.
  intros (_ & _ & C) H. specialize (C i). rewrite coef_ufind in C. destruct (ufind i x) as [c|]; [now apply H|].
  apply near_zero in C. rewrite C, Rmult_0_r. apply zero_near.
Qed.
Lemma drep_binary k kx ky l (x y : ureal DN) a b (mu dx dy : double) m d1 d2 : wf l x -> wf l y -> (l < maxid)%Z -> drep kx x a -> drep ky y b ->
  (k <= 999)%nat -> nr (S k) mu m ->
  (forall i c, nr kx c (l_coef a i) -> nr k (dmul dx c) (d1 * l_coef a i)) -> (forall i c, nr ky c (l_coef b i) -> nr k (dmul dy c) (d2 * l_coef b i)) ->
  (forall i, add_ok (d1 * l_coef a i) (d2 * l_coef b i)) ->
  (exists z, u_binary (N := DN) x y mu dx dy = Ret z /\ drep (S k) z (lin_binary a b m d1 d2)) /\
  drep (S k) (u_binary_assign (N := DN) x y mu dx dy) (lin_binary a b m d1 d2).
Proof.
  intros Wx Wy B Rx Ry K M T1 T2 O.
  assert (G : forall z : ureal DN, umu z = mu -> (forall i, ufind i z = comb2 (N := DN) dx dy (ufind i x) (ufind i y)) -> drep (S k) z (lin_binary a b m d1 d2)).
  { intros z Mz Fz. split; [rewrite Mz; exact M|]. split.
    - intro i. rewrite Fz, comb2_keys. cbn [lin_binary l_dep]. destruct Rx as (_ & Dx & _), Ry as (_ & Dy & _). now rewrite Dx, Dy.
    - intro i. rewrite coef_ufind, Fz. cbn [lin_binary l_coef]. apply comb_near; [exact K| | |apply O].
      + apply (term_near kx); [exact Rx|]. apply T1.
      + apply (term_near ky); [exact Ry|]. apply T2. }
  split.
  - destruct (binary_wf (N := DN) l x y mu dx dy Wx Wy B) as (z & E & _ & Mz & Fz & _). exists z. split; [exact E|]. now apply G.
  - destruct (binary_assign_wf (N := DN) l x y mu dx dy Wx Wy) as (_ & F & Mm). apply G; [exact Mm|]. intro i. rewrite F. apply comb2a_comb2.
Qed.
Lemma drep_unary k kx l (x : ureal DN) a (mu d : double) m d' : wf l x -> drep kx x a -> nr k mu m ->
  (forall i c, nr kx c (l_coef a i) -> nr k (dmul c d) (d' * l_coef a i)) -> drep k (u_unary (N := DN) x mu d) (lin_unary a m d').
Proof.
  intros W R M T. destruct (unary_wf (N := DN) l x mu d W) as (_ & F & Mm). split; [rewrite Mm; exact M|]. split.
  - intro i. rewrite F. cbn [lin_unary l_dep]. destruct R as (_ & D & _). rewrite <- D. destruct (ufind i x); cbn [option_map]; split; congruence.
  - intro i. rewrite coef_ufind, F. cbn [lin_unary l_coef]. destruct R as (_ & _ & C). specialize (C i). rewrite coef_ufind in C. specialize (T i).
    destruct (ufind i x) as [c|]; cbn [option_map]; [exact (T c C)|]. apply near_zero in C. rewrite C, Rmult_0_r. apply zero_near.
Qed.
(** the four operations *)
Section Ops.
  Variables (l : Z) (x y : ureal DN) (a b : lin) (kx ky : nat).
  Hypothesis (Wx : wf l x) (Wy : wf l y) (B : (l < maxid)%Z) (Rx : drep kx x a) (Ry : drep ky y b).
  Definition both (k : nat) (mu dx dy : double) (r : lin) : Prop :=
    (exists z, u_binary (N := DN) x y mu dx dy = Ret z /\ drep k z r) /\ drep k (u_binary_assign (N := DN) x y mu dx dy) r.
  Lemma op_add : (Nat.max kx ky + 1 <= 900)%nat -> sum_ok a b 1 ->
    both (Nat.max kx ky + 1) (dadd (umu x) (umu y)) (n1 : DN) (n1 : DN) (lin_binary a b (l_mean a + l_mean b) 1 1).
  Proof.
    intros K [Om Oc]. rewrite Rmult_1_l in Om. replace (Nat.max kx ky + 1)%nat with (S (Nat.max kx ky)) by lia. unfold both.
    assert (Mx : nr (Nat.max kx ky) (umu x : double) (l_mean a)) by (apply (near_weaken ur ur_ok kx); [lia|apply Rx]).
    assert (My : nr (Nat.max kx ky) (umu y : double) (l_mean b)) by (apply (near_weaken ur ur_ok ky); [lia|apply Ry]).
    apply (drep_binary _ kx ky l); try assumption; try lia.
    - apply near_plus; try assumption. lia.
    - intros i c C. apply near_sign; try apply one_ok; [apply Rabs_R1|]. apply (near_weaken ur ur_ok kx); [lia|exact C].
    - intros i c C. apply near_sign; try apply one_ok; [apply Rabs_R1|]. apply (near_weaken ur ur_ok ky); [lia|exact C].
    - intro i. rewrite (Rmult_1_l (l_coef a i)). apply Oc.
  Qed.
  Lemma op_sub : (Nat.max kx ky + 1 <= 900)%nat -> sum_ok a b (-1) ->
    both (Nat.max kx ky + 1) (dsub (umu x) (umu y)) (n1 : DN) (nopp (n1 : DN)) (lin_binary a b (l_mean a - l_mean b) 1 (-1)).
  Proof.
    intros K [Om Oc]. replace (-1 * l_mean b) with (- l_mean b) in Om by ring. replace (Nat.max kx ky + 1)%nat with (S (Nat.max kx ky)) by lia. unfold both.
    assert (Mx : nr (Nat.max kx ky) (umu x : double) (l_mean a)) by (apply (near_weaken ur ur_ok kx); [lia|apply Rx]).
    assert (My : nr (Nat.max kx ky) (umu y : double) (l_mean b)) by (apply (near_weaken ur ur_ok ky); [lia|apply Ry]).
    apply (drep_binary _ kx ky l); try assumption; try lia.
    - apply near_minus; try assumption. lia.
    - intros i c C. apply near_sign; try apply one_ok; [apply Rabs_R1|]. apply (near_weaken ur ur_ok kx); [lia|exact C].
    - intros i c C. apply near_sign; try apply minus_ok; [rewrite Rabs_left; lra|]. apply (near_weaken ur ur_ok ky); [lia|exact C].
    - intro i. rewrite (Rmult_1_l (l_coef a i)). apply Oc.
  Qed.
  Lemma op_mul : (kx + ky + 2 <= 900)%nat -> mul_ok a b ->
    both (kx + ky + 2) (dmul (umu x) (umu y)) (umu y) (umu x) (lin_binary a b (l_mean a * l_mean b) (l_mean b) (l_mean a)).
  Proof.
    intros K [Om Oc]. replace (kx + ky + 2)%nat with (S (S (kx + ky))) by lia. unfold both. destruct Rx as (Mx & _), Ry as (My & _).
    apply (drep_binary _ kx ky l); try assumption; try lia.
    - apply (near_weaken ur ur_ok (S (kx + ky))); [lia|]. apply (near_mul ur ur_ok); try assumption. lia.
    - intros i c C. rewrite (Nat.add_comm kx). apply (near_mul ur ur_ok); try assumption; [lia|apply Oc].
    - intros i c C. apply (near_mul ur ur_ok); try assumption; [lia|apply Oc].
    - intro i. apply Oc.
  Qed.
  Lemma op_div : (kx + 3 * ky + 6 <= 900)%nat -> div_ok a b ->
    let inv := ddiv (dofZ 1) (umu y) in let mu := dmul (umu x) inv in
    both (kx + 3 * ky + 6) mu inv (dmul (dopp mu) inv) (lin_binary a b (l_mean a / l_mean b) (/ l_mean b) (- l_mean a / (l_mean b * l_mean b))).
  Proof.
    intros K (Nz & R1 & R2 & R3 & Oc) inv mu. replace (kx + 3 * ky + 6)%nat with (S (kx + 3 * ky + 5)) by lia. unfold both. destruct Rx as (Mx & _), Ry as (My & _).
    assert (I : nr (S ky) inv (/ l_mean b)).
    { replace (/ l_mean b) with (1 / l_mean b) in * by (unfold Rdiv; ring). apply (near_div ur ur_ok 0 ky); try assumption; [lia|]. apply (near_lit ur). rewrite Rabs_R1. lra. }
    assert (Mu : nr (S (kx + S ky)) mu (l_mean a / l_mean b)) by (apply (near_mul ur ur_ok); try assumption; lia).
    assert (D : nr (S (S (kx + S ky) + S ky)) (dmul (dopp mu) inv) (- l_mean a / (l_mean b * l_mean b))).
    { replace (- l_mean a / (l_mean b * l_mean b)) with (- (l_mean a / l_mean b) * / l_mean b) in * by (field; exact Nz).
      apply (near_mul ur ur_ok); try assumption; [lia|]. now apply near_opp. }
    apply (drep_binary _ kx ky l); try assumption; try lia.
    - apply (near_weaken ur ur_ok (S (kx + S ky))); [lia|exact Mu].
    - intros i c C. apply (near_weaken ur ur_ok (S (S ky + kx))); [lia|]. apply (near_mul ur ur_ok); try assumption; [lia|apply Oc].
    - intros i c C. replace (kx + 3 * ky + 5)%nat with (S (S (S (kx + S ky) + S ky) + ky)) by lia. apply (near_mul ur ur_ok); try assumption; [lia|apply Oc].
    - intro i. apply Oc.
  Qed.
  Lemma op_sqrt : (2 * kx + 4 <= 900)%nat -> sqrt_ok a ->
    drep (2 * kx + 4) (u_unary (N := DN) x (dsqrt (umu x)) (ddiv (dofZ 1) (dmul (dofZ 2) (dsqrt (umu x))))) (lin_unary a (sqrt (l_mean a)) (/ (2 * sqrt (l_mean a)))).
  Proof.
    intros K (P & R1 & R2 & R3 & Oc). destruct Rx as (Mx & _). assert (Sp := sqrt_lt_R0 _ P).
    assert (Sq : nr (S kx) (dsqrt (umu x)) (sqrt (l_mean a))) by (apply (near_sqrt ur ur_ok); try assumption; [lia|lra]).
    assert (L : forall z, Rabs (IZR z) <= 1024 -> nr 0 (dofZ z) (IZR z)) by (intros z H; now apply (near_lit ur)).
    assert (T : nr (S (S kx)) (dmul (dofZ 2) (dsqrt (umu x))) (2 * sqrt (l_mean a))).
    { apply (near_mul ur ur_ok 0 (S kx)); try assumption; [lia|]. apply L. rewrite Rabs_pos_eq; lra. }
    assert (D : nr (S (S (S kx))) (ddiv (dofZ 1) (dmul (dofZ 2) (dsqrt (umu x)))) (/ (2 * sqrt (l_mean a)))).
    { replace (/ (2 * sqrt (l_mean a))) with (1 / (2 * sqrt (l_mean a))) in * by (field; lra).
      apply (near_div ur ur_ok 0 (S (S kx))); try assumption; [lia| |lra]. apply L. rewrite Rabs_R1. lra. }
    apply (drep_unary _ kx l); try assumption.
    - apply (near_weaken ur ur_ok (S kx)); [lia|exact Sq].
    - intros i c C. replace (2 * kx + 4)%nat with (S (kx + S (S (S kx)))) by lia. rewrite Rmult_comm. apply (near_mul ur ur_ok); try assumption; [lia|].
      rewrite Rmult_comm. apply Oc.
  Qed.
End Ops.
