(** * Math2Acc: accuracy of the functions of math.hpp on UReal2<double> (C78) *)

From Coq Require Import List ZArith Reals Bool Lra Lia Psatz.
From Coquelicot Require Import Coquelicot.
From Flocq Require Import Core BinarySingleNaN.
From Verif Require Import Base Num Map UReal World SpecObs HessGrad UReal2 HessProofs U2Facts World2 U2World SpecU2Run U2Proofs.
From Verif Require Import Ieee IeeeFacts SpecIeee IeeeProofs3 IeeeProofs4 IeeeCov Nan Math SpecMathIeee IeeeRel MathAcc MathAcc2 MathAcc3 MathAcc4.
From Verif Require Import Derivs Math2 SpecMath2 SpecAcc3 SpecMath2Ieee.
Import ListNotations.
Local Open Scope R_scope.

(** ** Ranges with a sign *)
Definition sr (lo hi : Z) (r : R) : Prop := r = 0 \/ pow2 lo <= Rabs r <= pow2 hi.
Lemma sr_regular lo hi r : (-1021 <= lo)%Z -> (hi <= 1022)%Z -> sr lo hi r -> regular r.
Proof.
  intros L H [->|[A B]]; [now left|right]. split; [eapply Rle_trans; [|exact A]|eapply Rle_trans; [exact B|]]; apply pow2_le; lia.
Qed.
Lemma sr_weaken lo hi lo' hi' r : (lo' <= lo)%Z -> (hi <= hi')%Z -> sr lo hi r -> sr lo' hi' r.
Proof. intros L H [->|[A B]]; [now left|right]. split; [eapply Rle_trans; [|exact A]|eapply Rle_trans; [exact B|]]; now apply pow2_le. Qed.
Lemma sr_mul l1 h1 l2 h2 r s : sr l1 h1 r -> sr l2 h2 s -> sr (l1 + l2) (h1 + h2) (r * s).
Proof.
  intros [->|[A B]] [->|[C D]]; try (left; ring). right. rewrite Rabs_mult, !pow2_add.
  assert (P := pow2_pos l1). assert (Q := pow2_pos l2). split; apply Rmult_le_compat; lra.
Qed.
Lemma sr_rng lo hi r : rng lo hi r -> sr lo hi r.
Proof. intro H. assert (P := rng_pos _ _ _ H). right. rewrite Rabs_pos_eq by lra. exact H. Qed.
Lemma sr_opp lo hi r : sr lo hi r -> sr lo hi (- r).
Proof. intros [->|H]; [left; ring|right]. now rewrite Rabs_Ropp. Qed.
Lemma sr_inv lo hi r : r <> 0 -> sr lo hi r -> sr (- hi) (- lo) (/ r).
Proof.
  intros N [?|[A B]]; [contradiction|]. right. rewrite Rabs_inv, <- !pow2_inv. assert (P := Rabs_pos_lt r N). assert (Q := pow2_pos lo).
  split; apply Rinv_le_contravar; lra.
Qed.
Lemma sr_div l1 h1 l2 h2 r s : s <> 0 -> sr l1 h1 r -> sr l2 h2 s -> sr (l1 - h2) (h1 - l2) (r / s).
Proof. intros N A B. exact (sr_mul _ _ _ _ _ _ A (sr_inv _ _ _ N B)). Qed.
Lemma sr_lit z : (1 <= Z.abs z <= 16)%Z -> sr 0 4 (IZR z).
Proof. intro H. right. rewrite <- abs_IZR. split; [change (pow2 0) with 1|change (pow2 4) with 16]; apply IZR_le; lia. Qed.
Lemma plain_sr r : plain r -> sr (-250) 250 r. Proof. auto. Qed.

(** ** What [unary] stores *)
Lemma dn_lt00 : nltb (n := DN) n0 n0 = false. Proof. reflexivity. Qed.
Lemma unary_at (x : ureal2 DN) (f f1 f2 : DN) : hg_ok (u2hg x) -> exists z, u2_unary x f f1 f2 = Ret z /\ u2mu z = f /\
  (forall i, depends z i <-> depends x i) /\
  (forall i, depends x i -> grad_at z i = dmul f1 (grad_at x i) /\
     hess_at z i i = dadd (dmul (dmul (ddiv f2 (dofZ 2)) (grad_at x i)) (grad_at x i)) (dmul f1 (hess_at x i i))) /\
  (forall i, ~ depends x i -> grad_at z i = dofZ 0 /\ hess_at z i i = dofZ 0 /\ grad_at x i = dofZ 0 /\ hess_at x i i = dofZ 0).
Proof.
  intro OK. destruct (unary_result x f f1 f2 OK) as (r & E & OKr & HD & _). exists (mkU2 r f). split; [exact E|]. split; [reflexivity|].
  unfold depends, grad_at, hess_at, hg_diag_get, mget. cbn [u2hg].
  assert (Iz := fun i => mfind_None_iff i (diagmap r) (proj1 OKr)). assert (Ix := fun i => mfind_None_iff i (diagmap (u2hg x)) (proj1 OK)).
  split; [|split].
  - intro i. specialize (Iz i). specialize (Ix i). rewrite HD in Iz.
    destruct (mfind i (diagmap (u2hg x))) as [d|]; cbn [option_map] in Iz.
    + assert (T1 : In i (map fst (diagmap r))) by (destruct (in_dec Z.eq_dec i (map fst (diagmap r))) as [|N]; [assumption|discriminate (proj2 Iz N)]).
      assert (T2 : In i (map fst (diagmap (u2hg x)))) by (destruct (in_dec Z.eq_dec i (map fst (diagmap (u2hg x)))) as [|N]; [assumption|discriminate (proj2 Ix N)]).
      tauto.
    + split; intro H; exfalso; [exact (proj1 Iz eq_refl H)|exact (proj1 Ix eq_refl H)].
  - intros i Hi. rewrite Z.eqb_refl, HD. specialize (Ix i). destruct (mfind i (diagmap (u2hg x))) as [d|]; [|destruct (proj1 Ix eq_refl Hi)].
    split; reflexivity.
  - intros i Hi. rewrite Z.eqb_refl, HD. rewrite (proj2 (Ix i) Hi). repeat split; reflexivity.
Qed.

Section Result.
  Variables (e e' : R) (k1 k2 : nat) (f1 f2 : double) (d1 d2 : R).
  Hypotheses (He : ur <= e <= pow2 (-20)) (He' : e <= e' <= pow2 (-20)) (K1 : (k1 <= 100)%nat) (K2 : (k2 <= 100)%nat).
  Lemma He'' : ur <= e' <= pow2 (-20). Proof. lra. Qed.

  Lemma grad_close (g : double) : near e' k1 f1 d1 -> finite g -> regular (d1 * real_of g) ->
    close ((INR k1 + 2) * e') (dmul f1 g) (d1 * real_of g).
  Proof.
    intros N F Rg. assert (X := near_mul e' He'' k1 0 _ _ _ _ ltac:(lia) N (near_exact e' g F) Rg).
    assert (C := close_near e' He'' (S (k1 + 0)) _ _ ltac:(lia) X). replace (INR k1 + 2) with (INR (S (k1 + 0)) + 1); [exact C|].
    rewrite Nat.add_0_r, S_INR. ring.
  Qed.
  Lemma hess_close (g h : double) : near e' k1 f1 d1 -> near e' k2 f2 d2 -> regular (d2 / 2) -> finite g -> finite h ->
    let A := d1 * real_of h in let B := d2 / 2 * real_of g * real_of g in
    regular A -> regular (d2 / 2 * real_of g) -> regular B -> Rabs A + Rabs B <= pow2 1021 ->
    let q := dadd (dmul (dmul (ddiv f2 (dofZ 2)) g) g) (dmul f1 h) in
    finite q /\ Rabs (real_of q - (A + B)) <= (INR (Nat.max k1 (k2 + 2)) + 4) * e' * (Rabs A + Rabs B).
  Proof.
    intros N1 N2 R2 Fg Fh A B RA Rg RB Sz q. assert (He1 := He''). assert (Se := e_small e' He1). assert (U := ur_small).
    assert (Ng := near_exact e' g Fg). assert (Nh := near_exact e' h Fh).
    assert (X1 := near_div e' He1 k2 0 _ _ _ _ ltac:(lia) N2 (near_lit_small e' 2 He1 ltac:(lia)) ltac:(lra) R2).
    assert (X2 := near_mul e' He1 (S (k2 + 0)) 0 _ _ _ _ ltac:(lia) X1 Ng Rg).
    assert (X3 := near_mul e' He1 (S (S (k2 + 0) + 0)) 0 _ _ _ _ ltac:(lia) X2 Ng RB).
    assert (Y := near_mul e' He1 k1 0 _ _ _ _ ltac:(lia) N1 Nh RA).
    set (K := Nat.max k1 (k2 + 2)). assert (KL : (K <= 102)%nat) by (unfold K; lia).
    apply (near_weaken e' He1 _ (K + 1)) in X3; [|unfold K; lia]. apply (near_weaken e' He1 _ (K + 1)) in Y; [|unfold K; lia].
    destruct (close_near e' He1 (K + 1) _ _ ltac:(lia) X3) as [F3 C3]. destruct (close_near e' He1 (K + 1) _ _ ltac:(lia) Y) as [FY CY].
    fold A in CY. fold B in C3. rewrite plus_INR in C3, CY. change (INR 1) with 1 in C3, CY.
    assert (KE : 0 <= (INR K + 2) * e' <= / 2).
    { apply le_INR in KL. replace (INR 102) with 102 in KL by (rewrite INR_IZR_INZ; reflexivity). assert (P := pos_INR K). split; [nra|].
      apply Rle_trans with (104 * / 1000000); [apply Rmult_le_compat; lra|lra]. }
    replace (INR K + 1 + 1) with (INR K + 2) in C3, CY by ring.
    set (t3 := dmul (dmul (ddiv f2 (dofZ 2)) g) g) in *. set (ty := dmul f1 h) in *.
    assert (A0 := Rabs_pos A). assert (B0 := Rabs_pos B).
    assert (T3 : Rabs (real_of t3) <= 3 / 2 * Rabs B).
    { replace (real_of t3) with ((real_of t3 - B) + B) by ring. eapply Rle_trans; [apply Rabs_triang|]. nra. }
    assert (TY : Rabs (real_of ty) <= 3 / 2 * Rabs A).
    { replace (real_of ty) with ((real_of ty - A) + A) by ring. eapply Rle_trans; [apply Rabs_triang|]. nra. }
    assert (TS : Rabs (real_of t3 + real_of ty) <= 3 / 2 * (Rabs A + Rabs B)) by (eapply Rle_trans; [apply Rabs_triang|]; lra).
    assert (Hi : Rabs (real_of t3 + real_of ty) <= pow2 1023).
    { assert (P2 : pow2 1023 = 4 * pow2 1021) by (change 1023%Z with (2 + 1021)%Z; rewrite pow2_add; f_equal; reflexivity). assert (P := pow2_pos 1021). lra. }
    destruct (dadd_round t3 ty F3 FY (fits _ Hi)) as [F E]. split; [exact F|]. unfold q. rewrite E.
    destruct (nearest_sum t3 ty) as (dl & D & Nm). rewrite Nm.
    replace ((real_of t3 + real_of ty) * (1 + dl) - (A + B)) with ((real_of ty - A) + (real_of t3 - B) + dl * (real_of t3 + real_of ty)) by ring.
    eapply Rle_trans; [apply Rabs_triang|]. assert (Q1 := Rabs_triang (real_of ty - A) (real_of t3 - B)). rewrite Rabs_mult.
    assert (Q2 : Rabs dl * Rabs (real_of t3 + real_of ty) <= e' * (3 / 2 * (Rabs A + Rabs B))).
    { apply Rmult_le_compat; [apply Rabs_pos|apply Rabs_pos|lra|exact TS]. }
    nra.
  Qed.
End Result.

Lemma accurate1_2nd_intro (m : cmath DN -> ureal2 DN -> outcome (ureal2 DN)) (dom : R -> R -> Prop) (F K1 K2 : R -> R) (fm fd fdd : cmath DN -> double -> double) :
  (forall M x, m M x = u2_unary x (fm M (u2_first_order_n x)) (fd M (u2_first_order_n x)) (fdd M (u2_first_order_n x))) ->
  (forall M e a, ur <= e <= pow2 (-20) -> accurate M e -> finite a -> let r := real_of a in dom e r -> regular (F r) ->
     close e (fm M a) (F r) /\
     exists d1 d2, twice_derivable F r d1 d2 /\ exists e' k1 k2, e <= e' <= pow2 (-20) /\ (k1 <= 100)%nat /\ (k2 <= 100)%nat /\
       (INR k1 + 2) * e' <= K1 r * e /\ (INR (Nat.max k1 (k2 + 2)) + 4) * e' <= K2 r * e /\
       (regular d1 -> near e' k1 (fd M a) d1) /\
       (regular d1 -> regular d2 -> near e' k2 (fdd M a) d2)) ->
  accurate1_2nd m dom F K1 K2.
Proof.
  intros Em H M e He A eig w Hr v x a Fa Da Rg. destruct (reachable2_wf dn_lt00 eig w Hr) as (env & [_ W] & _). destruct (W v) as [OK _]. fold x in OK.
  destruct (H M e (u2_first_order_n x) He A Fa Da Rg) as (Cm & d1 & d2 & TD & e' & k1 & k2 & He' & Hk1 & Hk2 & B1 & B2 & N1 & N2).
  rewrite Em. destruct (unary_at x (fm M (u2_first_order_n x)) (fd M (u2_first_order_n x)) (fdd M (u2_first_order_n x)) OK) as (z & E & Mz & Dz & G & G0).
  exists z, d1, d2. split; [exact E|]. split; [exact TD|].
  split; [change (u2_first_order_n z) with (u2mu z); rewrite Mz; exact Cm|]. split; [exact Dz|].
  assert (Z0 : real_of (dofZ 0) = 0) by exact (real_lit 0 eq_refl). assert (S := e_small e He). assert (F0 : finite (dofZ 0)) by reflexivity.
  fold a in B1, B2. split.
  - intros R1 i g Fg R1g. specialize (N1 R1). destruct (in_dec Z.eq_dec i (map fst (diagmap (u2hg x)))) as [I|I].
    + destruct (G i I) as [-> _]. apply (close_weaken ((INR k1 + 2) * e')); [exact B1|]. now apply (grad_close e e' k1 k2).
    + destruct (G0 i I) as (-> & _ & Gx & _). unfold g. rewrite Gx, Z0, Rmult_0_r. split; [exact F0|]. rewrite Z0, Rminus_eq_0, Rabs_R0. lra.
  - intros R1 R2 R22 i g h Fg Fh RA Rg' RB Sz. specialize (N2 R1 R2). specialize (N1 R1). destruct (in_dec Z.eq_dec i (map fst (diagmap (u2hg x)))) as [I|I].
    + destruct (G i I) as [_ ->].
      destruct (hess_close e e' k1 k2 _ _ d1 d2 He He' Hk1 Hk2 (grad_at x i) (hess_at x i i) N1 N2 R22 Fg Fh RA Rg' RB Sz) as [Fq Cq].
      split; [exact Fq|]. eapply Rle_trans; [exact Cq|]. apply Rmult_le_compat_r; [|exact B2]. assert (P1 := Rabs_pos (d1 * h)). assert (P2 := Rabs_pos (d2 / 2 * g * g)). lra.
    + destruct (G0 i I) as (_ & -> & Gx & Hx). unfold g, h. rewrite Gx, Hx, Z0. split; [exact F0|].
      rewrite !Rmult_0_r, Rplus_0_r, Rminus_eq_0, !Rabs_R0. lra.
Qed.
Lemma derivs2_twice (dom : R -> Prop) F F1 F2 a : derivs2 dom F F1 F2 -> dom a -> twice_derivable F a (F1 a) (F2 a).
Proof.
  intros (L & D1 & D2) H. exists F1. split; [|split; [reflexivity|now apply D2]]. apply (filter_imp dom); [exact D1|now apply L].
Qed.
