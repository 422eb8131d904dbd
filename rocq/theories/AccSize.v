(** * AccSize: no overflow and no harmful underflow in the loops of moments.hpp (C75) *)

From Coq Require Import List ZArith Bool Reals Lra Lia Psatz Sorted.
From Flocq Require Import Core BinarySingleNaN.
From Verif Require Import Base Num Map HessGrad Moments UReal2 World2 HessProofs U2Facts U2World U2Ret SpecU2 SpecCast ConvProofs Ieee IeeeFacts SpecIeee
  IeeeProofs2 IeeeProofs3 IeeeProofs4 IeeeCov IeeeRel IoAcc1 FunAcc2 FunAcc4 SpecAcc2 Track AccMom.
Import ListNotations.
Local Open Scope R_scope.

Definition lam : R := pow2 (-170).
Definition big : R := pow2 150.
Notation few k := (Z.of_nat k <= 2 ^ 45)%Z.

(** degree [g], size at most [A], at most [k] roundings *)
Definition sz (g : nat) (A : R) (k : nat) (t : trk) : Prop :=
  finite (td t) /\ ta t <= A /\ (tb t = 0 \/ lam ^ g <= ta t) /\ tb t <= u1 ^ tk t * ta t /\ (tk t <= k)%nat.

Lemma lam_pos g : 0 < lam ^ g. Proof. apply pow_lt, pow2_pos. Qed.
Lemma lam_le1 : lam <= 1. Proof. change 1 with (pow2 0). apply pow2_le. lia. Qed.
Lemma lam_mono g g' : (g <= g')%nat -> lam ^ g' <= lam ^ g.
Proof.
  intro H. replace g' with (g + (g' - g))%nat by lia. rewrite pow_add. assert (P := lam_pos g).
  assert (Q : lam ^ (g' - g) <= 1 ^ (g' - g)) by (apply pow_incr; split; [apply Rlt_le, pow2_pos|apply lam_le1]). rewrite pow1 in Q. nra.
Qed.
Lemma big_ge1 g : 1 <= big ^ g. Proof. apply pow_R1_Rle. change 1 with (pow2 0). apply pow2_le. lia. Qed.
Lemma big_mono g g' : (g <= g')%nat -> big ^ g <= big ^ g'.
Proof. intro H. apply Rle_pow; [|exact H]. change 1 with (pow2 0). apply pow2_le. lia. Qed.
Lemma few_R k : few k -> INR k <= pow2 45.
Proof. intro H. rewrite INR_IZR_INZ. change (pow2 45) with (IZR (2 ^ 45)). now apply IZR_le. Qed.
Lemma u1_pow k : few k -> u1 ^ k <= 1 + 2 * INR k * uround.
Proof.
  intro H. apply few_R in H. assert (U : uround = pow2 (-53)) by reflexivity.
  assert (B : INR k * uround <= pow2 (-8)).
  { rewrite U. replace (pow2 (-8)) with (pow2 45 * pow2 (-53)) by (rewrite <- pow2_add; reflexivity). apply Rmult_le_compat_r; [apply Rlt_le, pow2_pos|exact H]. }
  assert (B' : pow2 (-8) <= / 4) by (change (/ 4) with (pow2 (-2)); apply pow2_le; lia).
  assert (Up : 0 < uround) by apply pow2_pos. clear H U.
  induction k as [|k IH]; [cbn; lra|]. rewrite S_INR in *. assert (K0 := pos_INR k). assert (IH' := IH ltac:(nra)). cbn [pow]. nra.
Qed.
Lemma u1_pow2 k : few k -> u1 ^ k <= 2.
Proof.
  intro H. eapply Rle_trans; [now apply u1_pow|]. apply few_R in H.
  assert (2 * INR k * uround <= 2 * pow2 (-8)); [|assert (pow2 (-8) <= / 4) by (change (/ 4) with (pow2 (-2)); apply pow2_le; lia); lra].
  unfold uround. replace (pow2 (-8)) with (pow2 45 * pow2 (-53)) by (rewrite <- pow2_add; reflexivity).
  assert (P := pow2_pos (-53)). nra.
Qed.

Lemma ta_nonneg (t : trk) : 0 <= ta t <= tb t. Proof. destruct (t_ok t) as [A _]. assert (P := Rabs_pos (tr t)). lra. Qed.
Lemma sz_real g A k t : sz g A k t -> few k -> Rabs (real_of (td t)) <= 4 * ta t.
Proof.
  intros (F & _ & _ & B & K) L. assert (S := rel_size _ _ _ _ _ (t_ok t) F). assert (P := u1_pow2 (tk t) ltac:(lia)). assert (P1 := pw_ge (tk t)).
  assert (N := ta_nonneg t). eapply Rle_trans; [exact S|]. apply Rle_trans with (2 * tb t); [nra|]. nra.
Qed.
Lemma sz_weaken g A k g' A' k' t : sz g A k t -> (g <= g')%nat -> A <= A' -> (k <= k')%nat -> sz g' A' k' t.
Proof. intros (F & B & C & D & E) G HA HK. split; [exact F|]. split; [lra|]. split; [destruct C; [now left|right; apply Rle_trans with (lam ^ g); [now apply lam_mono|assumption]]|]. split; [exact D|lia]. Qed.

Lemma fits_1010 r : Rabs r <= pow2 1010 -> no_overflow r.
Proof. intro H. apply fits. eapply Rle_trans; [exact H|]. apply pow2_le. lia. Qed.
Lemma sz_add g1 A1 k1 s g2 A2 k2 t : sz g1 A1 k1 s -> sz g2 A2 k2 t -> A1 + A2 <= pow2 1000 -> few (S (Nat.max k1 k2)) ->
  sz (Nat.max g1 g2) (A1 + A2) (S (Nat.max k1 k2)) (t_add s t).
Proof.
  intros S T L K. assert (RS := sz_real _ _ _ _ S ltac:(lia)). assert (RT := sz_real _ _ _ _ T ltac:(lia)).
  destruct S as (Fs & As & Cs & Bs & Ks), T as (Ft & At & Ct & Bt & Kt). assert (Ns := ta_nonneg s). assert (Nt := ta_nonneg t).
  assert (Q : Rabs (real_of (td s) + real_of (td t)) <= pow2 1010).
  { eapply Rle_trans; [apply Rabs_triang|]. apply Rle_trans with (4 * pow2 1000); [lra|]. change 4 with (pow2 2). rewrite <- pow2_add. apply pow2_le. lia. }
  destruct (dadd_round (td s) (td t) Fs Ft (fits_1010 _ Q)) as [F _].
  split; [exact F|]. cbn [t_add td tr ta tb tk]. split; [lra|].
  assert (Pm1 : u1 ^ tk s <= u1 ^ Nat.max (tk s) (tk t)) by (apply pw_up; lia). assert (Pm2 : u1 ^ tk t <= u1 ^ Nat.max (tk s) (tk t)) by (apply pw_up; lia).
  assert (U := u1_ge). assert (P := pw_ge (Nat.max (tk s) (tk t))).
  split; [|split; [cbn [pow]; set (q := u1 ^ Nat.max (tk s) (tk t)) in *|lia]].
  - assert (M1 := lam_mono g1 (Nat.max g1 g2) ltac:(lia)). assert (M2 := lam_mono g2 (Nat.max g1 g2) ltac:(lia)).
    destruct Cs as [Cs|Cs]; [|right; lra]. destruct Ct as [Ct|Ct]; [|right; lra]. left. lra.
  - assert (tb s <= q * ta s) by nra. assert (tb t <= q * ta t) by nra. nra.
Qed.
Lemma sz_sub g1 A1 k1 s g2 A2 k2 t : sz g1 A1 k1 s -> sz g2 A2 k2 t -> A1 + A2 <= pow2 1000 -> few (S (Nat.max k1 k2)) ->
  sz (Nat.max g1 g2) (A1 + A2) (S (Nat.max k1 k2)) (t_sub s t).
Proof.
  intros S T L K. assert (To : sz g2 A2 k2 (t_opp t)).
  { destruct T as (F & T). split; [|exact T]. cbn [t_opp td]. unfold finite, dopp. rewrite is_finite_Bopp. exact F. }
  destruct (sz_add _ _ _ _ _ _ _ _ S To L K) as (F & R). split; [|exact R]. cbn [t_sub t_add t_opp td] in *. now rewrite FunAcc4.dsub_dadd.
Qed.
Lemma lam_6 : lam ^ 6 = pow2 (-1020).
Proof. unfold lam. cbn [pow]. rewrite Rmult_1_r, <- !pow2_add. reflexivity. Qed.
Lemma sz_mul g1 A1 k1 s g2 A2 k2 t : sz g1 A1 k1 s -> sz g2 A2 k2 t -> A1 * A2 <= pow2 1000 -> few (S (k1 + k2)) -> (g1 + g2 <= 6)%nat ->
  sz (g1 + g2) (A1 * A2) (S (k1 + k2)) (t_mul s t).
Proof.
  intros S T L K G. assert (RS := sz_real _ _ _ _ S ltac:(lia)). assert (RT := sz_real _ _ _ _ T ltac:(lia)).
  destruct S as (Fs & As & Cs & Bs & Ks), T as (Ft & At & Ct & Bt & Kt). assert (Ns := ta_nonneg s). assert (Nt := ta_nonneg t).
  assert (AA : ta s * ta t <= A1 * A2) by (apply Rmult_le_compat; lra).
  assert (Q : Rabs (real_of (td s) * real_of (td t)) <= pow2 1010).
  { rewrite Rabs_mult. apply Rle_trans with ((4 * ta s) * (4 * ta t)); [apply Rmult_le_compat; try apply Rabs_pos; assumption|].
    apply Rle_trans with (16 * pow2 1000); [lra|]. change 16 with (pow2 4). rewrite <- pow2_add. apply pow2_le. lia. }
  destruct (dmul_round (td s) (td t) Fs Ft (fits_1010 _ Q)) as [F _].
  split; [exact F|]. cbn [t_mul td tr ta tb tk]. rewrite mmul_0. split; [exact AA|].
  assert (BB : tb s * tb t <= u1 ^ (tk s + tk t) * (ta s * ta t)).
  { rewrite pow_add. replace (u1 ^ tk s * u1 ^ tk t * (ta s * ta t)) with ((u1 ^ tk s * ta s) * (u1 ^ tk t * ta t)) by ring. apply Rmult_le_compat; lra. }
  assert (P := pw_ge (tk s + tk t)). assert (U := u1_ge). assert (T0 := tiny_pos). unfold mmul.
  destruct (Req_EM_T (tb s * tb t) 0) as [Z|Z].
  - split; [now left|]. split; [|lia]. assert (0 <= ta s * ta t) by (apply Rmult_le_pos; lra). cbn [pow]. apply Rmult_le_pos; [|assumption]. nra.
  - assert (Zs : tb s <> 0) by (intro E; apply Z; rewrite E; ring). assert (Zt : tb t <> 0) by (intro E; apply Z; rewrite E; ring).
    destruct Cs as [Cs|Cs]; [contradiction|]. destruct Ct as [Ct|Ct]; [contradiction|].
    assert (La : lam ^ (g1 + g2) <= ta s * ta t) by (rewrite pow_add; apply Rmult_le_compat; try assumption; apply Rlt_le, lam_pos).
    split; [now right|]. split; [|lia].
    assert (L6 := lam_mono _ _ G). assert (E6 : tiny <= lam ^ 6 * uround).
    { rewrite lam_6. unfold tiny, uround. rewrite <- pow2_add. apply pow2_le. lia. }
    assert (Up : 0 < uround) by apply pow2_pos.
    assert (Et : tiny <= uround * (ta s * ta t)) by nra. cbn [pow].
    assert (0 <= ta s * ta t) by (apply Rmult_le_pos; lra). nra.
Qed.
