(** * Realize: positive definite Hankel matrices come from distributions on five points *)

From Coq Require Import List ZArith Bool Reals Lra Lia Classical_Prop.
From Verif Require Import Base Num Map UReal World HessGrad Moments CheckMoments UReal2 World2 Sums SpecProb SpecHankel Spectral CheckProofs.
Import ListNotations.
Local Open Scope R_scope.

Notation s5 f := (rsum five f).
Lemma s5_ext f g : (forall i, (i < 5)%nat -> f i = g i) -> s5 f = s5 g.
Proof. apply (sm_ext 5). Qed.
Lemma s5_delta f k : (k < 5)%nat -> s5 (fun i => delta i k * f i) = f k.
Proof. apply (sm_delta 5). Qed.
Lemma s5_delta_l f k : (k < 5)%nat -> s5 (fun i => delta k i * f i) = f k.
Proof. apply (sm_delta_l 5). Qed.

Definition mm (A B : nat -> nat -> R) (i j : nat) : R := s5 (fun k => A i k * B k j).
Definition tr (A : nat -> nat -> R) (i j : nat) : R := A j i.
Definition eq5 (A B : nat -> nat -> R) : Prop := forall i j, (i < 5)%nat -> (j < 5)%nat -> A i j = B i j.
Definition dg (d : nat -> R) (i j : nat) : R := delta i j * d i.
Lemma mm_assoc A B C : eq5 (mm (mm A B) C) (mm A (mm B C)).
Proof.
  intros i j Hi Hj. unfold mm. transitivity (s5 (fun l => s5 (fun k => A i k * B k l * C l j))).
  - apply s5_ext. intros l _. now rewrite <- rsum_scal_r.
  - rewrite rsum_swap. apply s5_ext. intros k _. rewrite <- rsum_scal. apply s5_ext. intros; ring.
Qed.
Lemma mm_ext A A' B B' : eq5 A A' -> eq5 B B' -> eq5 (mm A B) (mm A' B').
Proof. intros H K i j Hi Hj. apply s5_ext. intros k Hk. now rewrite H, K. Qed.
Lemma eq5_trans A B C : eq5 A B -> eq5 B C -> eq5 A C.
Proof. intros H K i j Hi Hj. now rewrite H, K. Qed.
Lemma eq5_sym A B : eq5 A B -> eq5 B A.
Proof. intros H i j Hi Hj. now rewrite H. Qed.
Lemma eq5_refl A : eq5 A A.
Proof. intros i j _ _; reflexivity. Qed.
Lemma mm_1r A : eq5 (mm A delta) A.
Proof. intros i j Hi Hj. unfold mm. rewrite <- (s5_delta (fun k => A i k) j Hj). apply s5_ext. intros; ring. Qed.
Lemma mm_1l A : eq5 (mm delta A) A.
Proof. intros i j Hi Hj. unfold mm. apply (s5_delta_l (fun k => A k j) i Hi). Qed.
Lemma mm_tr A B : eq5 (tr (mm A B)) (mm (tr B) (tr A)).
Proof. intros i j _ _. unfold tr, mm. apply s5_ext. intros; ring. Qed.

(** Simultaneous diagonalization of a positive definite and a symmetric matrix. *)
Lemma codiag H K : (forall i j, H i j = H j i) -> (forall i j, K i j = K j i) ->
  (forall x, (exists i, (i < 5)%nat /\ x i <> 0) -> 0 < mform H x) ->
  exists W Y lam, eq5 (mm W Y) delta /\ eq5 (mm Y W) delta /\ eq5 H (mm W (tr W)) /\ eq5 K (mm W (mm (dg lam) (tr W))).
Proof.
  intros SH SK PD.
  destruct (eigenvalues_exist H SH) as (v & Lv & Q & QQ & QQ' & HQ).
  assert (Pv : forall k, (k < 5)%nat -> 0 < nth k v 0).
  { intros k Hk. assert (A := PD (Q k)).
    assert (E : mform H (Q k) = nth k v 0).
    { unfold mform. transitivity (s5 (fun i => nth k v 0 * (Q k i * Q k i))).
      - apply s5_ext. intros i Hi. transitivity (Q k i * s5 (fun j => H i j * Q k j)); [rewrite <- rsum_scal; apply s5_ext; intros; ring|]. rewrite HQ by assumption. ring.
      - rewrite rsum_scal, (QQ k k Hk Hk). unfold delta. rewrite Nat.eqb_refl. ring. }
    rewrite E in A. apply A. apply NNPP. intro N.
    assert (Z : s5 (fun i => Q k i * Q k i) = 0).
    { apply rsum_zero. intros i Hi. apply in_seq in Hi. destruct (Req_dec (Q k i) 0) as [->|Hne]; [ring|]. exfalso. apply N. exists i. split; [lia|exact Hne]. }
    rewrite (QQ k k Hk Hk) in Z. unfold delta in Z. rewrite Nat.eqb_refl in Z. lra. }
  (* S H S^T = 1 with S = v^(-1/2) Q; inverse P = Q^T v^(1/2) *)
  set (r := fun k => sqrt (nth k v 0)).
  assert (Pr : forall k, (k < 5)%nat -> 0 < r k) by (intros; apply sqrt_lt_R0; auto).
  assert (Er : forall k, (k < 5)%nat -> r k * r k = nth k v 0) by (intros k Hk; apply sqrt_sqrt; left; auto).
  set (S := fun k i => Q k i / r k). set (P := fun i k => Q k i * r k).
  assert (SP : eq5 (mm S P) delta).
  { intros k l Hk Hl. unfold mm, S, P. transitivity (s5 (fun i => (Q k i * Q l i) * (r l / r k))).
    - apply s5_ext. intros i Hi. field. specialize (Pr k Hk). lra.
    - rewrite rsum_scal_r, QQ by assumption. unfold delta. destruct (Nat.eqb_spec k l) as [->|]; [|ring]. field. specialize (Pr l Hl). lra. }
  assert (PS : eq5 (mm P S) delta).
  { intros i j Hi Hj. unfold mm, S, P. rewrite <- (QQ' i j Hi Hj). apply s5_ext. intros k Hk. field. specialize (Pr k Hk). lra. }
  assert (HP : eq5 H (mm P (tr P))).
  { intros i j Hi Hj. unfold mm, tr, P.
    transitivity (s5 (fun k => Q k j * s5 (fun l => H i l * Q k l))).
    - transitivity (s5 (fun l => delta l j * H i l)); [symmetry; now apply s5_delta|].
      transitivity (s5 (fun l => s5 (fun k => Q k j * (H i l * Q k l)))).
      + apply s5_ext. intros l Hl. rewrite <- (QQ' l j Hl Hj), <- rsum_scal_r. apply s5_ext. intros; ring.
      + rewrite rsum_swap. apply s5_ext. intros k _. now rewrite rsum_scal.
    - apply s5_ext. intros k Hk. rewrite HQ by assumption. rewrite <- Er by exact Hk. ring. }
  set (A := mm S (mm K (tr S))).
  assert (SA : symm 5 A).
  { intros i j Hi Hj. unfold A. transitivity (tr (mm S (mm K (tr S))) i j); [|reflexivity].
    rewrite (mm_tr S (mm K (tr S)) i j Hi Hj). rewrite <- (mm_assoc S K (tr S) i j Hi Hj).
    apply (mm_ext (mm S K) (tr (mm K (tr S)))); [|apply eq5_refl|exact Hi|exact Hj].
    intros a b Ha Hb. rewrite (mm_tr K (tr S) a b Ha Hb). unfold mm, tr. apply s5_ext. intros; now rewrite SK. }
  destruct (eigenbasis 5 A 5 SA ltac:(lia)) as (U & lam & O & HU).
  assert (UU : eq5 (mm U (tr U)) delta) by (intros a b Ha Hb; apply (O a b Ha Hb)).
  assert (UU' : eq5 (mm (tr U) U) delta) by (intros a b Ha Hb; apply (orth_columns 5 U O a b Ha Hb)).
  exists (mm P (tr U)), (mm U S), lam. split; [|split; [|split]].
  - eapply eq5_trans; [apply mm_assoc|]. eapply eq5_trans; [|exact PS]. apply mm_ext; [apply eq5_refl|].
    eapply eq5_trans; [apply eq5_sym, mm_assoc|]. eapply eq5_trans; [|apply mm_1l]. apply mm_ext; [exact UU'|apply eq5_refl].
  - eapply eq5_trans; [apply mm_assoc|]. eapply eq5_trans; [|exact UU]. apply mm_ext; [apply eq5_refl|].
    eapply eq5_trans; [apply eq5_sym, mm_assoc|]. eapply eq5_trans; [|apply mm_1l]. apply mm_ext; [exact SP|apply eq5_refl].
  - eapply eq5_trans; [exact HP|]. eapply eq5_trans; [|apply eq5_sym, mm_assoc]. apply mm_ext; [apply eq5_refl|].
    eapply eq5_trans; [|apply mm_ext; [apply eq5_refl|apply eq5_sym, mm_tr]].
    eapply eq5_trans; [|apply mm_assoc]. eapply eq5_trans; [apply eq5_sym, mm_1l|]. apply mm_ext; [apply eq5_sym, UU'|apply eq5_refl].
  - assert (AU : eq5 A (mm (tr U) (mm (dg lam) U))).
    { assert (E : eq5 (mm A (tr U)) (mm (tr U) (dg lam))).
      { intros i k Hi Hk. change (mm A (tr U) i k) with (mv 5 A (U k) i). rewrite HU by assumption. unfold mm, tr, dg.
        transitivity (s5 (fun j => delta j k * (lam j * U j i))); [rewrite s5_delta by exact Hk; reflexivity|apply s5_ext; intros; ring]. }
      eapply eq5_trans; [apply eq5_sym, mm_1r|]. eapply eq5_trans; [apply mm_ext; [apply eq5_refl|apply eq5_sym, UU']|].
      eapply eq5_trans; [apply eq5_sym, mm_assoc|]. eapply eq5_trans; [apply mm_ext; [exact E|apply eq5_refl]|]. apply mm_assoc. }
    assert (KA : eq5 K (mm P (mm A (tr P)))).
    { assert (TS : eq5 (mm (tr S) (tr P)) delta).
      { eapply eq5_trans; [apply eq5_sym, mm_tr|]. intros i j Hi Hj. unfold tr. rewrite PS by assumption. unfold delta. now rewrite Nat.eqb_sym. }
      unfold A. apply eq5_sym.
      eapply eq5_trans; [apply mm_ext; [apply eq5_refl|apply mm_assoc]|]. eapply eq5_trans; [apply eq5_sym, mm_assoc|].
      eapply eq5_trans; [apply mm_ext; [exact PS|apply mm_assoc]|]. eapply eq5_trans; [apply mm_1l|].
      eapply eq5_trans; [apply mm_ext; [apply eq5_refl|exact TS]|]. apply mm_1r. }
    eapply eq5_trans; [exact KA|]. eapply eq5_trans; [apply mm_ext; [apply eq5_refl|apply mm_ext; [exact AU|apply eq5_refl]]|].
    eapply eq5_trans; [|apply eq5_sym, mm_assoc]. apply mm_ext; [apply eq5_refl|].
    eapply eq5_trans; [apply mm_assoc|]. apply mm_ext; [apply eq5_refl|]. eapply eq5_trans; [apply mm_assoc|]. apply mm_ext; [apply eq5_refl|].
    apply eq5_sym, mm_tr.
Qed.

(** Gauss quadrature. *)
Lemma hankel_realizable mu : (forall x, (exists i, (i < 5)%nat /\ x i <> 0) -> 0 < mform (hmat mu) x) ->
  exists pts : list (R * R), length pts = 5%nat /\ (forall p, In p pts -> 0 <= fst p) /\
    forall k, (k <= 8)%nat -> rsum pts (fun p => fst p * snd p ^ k) = mu k.
Proof.
  intro PD.
  destruct (codiag (hmat mu) (fun i j => mu (S (i + j))) ) as (W & Y & lam & WY & YW & HW & KW).
  { intros i j. unfold hmat. now rewrite Nat.add_comm. }
  { intros i j. now rewrite Nat.add_comm. }
  { exact PD. }
  assert (Step : forall i k, (i < 4)%nat -> (k < 5)%nat -> W (S i) k = lam k * W i k).
  { intros i k Hi Hk.
    assert (E : forall j, (j < 5)%nat -> s5 (fun l => (W (S i) l - lam l * W i l) * W j l) = 0).
    { intros j Hj. assert (A := HW (S i) j ltac:(lia) Hj). assert (B := KW i j ltac:(lia) Hj). unfold hmat in A. cbn [Nat.add] in A. cbv beta in B. rewrite A in B.
      rewrite (s5_ext _ (fun l => W (S i) l * W j l - W i l * (lam l * W j l))) by (intros; ring). rewrite rsum_minus.
      change (s5 (fun l => W (S i) l * W j l)) with (mm W (tr W) (S i) j). rewrite B. unfold mm at 1.
      apply Rminus_diag_eq. apply s5_ext. intros l Hl. f_equal. unfold mm, dg, tr.
      rewrite (s5_ext _ (fun k0 => delta l k0 * (lam l * W j k0))) by (intros; ring). now rewrite s5_delta_l. }
    assert (Z : s5 (fun j => Y k j * s5 (fun l => (W (S i) l - lam l * W i l) * W j l)) = 0) by (apply rsum_zero; intros j Hj; apply in_seq in Hj; rewrite E by lia; ring).
    assert (T : s5 (fun j => Y k j * s5 (fun l => (W (S i) l - lam l * W i l) * W j l)) = W (S i) k - lam k * W i k).
    { transitivity (s5 (fun l => delta k l * (W (S i) l - lam l * W i l))); [|now rewrite (s5_delta_l (fun l => W (S i) l - lam l * W i l) k Hk)].
      transitivity (s5 (fun j => s5 (fun l => Y k j * W j l * (W (S i) l - lam l * W i l)))).
      - apply s5_ext. intros j Hj. rewrite <- rsum_scal. apply s5_ext. intros; ring.
      - rewrite rsum_swap. apply s5_ext. intros l Hl. rewrite rsum_scal_r. f_equal. apply (YW k l Hk Hl). }
    lra. }
  assert (Pow : forall i k, (i < 5)%nat -> (k < 5)%nat -> W i k = lam k ^ i * W 0%nat k).
  { induction i as [|i IH]; intros k Hi Hk; [cbn; ring|]. rewrite Step, IH by lia. cbn [pow]. ring. }
  exists (map (fun k => (W 0%nat k * W 0%nat k, lam k)) five). split; [reflexivity|]. split.
  - intros p Hp. apply in_map_iff in Hp as (k & <- & _). cbn. nra.
  - intros n Hn. rewrite rsum_map. cbn [fst snd].
    assert (exists i j, (i < 5)%nat /\ (j < 5)%nat /\ n = (i + j)%nat) as (i & j & Hi & Hj & ->).
    { destruct (le_lt_dec n 4); [exists n, 0%nat|exists 4%nat, (n - 4)%nat]; repeat split; lia. }
    change (mu (i + j)%nat) with (hmat mu i j). rewrite (HW i j Hi Hj). unfold mm, tr. apply s5_ext. intros k Hk.
    rewrite (Pow i k Hi Hk), (Pow j k Hj Hk), pow_add. ring.
Qed.

Lemma C50_positive_definite_partial_proof : forall m : moms RN,
  (forall x, (exists i, (i < 5)%nat /\ x i <> 0) -> 0 < mform (hmat (stdmom m)) x) ->
  exists pts : list (R * R), length pts = 5%nat /\ (forall p, In p pts -> 0 <= fst p) /\
    forall k, (k <= 8)%nat -> rsum pts (fun p => fst p * snd p ^ k) = stdmom m k.
Proof. intros m H. now apply hankel_realizable. Qed.
