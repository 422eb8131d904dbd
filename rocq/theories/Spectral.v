(** * Spectral: every real symmetric matrix has an orthonormal basis of eigenvectors *)

From Coq Require Import List ZArith Bool Reals Lra Lia Classical_Prop.
From Verif Require Import Base Num HessGrad Moments CheckMoments Sums SpecProb SpecHankel.
Import ListNotations.
Local Open Scope R_scope.

Notation sm n f := (rsum (seq 0 n) f).
Definition dot (n : nat) (x y : nat -> R) : R := sm n (fun i => x i * y i).
Definition mv (n : nat) (A : nat -> nat -> R) (x : nat -> R) (i : nat) : R := sm n (fun j => A i j * x j).
Definition qf (n : nat) (A : nat -> nat -> R) (x : nat -> R) : R := dot n x (mv n A x).
Definition symm (n : nat) (A : nat -> nat -> R) : Prop := forall i j, (i < n)%nat -> (j < n)%nat -> A i j = A j i.

Lemma sm_S n f : sm (S n) f = sm n f + f n.
Proof. rewrite seq_S, rsum_app. cbn. ring. Qed.
Lemma sm_ext n f g : (forall i, (i < n)%nat -> f i = g i) -> sm n f = sm n g.
Proof. intro H. apply rsum_ext. intros a Ha. apply in_seq in Ha. apply H. lia. Qed.
Lemma sm_nonneg n f : (forall i, (i < n)%nat -> 0 <= f i) -> 0 <= sm n f.
Proof. intro H. apply rsum_nonneg. intros a Ha. apply in_seq in Ha. apply H. lia. Qed.
Lemma sm_le n f g : (forall i, (i < n)%nat -> f i <= g i) -> sm n f <= sm n g.
Proof. intro H. apply rsum_le. intros a Ha. apply in_seq in Ha. apply H. lia. Qed.
Lemma sm_delta n f k : (k < n)%nat -> sm n (fun i => delta i k * f i) = f k.
Proof.
  intro H. rewrite (rsum_single Nat.eq_dec (seq 0 n) _ k); [unfold delta; rewrite Nat.eqb_refl; ring|apply seq_NoDup|apply in_seq; lia|].
  intros b _ Hb. unfold delta. destruct (Nat.eqb_spec b k); [contradiction|ring].
Qed.
Lemma sm_delta_l n f k : (k < n)%nat -> sm n (fun i => delta k i * f i) = f k.
Proof. intro H. rewrite <- (sm_delta n f k H). apply sm_ext. intros i _. unfold delta. now rewrite Nat.eqb_sym. Qed.
Lemma sm_one n : sm n (fun _ => 1) = INR n.
Proof. induction n as [|n IH]; [reflexivity|]. rewrite sm_S, S_INR, IH. ring. Qed.

Lemma dot_sym n x y : dot n x y = dot n y x.
Proof. apply sm_ext. intros; ring. Qed.
Lemma dot_nonneg n x : 0 <= dot n x x.
Proof. apply sm_nonneg. intros i _. nra. Qed.
Lemma dot_zero n x : dot n x x = 0 -> forall i, (i < n)%nat -> x i = 0.
Proof. intros H i Hi. apply (rsum_sq_zero (seq 0 n) x H). apply in_seq. lia. Qed.
Lemma dot_lin n x y z a b : dot n x (fun i => a * y i + b * z i) = a * dot n x y + b * dot n x z.
Proof. unfold dot. rewrite <- !rsum_scal, <- rsum_plus. apply sm_ext. intros; ring. Qed.
Lemma dot_scal n x y a : dot n x (fun i => a * y i) = a * dot n x y.
Proof. unfold dot. rewrite <- rsum_scal. apply sm_ext. intros; ring. Qed.
Lemma mv_dot n A x y : symm n A -> dot n x (mv n A y) = dot n (mv n A x) y.
Proof.
  intro Sy. unfold dot, mv. transitivity (sm n (fun i => sm n (fun j => x i * A i j * y j))).
  - apply sm_ext. intros i _. rewrite <- rsum_scal. apply sm_ext. intros; ring.
  - rewrite rsum_swap. apply sm_ext. intros j Hj. rewrite <- rsum_scal_r. apply sm_ext. intros i Hi. rewrite (Sy i j Hi Hj). ring.
Qed.
Lemma qf_S n A x : symm (S n) A ->
  qf (S n) A x = qf n A x + 2 * x n * sm n (fun i => A i n * x i) + A n n * x n * x n.
Proof.
  intro Sy. unfold qf, dot, mv. rewrite sm_S.
  rewrite (sm_ext n (fun i => x i * sm (S n) (fun j => A i j * x j)) (fun i => x i * sm n (fun j => A i j * x j) + (A i n * x i) * x n))
    by (intros i Hi; rewrite sm_S; ring).
  rewrite rsum_plus, rsum_scal_r, sm_S.
  rewrite (sm_ext n (fun j => A n j * x j) (fun j => A j n * x j)) by (intros j Hj; rewrite (Sy n j); [ring|lia|lia]). ring.
Qed.
Lemma qf_ext n A x y : (forall i, (i < n)%nat -> x i = y i) -> qf n A x = qf n A y.
Proof. intro H. unfold qf, dot, mv. apply sm_ext. intros i Hi. rewrite H by exact Hi. f_equal. apply sm_ext. intros j Hj. now rewrite H. Qed.

Definition nonzero (n : nat) (x : nat -> R) : Prop := exists i, (i < n)%nat /\ x i <> 0.

(** A positive semidefinite matrix has a null vector or is bounded away from zero. *)
Lemma psd_dichotomy n : forall A, symm n A -> (forall x, 0 <= qf n A x) ->
  (exists x, nonzero n x /\ forall i, (i < n)%nat -> mv n A x i = 0) \/
  (exists e, 0 < e /\ forall x, e * dot n x x <= qf n A x).
Proof.
  induction n as [|n IH]; intros A Sy P.
  { right. exists 1. split; [lra|]. intro x. cbn. lra. }
  set (a := A n n). assert (Ha : 0 <= a).
  { specialize (P (fun i => delta i n)). rewrite qf_S in P by exact Sy.
    assert (Z : forall i, (i < n)%nat -> delta i n = 0) by (intros i Hi; unfold delta; destruct (Nat.eqb_spec i n); [lia|reflexivity]).
    rewrite (qf_ext n A _ (fun _ => 0) Z) in P.
    assert (E : qf n A (fun _ => 0) = 0) by (unfold qf, dot; rewrite (sm_ext n _ (fun _ => 0)) by (intros; ring); now rewrite rsum_zero).
    assert (E2 : delta n n = 1) by (unfold delta; now rewrite Nat.eqb_refl).
    assert (E3 : sm n (fun i => A i n * delta i n) = 0) by (apply rsum_zero; intros i Hi; apply in_seq in Hi; rewrite Z by lia; ring).
    rewrite E, E2, E3 in P. unfold a. lra. }
  destruct (Req_dec a 0) as [Ea|Ea].
  - (* the last row vanishes *)
    left. exists (fun i => delta i n). split.
    { exists n. split; [lia|]. unfold delta. rewrite Nat.eqb_refl. lra. }
    assert (R0 : forall i, (i < n)%nat -> A i n = 0).
    { intros i Hi. apply NNPP. intro Hn.
      set (q := qf n A (fun j => delta j i)).
      set (t := - (q + 1) / (2 * A i n)).
      specialize (P (fun j => if Nat.eqb j n then t else delta j i)). rewrite qf_S in P by exact Sy.
      rewrite (qf_ext n A _ (fun j => delta j i)) in P by (intros j Hj; destruct (Nat.eqb_spec j n); [lia|reflexivity]).
      rewrite Nat.eqb_refl in P. fold a q in P. rewrite Ea in P.
      rewrite (sm_ext n _ (fun j => delta j i * A j n)) in P by (intros j Hj; destruct (Nat.eqb_spec j n); [lia|ring]).
      rewrite sm_delta in P by exact Hi. unfold t in P.
      replace (q + 2 * (- (q + 1) / (2 * A i n)) * A i n + 0 * (- (q + 1) / (2 * A i n)) * (- (q + 1) / (2 * A i n))) with (-1) in P by (field; exact Hn).
      lra. }
    intros i Hi. unfold mv. rewrite (sm_ext (S n) _ (fun j => delta j n * A i j)) by (intros; ring).
    rewrite sm_delta by lia. destruct (Nat.eq_dec i n) as [->|Hne]; [exact Ea|]. apply R0. lia.
  - assert (Pa : 0 < a) by lra.
    set (B := fun i j => A i j - A i n * A n j / a).
    set (l := fun x => sm n (fun i => A i n * x i) / a).
    assert (SB : symm n B).
    { intros i j Hi Hj. unfold B. rewrite (Sy i j), (Sy i n), (Sy n j) by lia. field. exact Ea. }
    assert (Q : forall x, qf (S n) A x = a * (x n + l x) * (x n + l x) + qf n B x).
    { intro x. rewrite qf_S by exact Sy. fold a.
      assert (E : qf n B x = qf n A x - a * l x * l x).
      { unfold qf, dot, mv, B, l. 
        rewrite (sm_ext n _ (fun i => x i * sm n (fun j => A i j * x j) - (A i n * x i) * (sm n (fun j => A j n * x j) / a))).
        - rewrite rsum_minus, rsum_scal_r. field. exact Ea.
        - intros i Hi. rewrite (sm_ext n _ (fun j => A i j * x j - A i n / a * (A j n * x j))).
          + rewrite rsum_minus, rsum_scal. field. exact Ea.
          + intros j Hj. rewrite (Sy n j) by lia. field. exact Ea. }
      rewrite E. replace (sm n (fun i => A i n * x i)) with (a * l x) by (unfold l; field; exact Ea). ring. }
    assert (PB : forall x, 0 <= qf n B x).
    { intro x. specialize (P (fun j => if Nat.eqb j n then - l x else x j)). rewrite Q in P.
      rewrite Nat.eqb_refl in P.
      assert (El : l (fun j => if Nat.eqb j n then - l x else x j) = l x).
      { unfold l at 1 3. f_equal. apply sm_ext. intros j Hj. destruct (Nat.eqb_spec j n); [lia|reflexivity]. }
      rewrite El in P. rewrite (qf_ext n B _ x) in P by (intros j Hj; destruct (Nat.eqb_spec j n); [lia|reflexivity]).
      replace (a * (- l x + l x) * (- l x + l x)) with 0 in P by ring. lra. }
    destruct (IH B SB PB) as [(x & (k & Hk & Hx) & Hn)|(e & He & Hb)].
    + left. exists (fun j => if Nat.eqb j n then - l x else x j). split.
      { exists k. split; [lia|]. destruct (Nat.eqb_spec k n); [lia|exact Hx]. }
      intros i Hi. unfold mv. rewrite sm_S, Nat.eqb_refl.
      rewrite (sm_ext n _ (fun j => A i j * x j)) by (intros j Hj; destruct (Nat.eqb_spec j n); [lia|reflexivity]).
      destruct (Nat.eq_dec i n) as [->|Hne].
      * fold a. rewrite (sm_ext n _ (fun j => A j n * x j)) by (intros j Hj; rewrite (Sy n j) by lia; reflexivity). unfold l. field. exact Ea.
      * specialize (Hn i ltac:(lia)). unfold mv, B in Hn.
        rewrite (sm_ext n _ (fun j => A i j * x j - A i n / a * (A j n * x j))) in Hn.
        -- rewrite rsum_minus, rsum_scal in Hn. unfold l. rewrite <- Hn. field. exact Ea.
        -- intros j Hj. rewrite (Sy n j) by lia. field. exact Ea.
    + right. set (c := sm n (fun i => (A i n / a) * (A i n / a))).
      assert (Hc : 0 <= c) by (apply sm_nonneg; intros; nra).
      set (K := 2 / a + (2 * c + 1) / e).
      assert (HK : 0 < K).
      { unfold K. assert (0 < 2 / a) by (apply Rdiv_lt_0_compat; lra). assert (0 < (2 * c + 1) / e) by (apply Rdiv_lt_0_compat; lra). lra. }
      exists (/ K). split; [now apply Rinv_0_lt_compat|]. intro x.
      assert (CS : l x * l x <= c * dot n x x).
      { assert (H := rsum_cauchy_schwarz (seq 0 n) (fun i => A i n / a) x).
        replace (l x) with (sm n (fun i => A i n / a * x i)). 2:{ unfold l, Rdiv. rewrite <- rsum_scal_r. apply sm_ext. intros; ring. }
        unfold dot, c. cbn [pow] in H. lra. }
      specialize (Hb x). rewrite Q.
      assert (D : dot (S n) x x = dot n x x + x n * x n) by (unfold dot; now rewrite sm_S). rewrite D.
      assert (D0 := dot_nonneg n x). set (d := dot n x x) in *. set (q := qf n B x) in *. set (y := x n + l x) in *.
      assert (X2 : x n * x n <= 2 * (y * y) + 2 * (l x * l x)).
      { unfold y. assert (0 <= (x n + 2 * l x) ^ 2) by apply pow2_ge_0. cbn [pow] in H. nra. }
      apply (Rmult_le_reg_l K); [exact HK|]. rewrite <- Rmult_assoc, Rinv_r, Rmult_1_l by lra.
      unfold K. replace ((2 / a + (2 * c + 1) / e) * (a * y * y + q)) with (2 * (y * y) + 2 / a * q + (2 * c + 1) * (a * (y * y)) / e + (2 * c + 1) * (q / e)) by (field; lra).
      assert (T1 : d <= q / e) by (apply (Rmult_le_reg_r e); [exact He|]; unfold Rdiv; rewrite Rmult_assoc, Rinv_l by lra; lra).
      assert (T2 : 0 <= 2 / a * q). { apply Rmult_le_pos; [left; apply Rdiv_lt_0_compat; lra|]. unfold q. apply PB. }
      assert (T3 : 0 <= (2 * c + 1) * (a * (y * y)) / e). { unfold Rdiv. apply Rmult_le_pos; [apply Rmult_le_pos; [lra|apply Rmult_le_pos; [lra|nra]]|left; now apply Rinv_0_lt_compat]. }
      assert (T4 : (2 * c + 1) * d <= (2 * c + 1) * (q / e)) by (apply Rmult_le_compat_l; lra).
      lra.
Qed.

Definition asum (n : nat) (A : nat -> nat -> R) : R := sm n (fun i => sm n (fun j => Rabs (A i j))).
Lemma asum_nonneg n A : 0 <= asum n A.
Proof. apply sm_nonneg. intros i _. apply sm_nonneg. intros j _. apply Rabs_pos. Qed.
Lemma le_dot n x i : (i < n)%nat -> x i * x i <= dot n x x.
Proof.
  intro H. unfold dot. rewrite <- (sm_delta n (fun j => x j * x j) i H). apply sm_le. intros j _. unfold delta. destruct (Nat.eqb j i); nra.
Qed.
Lemma qf_le n A x : qf n A x <= asum n A * dot n x x.
Proof.
  unfold qf, dot at 1, mv, asum. rewrite <- rsum_scal_r. apply sm_le. intros i Hi.
  rewrite <- rsum_scal, <- rsum_scal_r. apply sm_le. intros j Hj.
  assert (Di := le_dot n x i Hi). assert (Dj := le_dot n x j Hj). set (d := dot n x x) in *.
  assert (M : Rabs (x i * x j) <= d).
  { apply Rabs_le. assert (0 <= (x i + x j) ^ 2) by apply pow2_ge_0. assert (0 <= (x i - x j) ^ 2) by apply pow2_ge_0. cbn [pow] in *. lra. }
  replace (x i * (A i j * x j)) with (A i j * (x i * x j)) by ring.
  apply (Rle_trans _ (Rabs (A i j * (x i * x j)))); [apply Rle_abs|]. rewrite Rabs_mult. apply Rmult_le_compat_l; [apply Rabs_pos|exact M].
Qed.
Lemma qf_ge n A x : - asum n A * dot n x x <= qf n A x.
Proof.
  assert (H := qf_le n (fun i j => - A i j) x).
  assert (E1 : qf n (fun i j => - A i j) x = - qf n A x).
  { unfold qf, dot. rewrite <- rsum_opp. apply sm_ext. intros i _. unfold mv. rewrite (sm_ext n _ (fun j => - (A i j * x j))) by (intros; ring). rewrite rsum_opp. ring. }
  assert (E2 : asum n (fun i j => - A i j) = asum n A) by (unfold asum; apply sm_ext; intros; apply sm_ext; intros; apply Rabs_Ropp).
  rewrite E1, E2 in H. lra.
Qed.
Lemma nonzero_dot n x : nonzero n x -> 0 < dot n x x.
Proof. intros (i & Hi & Hx). assert (H := le_dot n x i Hi). nra. Qed.
Lemma dot_nonzero n x : 0 < dot n x x -> nonzero n x.
Proof.
  intro H. apply NNPP. intro N. assert (dot n x x = 0); [|lra]. apply rsum_zero. intros i Hi. apply in_seq in Hi.
  destruct (Req_dec (x i) 0) as [->|E]; [ring|]. exfalso. apply N. exists i. split; [lia|exact E].
Qed.
Lemma normalize n x : 0 < dot n x x -> exists c, 0 < c /\ dot n (fun i => c * x i) (fun i => c * x i) = 1.
Proof.
  intro H. exists (/ sqrt (dot n x x)). assert (S := sqrt_lt_R0 _ H). split; [now apply Rinv_0_lt_compat|].
  set (q := / sqrt (dot n x x)). rewrite (dot_scal n (fun i => q * x i) x), (dot_sym n _ x), (dot_scal n x x). unfold q.
  set (d := dot n x x) in *. transitivity (/ sqrt d * (/ sqrt d * (sqrt d * sqrt d))); [rewrite sqrt_sqrt by lra; reflexivity|field; lra].
Qed.
Lemma mv_scal n A x c i : mv n A (fun i => c * x i) i = c * mv n A x i.
Proof. unfold mv. rewrite <- rsum_scal. apply sm_ext. intros; ring. Qed.

(** The largest value of the Rayleigh quotient is an eigenvalue. *)
Lemma top_eigenvector n A : (0 < n)%nat -> symm n A ->
  exists lam x, dot n x x = 1 /\ (forall i, (i < n)%nat -> mv n A x i = lam * x i) /\ (forall y, qf n A y <= lam * dot n y y).
Proof.
  intros Hn Sy.
  set (E := fun r => exists x, 0 < dot n x x /\ r = qf n A x / dot n x x).
  assert (BD : bound E).
  { exists (asum n A). intros r (x & Hx & ->). apply (Rmult_le_reg_r (dot n x x)); [exact Hx|].
    unfold Rdiv. rewrite Rmult_assoc, Rinv_l, Rmult_1_r by lra. apply qf_le. }
  assert (NE : exists r, E r).
  { exists (qf n A (fun i => 1) / dot n (fun i => 1) (fun i => 1)), (fun i => 1). split; [|reflexivity].
    apply nonzero_dot. exists 0%nat. split; [exact Hn|lra]. }
  destruct (completeness E BD NE) as (lam & UB & LU).
  assert (Hq : forall y, qf n A y <= lam * dot n y y).
  { intro y. destruct (Rle_lt_or_eq_dec 0 (dot n y y) (dot_nonneg n y)) as [P|Z].
    - assert (H : qf n A y / dot n y y <= lam) by (apply UB; exists y; auto).
      apply (Rmult_le_compat_r (dot n y y)) in H; [|lra]. unfold Rdiv in H. rewrite Rmult_assoc, Rinv_l, Rmult_1_r in H by lra. exact H.
    - rewrite <- Z. rewrite (qf_ext n A y (fun _ => 0)) by (intros i Hi; now apply (dot_zero n y)).
      unfold qf, dot. rewrite rsum_zero by (intros; ring). lra. }
  set (C := fun i j => lam * delta i j - A i j).
  assert (MC : forall x i, (i < n)%nat -> mv n C x i = lam * x i - mv n A x i).
  { intros x i Hi. unfold mv, C. rewrite (sm_ext n _ (fun j => lam * (delta i j * x j) - A i j * x j)) by (intros; ring).
    rewrite rsum_minus, rsum_scal. now rewrite (sm_delta_l n x i Hi). }
  assert (QC : forall x, qf n C x = lam * dot n x x - qf n A x).
  { intro x. unfold qf, dot. rewrite <- rsum_scal, <- rsum_minus. apply sm_ext. intros i Hi. rewrite MC by exact Hi. ring. }
  assert (SC : symm n C).
  { intros i j Hi Hj. unfold C, delta. rewrite (Sy i j Hi Hj), (Nat.eqb_sym i j). reflexivity. }
  destruct (psd_dichotomy n C SC) as [(x & Hx & Nx)|(e & He & Hb)].
  - intro x. rewrite QC. specialize (Hq x). lra.
  - apply nonzero_dot in Hx. destruct (normalize n x Hx) as (c & _ & Ec). exists lam, (fun i => c * x i). split; [exact Ec|]. split; [|exact Hq].
    intros i Hi. rewrite mv_scal. specialize (Nx i Hi). rewrite MC in Nx by exact Hi. replace (mv n A x i) with (lam * x i) by lra. ring.
  - exfalso. assert (lam <= lam - e); [|lra]. apply LU. intros r (x & Hx & ->). specialize (Hb x). rewrite QC in Hb.
    apply (Rmult_le_reg_r (dot n x x)); [exact Hx|]. unfold Rdiv. rewrite Rmult_assoc, Rinv_l, Rmult_1_r by lra. lra.
Qed.

(** Orthonormal families. *)
Definition orthonormal (n k : nat) (U : nat -> nat -> R) : Prop :=
  forall a b, (a < k)%nat -> (b < k)%nat -> dot n (U a) (U b) = delta a b.
Definition resid (k : nat) (U : nat -> nat -> R) (j i : nat) : R := delta i j - sm k (fun a => U a j * U a i).
Lemma dot_unit n x j : (j < n)%nat -> dot n x (fun i => delta i j) = x j.
Proof. intro H. unfold dot. rewrite <- (sm_delta n x j H). apply sm_ext. intros; ring. Qed.
Lemma resid_orth n k U j a : orthonormal n k U -> (j < n)%nat -> (a < k)%nat -> dot n (U a) (resid k U j) = 0.
Proof.
  intros O Hj Ha. unfold resid, dot.
  rewrite (sm_ext n _ (fun i => U a i * delta i j - sm k (fun b => U b j * (U a i * U b i)))).
  2:{ intros i Hi. rewrite Rmult_minus_distr_l. f_equal. rewrite <- rsum_scal. apply sm_ext. intros; ring. }
  rewrite rsum_minus. change (sm n (fun i => U a i * delta i j)) with (dot n (U a) (fun i => delta i j)). rewrite dot_unit by exact Hj.
  rewrite rsum_swap. rewrite (sm_ext k _ (fun b => delta a b * U b j)).
  - rewrite (sm_delta_l k (fun b => U b j) a Ha). ring.
  - intros b Hb. rewrite rsum_scal. change (sm n (fun i => U a i * U b i)) with (dot n (U a) (U b)). rewrite O by assumption. ring.
Qed.
Lemma resid_self n k U j : orthonormal n k U -> (j < n)%nat -> dot n (resid k U j) (resid k U j) = resid k U j j.
Proof.
  intros O Hj. transitivity (dot n (resid k U j) (fun i => delta i j) - sm k (fun a => U a j * dot n (U a) (resid k U j))).
  - unfold dot at 1 2. rewrite (sm_ext k _ (fun a => sm n (fun i => U a j * (U a i * resid k U j i)))) by (intros; unfold dot; now rewrite rsum_scal).
    rewrite <- rsum_swap, <- rsum_minus. apply sm_ext. intros i Hi. unfold resid at 2. rewrite Rmult_minus_distr_l. f_equal.
    rewrite <- rsum_scal. apply sm_ext. intros; ring.
  - rewrite dot_unit by exact Hj. rewrite rsum_zero; [ring|]. intros a Ha. apply in_seq in Ha. rewrite resid_orth by (assumption || lia). ring.
Qed.
Lemma resid_trace n k U : orthonormal n k U -> sm n (fun j => resid k U j j) = INR n - INR k.
Proof.
  intro O. unfold resid. rewrite rsum_minus, rsum_swap. f_equal.
  - rewrite <- sm_one. apply sm_ext. intros j _. unfold delta. now rewrite Nat.eqb_refl.
  - rewrite <- sm_one. apply sm_ext. intros a Ha. change (sm n (fun i => U a i * U a i)) with (dot n (U a) (U a)). rewrite O by assumption.
    unfold delta. now rewrite Nat.eqb_refl.
Qed.
Lemma orth_complement n k U : orthonormal n k U -> (k < n)%nat ->
  exists y, 0 < dot n y y /\ forall a, (a < k)%nat -> dot n (U a) y = 0.
Proof.
  intros O Hk. apply NNPP. intro N.
  assert (Z : forall j, (j < n)%nat -> resid k U j j = 0).
  { intros j Hj. rewrite <- (resid_self n) by assumption. destruct (Rle_lt_or_eq_dec _ _ (dot_nonneg n (resid k U j))) as [P|Z]; [|congruence].
    exfalso. apply N. exists (resid k U j). split; [exact P|]. intros a Ha. now apply resid_orth. }
  assert (T := resid_trace n k U O). rewrite rsum_zero in T by (intros j Hj; apply in_seq in Hj; apply Z; lia).
  assert (INR k < INR n) by now apply lt_INR. lra.
Qed.
Lemma orth_columns n U : orthonormal n n U -> forall i j, (i < n)%nat -> (j < n)%nat -> sm n (fun a => U a i * U a j) = delta i j.
Proof.
  intros O i j Hi Hj.
  assert (Z : forall j, (j < n)%nat -> resid n U j j = 0).
  { intros k Hk. assert (T := resid_trace n n U O). apply Rminus_diag_eq in T as T'. 
    assert (NN : forall i, (i < n)%nat -> 0 <= resid n U i i) by (intros m Hm; rewrite <- (resid_self n) by assumption; apply dot_nonneg).
    destruct (Rle_lt_or_eq_dec _ _ (NN k Hk)) as [P|Z]; [|congruence]. exfalso.
    assert (L : resid n U k k <= sm n (fun j => resid n U j j)).
    { rewrite <- (sm_delta n (fun j => resid n U j j) k Hk). apply sm_le. intros m Hm. unfold delta. specialize (NN m Hm). destruct (Nat.eqb m k); lra. }
    lra. }
  specialize (Z j Hj). rewrite <- (resid_self n) in Z by assumption. assert (E := dot_zero n _ Z i Hi). unfold resid in E.
  rewrite (sm_ext n _ (fun a => U a j * U a i)) by (intros; ring). lra.
Qed.

(** One more eigenvector, orthogonal to the ones found. *)
Lemma next_eigenvector n A k U lam : symm n A -> (k < n)%nat -> orthonormal n k U ->
  (forall a i, (a < k)%nat -> (i < n)%nat -> mv n A (U a) i = lam a * U a i) ->
  exists l x, dot n x x = 1 /\ (forall a, (a < k)%nat -> dot n (U a) x = 0) /\ (forall i, (i < n)%nat -> mv n A x i = l * x i).
Proof.
  intros Sy Hk O HU. set (c := 2 * asum n A + 1).
  set (B := fun i j => A i j - c * sm k (fun a => U a i * U a j)).
  assert (MB : forall x i, mv n B x i = mv n A x i - c * sm k (fun a => U a i * dot n (U a) x)).
  { intros x i. unfold mv, B, dot.
    rewrite (sm_ext n _ (fun j => A i j * x j - c * sm k (fun a => U a i * (U a j * x j)))).
    - rewrite rsum_minus, rsum_scal, rsum_swap. f_equal. f_equal. apply sm_ext. intros a _. now rewrite rsum_scal.
    - intros j _. rewrite Rmult_minus_distr_r. f_equal. rewrite Rmult_assoc, <- rsum_scal_r. f_equal. apply sm_ext. intros; ring. }
  assert (SB : symm n B).
  { intros i j Hi Hj. unfold B. rewrite (Sy i j Hi Hj). f_equal. f_equal. apply sm_ext. intros; ring. }
  destruct (top_eigenvector n B ltac:(lia) SB) as (l & x & Nx & Ex & Max).
  assert (Hl : - asum n A <= l).
  { destruct (orth_complement n k U O Hk) as (y & Py & Oy). specialize (Max y).
    assert (Q : qf n B y = qf n A y).
    { unfold qf, dot. apply sm_ext. intros i Hi. rewrite MB. rewrite (rsum_zero (seq 0 k)) by (intros a Ha; apply in_seq in Ha; rewrite Oy by lia; ring). f_equal. ring. }
    rewrite Q in Max. assert (G := qf_ge n A y). apply (Rmult_le_reg_r (dot n y y)); [exact Py|]. lra. }
  assert (Ox : forall a, (a < k)%nat -> dot n (U a) x = 0).
  { intros a Ha.
    assert (La : lam a <= asum n A).
    { assert (G := qf_le n A (U a)). unfold qf in G. 
      assert (E : dot n (U a) (mv n A (U a)) = lam a).
      { transitivity (dot n (U a) (fun i => lam a * U a i)); [apply sm_ext; intros i Hi; now rewrite HU|].
        rewrite dot_scal, O by assumption. unfold delta. rewrite Nat.eqb_refl. ring. }
      rewrite E, O in G by assumption. unfold delta in G. rewrite Nat.eqb_refl in G. lra. }
    assert (E1 : dot n (U a) (mv n B x) = l * dot n (U a) x).
    { rewrite <- dot_scal. apply sm_ext. intros i Hi. now rewrite Ex. }
    assert (E2 : dot n (mv n B (U a)) x = (lam a - c) * dot n (U a) x).
    { rewrite (dot_sym n (mv n B (U a))), (dot_sym n (U a) x), <- dot_scal. apply sm_ext. intros i Hi. f_equal. rewrite MB, HU by assumption.
      rewrite (sm_ext k _ (fun b => delta b a * U b i)) by (intros b Hb; rewrite O by assumption; ring). rewrite sm_delta by exact Ha. ring. }
    rewrite mv_dot, E2 in E1 by exact SB. assert (Z : (l - lam a + c) * dot n (U a) x = 0) by lra.
    apply Rmult_integral in Z. destruct Z as [Z|Z]; [|exact Z]. exfalso. assert (NA := asum_nonneg n A). unfold c in Z. lra. }
  exists l, x. split; [exact Nx|]. split; [exact Ox|]. intros i Hi. rewrite <- Ex, MB by exact Hi.
  rewrite (rsum_zero (seq 0 k)) by (intros a Ha; apply in_seq in Ha; rewrite Ox by lia; ring). ring.
Qed.

Lemma eigenbasis n A k : symm n A -> (k <= n)%nat -> exists U lam, orthonormal n k U /\
  forall a i, (a < k)%nat -> (i < n)%nat -> mv n A (U a) i = lam a * U a i.
Proof.
  intros Sy. induction k as [|k IH]; intro Hk.
  { exists (fun _ _ => 0), (fun _ => 0). split; intros a b; lia. }
  destruct (IH ltac:(lia)) as (U & lam & O & HU).
  destruct (next_eigenvector n A k U lam Sy ltac:(lia) O HU) as (l & x & Nx & Ox & Ex).
  exists (fun a => if Nat.eqb a k then x else U a), (fun a => if Nat.eqb a k then l else lam a). split.
  - intros a b Ha Hb. destruct (Nat.eqb_spec a k) as [->|Na]; destruct (Nat.eqb_spec b k) as [->|Nb].
    + unfold delta. now rewrite Nat.eqb_refl.
    + rewrite dot_sym, Ox by lia. unfold delta. destruct (Nat.eqb_spec k b); [lia|reflexivity].
    + rewrite Ox by lia. unfold delta. destruct (Nat.eqb_spec a k); [lia|reflexivity].
    + apply O; lia.
  - intros a i Ha Hi. destruct (Nat.eqb_spec a k) as [->|Na]; [now apply Ex|apply HU; lia].
Qed.

(** Every symmetric 5x5 matrix has eigenvalues in the sense of [eigenvalues]. *)
Lemma eigenvalues_exist M : (forall i j, M i j = M j i) -> exists lam, eigenvalues M lam.
Proof.
  intro Sy. destruct (eigenbasis 5 M 5 ltac:(intros i j _ _; apply Sy) ltac:(lia)) as (U & lam & O & HU).
  exists (map lam (seq 0 5)). split; [reflexivity|]. exists U. split; [exact O|]. split; [now apply orth_columns|].
  intros k i Hk Hi. rewrite (nth_indep _ 0 (lam 0%nat)) by (rewrite map_length, seq_length; exact Hk). rewrite map_nth, seq_nth by exact Hk. now apply HU.
Qed.
