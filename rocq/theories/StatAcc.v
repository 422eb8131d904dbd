(** * StatAcc: matrices of covariances and correlations of doubles (C81) *)

From Coq Require Import List ZArith Reals Bool Lra Lia Psatz.
From Flocq Require Import Core BinarySingleNaN.
From Verif Require Import Base Num Map UReal World URealFacts SpecLin SpecObs URealProofs URealProofs2 Sums Stat StatProofs Ieee IeeeFacts SpecIeee
  SpecIeee2 IeeeProofs IeeeProofs2 IeeeProofs3 IeeeProofs4 IeeeCov IeeeCorr SpecStatIeee.
Import ListNotations.
Local Open Scope R_scope.

(** ** The exact covariances of the stored coefficients are a positive semidefinite matrix *)
Definition hit (k : Z) (p : Z * double) : R := if (fst p =? k)%Z then real_of (snd p) else 0.
Definition coef (x : ureal DN) (k : Z) : R := rsum (cells x) (hit k).
Lemma sum_prod_app l1 l2 : sum_prod (l1 ++ l2) = sum_prod l1 + sum_prod l2.
Proof. unfold sum_prod. induction l1 as [|a l1 IH]; cbn [app fold_right]; [symmetry; apply Rplus_0_l|]. rewrite IH. ring. Qed.
Lemma common_rsum x y : sum_prod (common x y) =
  rsum (cells x) (fun p => rsum (cells y) (fun q => if (fst p =? fst q)%Z then real_of (snd p) * real_of (snd q) else 0)).
Proof.
  unfold common. induction (cells x) as [|p l IH]; [reflexivity|]. cbn [flat_map rsum]. rewrite sum_prod_app, IH. f_equal. clear IH.
  induction (cells y) as [|q m IH]; [reflexivity|]. cbn [filter rsum]. destruct (Z.eqb_spec (fst p) (fst q)); cbn [map sum_prod fold_right fst snd].
  - unfold sum_prod in IH. rewrite IH. reflexivity.
  - rewrite IH. ring.
Qed.
Lemma common_ids x y (K : list Z) : NoDup K -> (forall p, In p (cells x) -> In (fst p) K) ->
  sum_prod (common x y) = rsum K (fun k => coef x k * coef y k).
Proof.
  intros ND Hx. rewrite common_rsum. unfold coef.
  rewrite (rsum_ext K _ (fun k => rsum (cells x) (fun p => rsum (cells y) (fun q => hit k p * hit k q)))) by (intros; apply rsum_mult).
  rewrite (rsum_swap K (cells x)). apply rsum_ext. intros p Hp. rewrite (rsum_swap K (cells y)). apply rsum_ext. intros q Hq.
  rewrite (rsum_single Z.eq_dec K _ (fst p) ND (Hx p Hp)).
  - unfold hit. rewrite Z.eqb_refl, (Z.eqb_sym (fst q)). destruct (fst p =? fst q)%Z; ring.
  - intros k Hk Hne. unfold hit. destruct (Z.eqb_spec (fst p) k); [congruence|]. ring.
Qed.
Lemma exact_psd (xs : list (ureal DN)) (x0 : ureal DN) (a : nat -> R) :
  0 <= rsum (seq 0 (length xs)) (fun i => rsum (seq 0 (length xs)) (fun j => a i * a j * sum_prod (common (nth i xs x0) (nth j xs x0)))).
Proof.
  set (K := nodup Z.eq_dec (flat_map (fun x => map fst (cells x)) xs)).
  assert (HK : forall i p, In i (seq 0 (length xs)) -> In p (cells (nth i xs x0)) -> In (fst p) K).
  { intros i p Hi Hp. apply in_seq in Hi. apply nodup_In. apply in_flat_map. exists (nth i xs x0). split; [apply nth_In; lia|]. now apply in_map. }
  rewrite (rsum_ext _ _ (fun i => rsum (seq 0 (length xs)) (fun j => rsum K (fun k => (a i * coef (nth i xs x0) k) * (a j * coef (nth j xs x0) k))))).
  2:{ intros i Hi. apply rsum_ext. intros j Hj. rewrite (common_ids _ _ K (NoDup_nodup _ _) (fun p => HK i p Hi)). rewrite <- rsum_scal. apply rsum_ext. intros; ring. }
  rewrite (rsum_ext _ _ (fun i => rsum K (fun k => rsum (seq 0 (length xs)) (fun j => (a i * coef (nth i xs x0) k) * (a j * coef (nth j xs x0) k))))) by (intros; apply rsum_swap).
  rewrite rsum_swap. apply rsum_nonneg. intros k Hk. rewrite <- rsum_mult. apply Rle_0_sqr.
Qed.

(** ** Entries *)
Lemma seq_nth {A B : Type} (f : A -> B) (us : list A) d i : (i < length us)%nat -> nth_error (map f us) i = Some (f (nth i us d)).
Proof. intro H. apply map_nth_error. rewrite (nth_error_nth' us d H). reflexivity. Qed.
Lemma nth_of {A : Type} (l : list A) k d c : nth_error l k = Some c -> nth k l d = c.
Proof. apply nth_error_nth. Qed.
Lemma index_split n k : (k < n * n)%nat -> k = (n * (k / n) + k mod n)%nat /\ (k / n < n)%nat /\ (k mod n < n)%nat.
Proof.
  intro H. assert (n <> 0)%nat by (intros ->; lia). split; [apply Nat.div_mod; assumption|]. split; [apply Nat.div_lt_upper_bound; assumption|apply Nat.mod_upper_bound; assumption].
Qed.

Lemma cov_bound w u v : dreachable w -> bounded (w_var w u) -> bounded (w_var w v) ->
  let x := w_var w u in let y := w_var w v in
  finite (u_cov x y) /\ (length (common x y) <= length (coefs x))%nat /\ sum_abs (common x y) <= exact_dev x * exact_dev y /\
  Rabs (real_of (u_cov x y) - sum_prod (common x y)) <= ((1 + uround) ^ (length (coefs x) + 1) - 1) * (exact_dev x * exact_dev y) + INR (length (coefs x)) * pow2 (-1074).
Proof.
  intros Rw [Fx Sx] [Fy Sy] x y. fold x in Fx, Sx. fold y in Fy, Sy.
  destruct (dreach_wwf w Rw) as [[Pl W] B]. assert (Wx := W u). assert (Wy := W v). fold x in Wx. fold y in Wy.
  destruct (common_length _ x y Wx Wy (conj Pl B)) as [L1 L2].
  assert (CC := common_cauchy _ x y Wx Wy). fold (exact_dev x) (exact_dev y) in CC.
  assert (HD : exact_dev x * exact_dev y <= pow2 1020).
  { assert (D : forall z, sum_sq (coefs z) <= pow2 1020 -> 0 <= exact_dev z <= pow2 510).
    { intros z Hz. split; [apply sqrt_pos|]. unfold exact_dev. rewrite <- (sqrt_square (pow2 510)) by (left; apply pow2_pos). apply sqrt_le_1_alt.
      rewrite <- pow2_add. exact Hz. }
    assert (Dx := D x Sx). assert (Dy := D y Sy). change 1020%Z with (510 + 510)%Z. rewrite pow2_add. nra. }
  destruct (C61_covariance_accuracy_proof w Rw u v) as [Fc Bc]; [exact (finite_common _ x y Wx Wy Fx Fy)|fold x y; lra|].
  fold x y in Fc, Bc. split; [exact Fc|]. split; [lia|]. split; [exact CC|]. eapply Rle_trans; [exact Bc|].
  assert (U := ur_small). assert (S0 := sum_abs_nonneg (common x y)).
  apply Rplus_le_compat.
  - apply Rmult_le_compat; [assert (Q := pow_up (length (common x y) + 1)); fold ur in Q |- *; lra|exact S0| |exact CC].
    apply Rplus_le_compat_r. apply Rle_pow; [change uround with ur; lra|lia].
  - apply Rmult_le_compat_r; [left; apply pow2_pos|]. apply le_INR. lia.
Qed.

Lemma C81_cov_matrix_proof : forall w, dreachable w -> forall us : list nat,
  let xs := map (w_var w) us in let n := length us in
  exists V, cov_matrix xs = Ret V /\ length V = (n * n)%nat /\
  (forall i j, (i < n)%nat -> (j < n)%nat -> nth_error V (n * i + j) = nth_error V (n * j + i)) /\
  ((forall u, In u us -> bounded (w_var w u)) -> List.Forall finite V /\
   forall i j u v, nth_error us i = Some u -> nth_error us j = Some v ->
     let x := w_var w u in let y := w_var w v in let m := length (coefs x) in
     Rabs (entry n V i j - sum_prod (common x y)) <= ((1 + uround) ^ (m + 1) - 1) * (exact_dev x * exact_dev y) + INR m * pow2 (-1074)).
Proof.
  intros w Rw us xs n. destruct (C17_cov_matrix_layout_proof DN xs) as (V & E & L & F).
  assert (Ln : length xs = n) by (apply map_length). rewrite Ln in L, F.
  exists V. split; [exact E|]. split; [exact L|]. split.
  - intros i j Hi Hj. rewrite (F i j _ _ (seq_nth (w_var w) us 0%nat i Hi) (seq_nth (w_var w) us 0%nat j Hj)).
    rewrite (F j i _ _ (seq_nth (w_var w) us 0%nat j Hj) (seq_nth (w_var w) us 0%nat i Hi)). f_equal. apply C54_symmetric_proof.
  - intro HB. split.
    + apply List.Forall_forall. intros c Hc. apply In_nth_error in Hc as [k Hk].
      assert (Kn : (k < n * n)%nat) by (rewrite <- L; apply nth_error_Some; intro Q; discriminate (eq_trans (eq_sym Q) Hk)).
      destruct (index_split n k Kn) as (Ek & Li & Lj). rewrite Ek in Hk.
      assert (Q := eq_trans (eq_sym Hk) (F _ _ _ _ (seq_nth (w_var w) us 0%nat _ Li) (seq_nth (w_var w) us 0%nat _ Lj))). injection Q as ->.
      apply cov_bound; [exact Rw|apply HB; apply nth_In; exact Li|apply HB; apply nth_In; exact Lj].
    + intros i j u v Eu Ev x y m. unfold entry. assert (Q := nth_of V _ (dofZ 0) _ (F i j _ _ (map_nth_error (w_var w) i us Eu) (map_nth_error (w_var w) j us Ev))).
      change (@nth double (n * i + j) V (dofZ 0) = u_cov x y) in Q. rewrite Q.
      apply cov_bound; [exact Rw|apply HB; now apply nth_error_In in Eu|apply HB; now apply nth_error_In in Ev].
Qed.

Lemma C81_positive_partial_proof : forall w, dreachable w -> forall us : list nat,
  let xs := map (w_var w) us in let n := length us in
  (forall u, In u us -> bounded (w_var w u)) -> forall V, cov_matrix xs = Ret V ->
  forall m, (forall u, In u us -> (length (coefs (w_var w u)) <= m)%nat) -> forall a : nat -> R,
  - ((1 + uround) ^ (m + 1) - 1) * (rsum (seq 0 n) (fun i => Rabs (a i) * exact_dev (nth i xs u_default))) ^ 2
  - INR m * pow2 (-1074) * (rsum (seq 0 n) (fun i => Rabs (a i))) ^ 2 <= form n V a.
Proof.
  intros w Rw us xs n HB V EV m Hm a. destruct (C81_cov_matrix_proof w Rw us) as (V' & E' & _ & _ & H). fold xs n in E', H.
  rewrite EV in E'. injection E' as <-. destruct (H HB) as [_ Acc]. clear H.
  assert (Ln : length xs = n) by (apply map_length).
  assert (P := exact_psd xs u_default a). rewrite Ln in P.
  set (g := (1 + uround) ^ (m + 1) - 1). set (t := INR m * pow2 (-1074)).
  assert (Eq : forall i, (i < n)%nat -> nth_error us i = Some (nth i us 0%nat) /\ nth i xs u_default = w_var w (nth i us 0%nat)).
  { intros i Hi. split; [apply nth_error_nth'; exact Hi|]. unfold xs. rewrite (nth_indep _ u_default (w_var w 0%nat)) by (rewrite map_length; exact Hi). apply map_nth. }
  assert (Ent : forall i j, In i (seq 0 n) -> In j (seq 0 n) ->
    a i * a j * sum_prod (common (nth i xs u_default) (nth j xs u_default))
    - (g * ((Rabs (a i) * exact_dev (nth i xs u_default)) * (Rabs (a j) * exact_dev (nth j xs u_default))) + t * (Rabs (a i) * Rabs (a j)))
    <= a i * a j * entry n V i j).
  { intros i j Hi Hj. apply in_seq in Hi. apply in_seq in Hj. destruct (Eq i ltac:(lia)) as [Ei Xi]. destruct (Eq j ltac:(lia)) as [Ej Xj].
    assert (A := Acc i j _ _ Ei Ej). cbv zeta in A. rewrite <- Xi, <- Xj in A.
    assert (Mi : (length (coefs (nth i xs u_default)) <= m)%nat) by (rewrite Xi; apply Hm; apply nth_In; fold n; lia).
    set (x := nth i xs u_default) in *. set (y := nth j xs u_default) in *.
    assert (D0 : 0 <= exact_dev x * exact_dev y) by (apply Rmult_le_pos; apply sqrt_pos).
    assert (A2 : Rabs (entry n V i j - sum_prod (common x y)) <= g * (exact_dev x * exact_dev y) + t).
    { eapply Rle_trans; [exact A|]. apply Rplus_le_compat.
      - apply Rmult_le_compat_r; [exact D0|]. unfold g. apply Rplus_le_compat_r. apply Rle_pow; [change uround with ur; assert (U := ur_small); lra|lia].
      - unfold t. apply Rmult_le_compat_r; [left; apply pow2_pos|]. apply le_INR. exact Mi. }
    assert (A3 : Rabs (a i * a j * (entry n V i j - sum_prod (common x y))) <= Rabs (a i) * Rabs (a j) * (g * (exact_dev x * exact_dev y) + t)).
    { rewrite !Rabs_mult. apply Rmult_le_compat_l; [apply Rmult_le_pos; apply Rabs_pos|exact A2]. }
    apply Rabs_le_inv in A3. lra. }
  unfold form.
  apply Rle_trans with (rsum (seq 0 n) (fun i => rsum (seq 0 n) (fun j =>
    a i * a j * sum_prod (common (nth i xs u_default) (nth j xs u_default))
    - (g * ((Rabs (a i) * exact_dev (nth i xs u_default)) * (Rabs (a j) * exact_dev (nth j xs u_default))) + t * (Rabs (a i) * Rabs (a j)))))).
  - erewrite (rsum_ext (seq 0 n) (fun i => rsum (seq 0 n) (fun j => _ - _))).
    2:{ intros i Hi. rewrite rsum_minus, rsum_plus. rewrite (rsum_scal _ g), (rsum_scal _ t). reflexivity. }
    rewrite rsum_minus, rsum_plus. rewrite (rsum_scal _ g), (rsum_scal _ t). rewrite <- !rsum_mult. lra.
  - apply rsum_le. intros i Hi. apply rsum_le. intros j Hj. now apply Ent.
Qed.
