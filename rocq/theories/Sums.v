(** * Sums: finite sums of reals over lists *)

From Coq Require Import List ZArith Reals Lra Permutation Lia.
Import ListNotations.
Local Open Scope R_scope.

Section Sums.
  Context {A : Type}.
  Implicit Types (l : list A) (f g : A -> R).

  Fixpoint rsum l f : R :=
    match l with
    | [] => 0
    | a :: l' => f a + rsum l' f
    end.

  Lemma rsum_ext l f g : (forall a, In a l -> f a = g a) -> rsum l f = rsum l g.
  Proof. induction l; cbn; intro H; [reflexivity|]. rewrite H, IHl; auto. Qed.

  Lemma rsum_app l1 l2 f : rsum (l1 ++ l2) f = rsum l1 f + rsum l2 f.
  Proof. induction l1; cbn; [ring|]. rewrite IHl1; ring. Qed.

  Lemma rsum_plus l f g : rsum l (fun a => f a + g a) = rsum l f + rsum l g.
  Proof. induction l; cbn; [ring|]. rewrite IHl; ring. Qed.

  Lemma rsum_minus l f g : rsum l (fun a => f a - g a) = rsum l f - rsum l g.
  Proof. induction l; cbn; [ring|]. rewrite IHl; ring. Qed.

  Lemma rsum_opp l f : rsum l (fun a => - f a) = - rsum l f.
  Proof. induction l; cbn; [ring|]. rewrite IHl; ring. Qed.

  Lemma rsum_scal l c f : rsum l (fun a => c * f a) = c * rsum l f.
  Proof. induction l; cbn; [ring|]. rewrite IHl; ring. Qed.

  Lemma rsum_scal_r l c f : rsum l (fun a => f a * c) = rsum l f * c.
  Proof. induction l; cbn; [ring|]. rewrite IHl; ring. Qed.

  Lemma rsum_zero l f : (forall a, In a l -> f a = 0) -> rsum l f = 0.
  Proof. induction l; cbn; intro H; [reflexivity|]. rewrite H, IHl; auto; ring. Qed.

  Lemma rsum_nonneg l f : (forall a, In a l -> 0 <= f a) -> 0 <= rsum l f.
  Proof.
    induction l; cbn; intro H; [lra|].
    assert (0 <= f a) by auto. assert (0 <= rsum l f) by auto. lra.
  Qed.

  Lemma rsum_le l f g : (forall a, In a l -> f a <= g a) -> rsum l f <= rsum l g.
  Proof.
    induction l; cbn; intro H; [lra|].
    assert (f a <= g a) by auto. assert (rsum l f <= rsum l g) by auto. lra.
  Qed.

  Lemma rsum_perm l1 l2 f : Permutation l1 l2 -> rsum l1 f = rsum l2 f.
  Proof.
    induction 1; cbn; try ring.
    - now rewrite IHPermutation.
    - congruence.
  Qed.

  Lemma rsum_filter l f (p : A -> bool) :
    rsum (filter p l) f = rsum l (fun a => if p a then f a else 0).
  Proof. induction l; cbn; [reflexivity|]. destruct (p a); cbn; rewrite IHl; ring. Qed.

  (** A sum only depends on the terms that are not zero. *)
  Lemma rsum_support (dec : forall x y : A, {x = y} + {x <> y}) l1 l2 f :
    NoDup l1 -> NoDup l2 ->
    (forall a, In a l1 -> ~ In a l2 -> f a = 0) ->
    (forall a, In a l2 -> ~ In a l1 -> f a = 0) ->
    rsum l1 f = rsum l2 f.
  Proof.
    revert l2; induction l1 as [|a l1 IH]; intros l2 N1 N2 H1 H2.
    - cbn. symmetry. apply rsum_zero. intros b Hb. apply H2; auto.
    - inversion N1 as [|? ? Na N1']; subst. cbn.
      destruct (in_dec dec a l2) as [Hin|Hin].
      + apply in_split in Hin as (u & v & ->).
        rewrite (rsum_perm (u ++ a :: v) (a :: u ++ v)) by
          (symmetry; apply Permutation_middle).
        cbn. f_equal. apply IH; auto.
        * eapply NoDup_remove_1; eauto.
        * intros b Hb Hn. apply H1; [now right|].
          intro Hb2. apply in_app_or in Hb2 as [Hb2|[->|Hb2]].
          -- apply Hn, in_or_app; auto.
          -- contradiction.
          -- apply Hn, in_or_app; auto.
        * intros b Hb Hn. apply H2.
          -- apply in_app_or in Hb as [?|?]; apply in_or_app; cbn; auto.
          -- intros [->|Hb2]; [|contradiction].
             apply NoDup_remove_2 in N2. contradiction.
      + rewrite (H1 a (or_introl eq_refl) Hin), Rplus_0_l.
        apply IH; auto.
        * intros b Hb Hn. apply H1; auto. now right.
        * intros b Hb Hn. apply H2; auto. intros [->|?]; contradiction.
  Qed.

  Lemma rsum_single (dec : forall x y : A, {x = y} + {x <> y}) l f a :
    NoDup l -> In a l -> (forall b, In b l -> b <> a -> f b = 0) -> rsum l f = f a.
  Proof.
    intros ND Hin H.
    rewrite (rsum_support dec l [a]); [cbn; ring|exact ND| | |].
    - repeat constructor; cbn; tauto.
    - intros b Hb Hn. apply H; [exact Hb|]. intros ->; apply Hn; cbn; auto.
    - intros b [<-|[]] Hn; contradiction.
  Qed.

  Lemma rsum_sq_zero l f : rsum l (fun a => f a * f a) = 0 -> forall a, In a l -> f a = 0.
  Proof.
    induction l; cbn; [tauto|]. intros H b [->|Hb].
    - assert (0 <= rsum l (fun a => f a * f a)) by
        (apply rsum_nonneg; intros; apply Rle_0_sqr).
      assert (0 <= f b * f b) by apply Rle_0_sqr.
      apply Rsqr_0_uniq; unfold Rsqr; lra.
    - apply IHl; auto.
      assert (0 <= rsum l (fun a => f a * f a)) by
        (apply rsum_nonneg; intros; apply Rle_0_sqr).
      assert (0 <= f a * f a) by apply Rle_0_sqr. lra.
  Qed.
End Sums.

Lemma rsum_map {A B : Type} (g : A -> B) l f : rsum (map g l) f = rsum l (fun a => f (g a)).
Proof. induction l; cbn; [reflexivity|]. now rewrite IHl. Qed.

Lemma rsum_swap {A B : Type} (l1 : list A) (l2 : list B) f :
  rsum l1 (fun a => rsum l2 (fun b => f a b)) = rsum l2 (fun b => rsum l1 (fun a => f a b)).
Proof.
  induction l1; cbn.
  - symmetry; now apply rsum_zero.
  - rewrite IHl1, <- rsum_plus. reflexivity.
Qed.

Lemma rsum_mult {A B : Type} (l1 : list A) (l2 : list B) f g :
  rsum l1 f * rsum l2 g = rsum l1 (fun a => rsum l2 (fun b => f a * g b)).
Proof.
  rewrite <- rsum_scal_r. apply rsum_ext. intros; now rewrite rsum_scal.
Qed.

(** Cauchy-Schwarz. *)
Lemma rsum_cauchy_schwarz {A : Type} (l : list A) f g :
  (rsum l (fun a => f a * g a)) ^ 2
  <= rsum l (fun a => f a * f a) * rsum l (fun a => g a * g a).
Proof.
  set (a := rsum l (fun a => f a * f a)). set (b := rsum l (fun a => f a * g a)).
  set (c := rsum l (fun a => g a * g a)).
  assert (H : forall t, 0 <= a * (t * t) + 2 * b * t + c).
  { intro t.
    replace (a * (t * t) + 2 * b * t + c)
      with (rsum l (fun x => (t * f x + g x) * (t * f x + g x))).
    - apply rsum_nonneg. intros; apply Rle_0_sqr.
    - unfold a, b, c.
      rewrite (Rmult_comm _ (t * t)), <- rsum_scal.
      replace (2 * _ * t) with ((2 * t) * rsum l (fun a => f a * g a)) by ring.
      rewrite <- rsum_scal, <- !rsum_plus. apply rsum_ext; intros; ring. }
  assert (Ha : 0 <= a) by (apply rsum_nonneg; intros; apply Rle_0_sqr).
  assert (Hc : 0 <= c) by (apply rsum_nonneg; intros; apply Rle_0_sqr).
  destruct (Req_dec a 0) as [E|E].
  - assert (b = 0) as ->.
    { unfold b. apply rsum_zero. intros x Hx.
      rewrite (rsum_sq_zero l f E x Hx). ring. }
    rewrite E. lra.
  - specialize (H (- b / a)).
    replace (a * (- b / a * (- b / a)) + 2 * b * (- b / a) + c)
      with (c - b * b / a) in H by (field; exact E).
    assert (Hp : 0 < a) by lra.
    assert (b * b / a <= c) by lra.
    assert (b * b <= a * c).
    { apply (Rmult_le_compat_l a) in H0; [|lra].
      replace (a * (b * b / a)) with (b * b) in H0 by (field; exact E). lra. }
    replace (b ^ 2) with (b * b) by ring. exact H1.
Qed.
