(** * MomSums: sums over the subsets of a list of variables *)

From Coq Require Import List ZArith Bool Reals Lra Lia Permutation.
From Verif Require Import Base Num Map HessGrad Sums SpecU2 SpecProb.
Import ListNotations.
Local Open Scope R_scope.

(** ** Increasing tuples *)
Section Tuples.
  Context {A : Type}.
  Fixpoint t2 (l : list A) (f : A -> A -> R) : R :=
    match l with [] => 0 | a :: l' => rsum l' (f a) + t2 l' f end.
  Fixpoint t3 (l : list A) (f : A -> A -> A -> R) : R :=
    match l with [] => 0 | a :: l' => t2 l' (f a) + t3 l' f end.
  Fixpoint t4 (l : list A) (f : A -> A -> A -> A -> R) : R :=
    match l with [] => 0 | a :: l' => t3 l' (f a) + t4 l' f end.

  Fixpoint msum (n : nat) (l : list A) (f : list A -> R) : R :=
    match l with
    | [] => f []
    | a :: l' => msum n l' f + match n with O => 0 | S n' => msum n' l' (fun s => f (a :: s)) end
    end.

  Lemma msum_0 l : forall f, msum 0 l f = f [].
  Proof. induction l as [|a l IH]; intro f; cbn [msum]; [reflexivity|]. rewrite IH. lra. Qed.
  Lemma msum_1 l : forall f, msum 1 l f = f [] + rsum l (fun a => f [a]).
  Proof.
    induction l as [|a l IH]; intro f; cbn [msum rsum]; [lra|]. rewrite IH. fold msum. rewrite msum_0. lra.
  Qed.
  Lemma msum_2 l : forall f, msum 2 l f = f [] + rsum l (fun a => f [a]) + t2 l (fun a b => f [a; b]).
  Proof.
    induction l as [|a l IH]; intro f; cbn [msum rsum t2]; [lra|]. rewrite IH. rewrite msum_1. lra.
  Qed.
  Lemma msum_3 l : forall f, msum 3 l f = f [] + rsum l (fun a => f [a]) + t2 l (fun a b => f [a; b])
    + t3 l (fun a b c => f [a; b; c]).
  Proof.
    induction l as [|a l IH]; intro f; cbn [msum rsum t2 t3]; [lra|]. rewrite IH. rewrite msum_2. lra.
  Qed.
  Lemma msum_4 l : forall f, msum 4 l f = f [] + rsum l (fun a => f [a]) + t2 l (fun a b => f [a; b])
    + t3 l (fun a b c => f [a; b; c]) + t4 l (fun a b c d => f [a; b; c; d]).
  Proof.
    induction l as [|a l IH]; intro f; cbn [msum rsum t2 t3 t4]; [lra|]. rewrite IH. rewrite msum_3. lra.
  Qed.
  Lemma msum_ext n l : forall f g, (forall s, (length s <= n)%nat -> f s = g s) -> msum n l f = msum n l g.
  Proof.
    revert n. induction l as [|a l IH]; intros n f g H; cbn [msum]; [apply H; cbn; lia|].
    rewrite (IH n f g H). destruct n as [|n]; [reflexivity|]. f_equal. apply IH.
    intros s Hs. apply H. cbn; lia.
  Qed.

  Lemma t2_plus l : forall f g, t2 l (fun a b => f a b + g a b) = t2 l f + t2 l g.
  Proof. induction l as [|a l IH]; intros; cbn [t2]; [lra|]. rewrite IH, rsum_plus. lra. Qed.
  Lemma t3_plus l : forall f g, t3 l (fun a b c => f a b c + g a b c) = t3 l f + t3 l g.
  Proof. induction l as [|a l IH]; intros; cbn [t3]; [lra|]. rewrite IH, t2_plus. lra. Qed.
  Lemma t4_plus l : forall f g, t4 l (fun a b c d => f a b c d + g a b c d) = t4 l f + t4 l g.
  Proof. induction l as [|a l IH]; intros; cbn [t4]; [lra|]. rewrite IH, t3_plus. lra. Qed.

  (** Full sums over pairs, triples and quadruples *)
  Definition s2 (l : list A) (w : A -> A -> R) : R := rsum l (fun a => rsum l (w a)).
  Definition s3 (l : list A) (w : A -> A -> A -> R) : R := rsum l (fun a => s2 l (w a)).
  Definition s4 (l : list A) (w : A -> A -> A -> A -> R) : R := rsum l (fun a => s3 l (w a)).

  Lemma s2_plus l f g : s2 l (fun a b => f a b + g a b) = s2 l f + s2 l g.
  Proof. unfold s2. rewrite <- rsum_plus. apply rsum_ext. intros. apply rsum_plus. Qed.
  Lemma s3_plus l f g : s3 l (fun a b c => f a b c + g a b c) = s3 l f + s3 l g.
  Proof. unfold s3. rewrite <- rsum_plus. apply rsum_ext. intros. apply s2_plus. Qed.

  Lemma s2_cons a l w : s2 (a :: l) w = w a a + rsum l (fun j => w a j + w j a) + s2 l w.
  Proof. unfold s2. cbn [rsum]. rewrite !rsum_plus. lra. Qed.
  Lemma s3_cons a l w : s3 (a :: l) w =
    w a a a + rsum l (fun j => w a a j + w a j a + w j a a) + s2 l (fun i j => w a i j + w i a j + w i j a) + s3 l w.
  Proof.
    unfold s3. cbn [rsum].
    rewrite (rsum_ext l (fun b => s2 (a :: l) (w b)) (fun b => w b a a + rsum l (fun j => w b a j + w b j a) + s2 l (w b))) by
      (intros; apply s2_cons).
    rewrite s2_cons, !rsum_plus.
    replace (s2 l (fun i j => w a i j + w i a j + w i j a))
      with (s2 l (w a) + rsum l (fun i => rsum l (fun j => w i a j + w i j a))).
    - lra.
    - unfold s2. rewrite <- rsum_plus. apply rsum_ext. intros. rewrite <- rsum_plus. apply rsum_ext. intros. lra.
  Qed.
  Lemma s4_cons a l w : s4 (a :: l) w =
    w a a a a + rsum l (fun j => w a a a j + w a a j a + w a j a a + w j a a a)
    + s2 l (fun i j => w a a i j + w a i a j + w a i j a + w i a a j + w i a j a + w i j a a)
    + s3 l (fun i j k => w a i j k + w i a j k + w i j a k + w i j k a) + s4 l w.
  Proof.
    unfold s4. cbn [rsum].
    rewrite (rsum_ext l (fun b => s3 (a :: l) (w b)) (fun b =>
      w b a a a + rsum l (fun j => w b a a j + w b a j a + w b j a a)
      + s2 l (fun i j => w b a i j + w b i a j + w b i j a) + s3 l (w b))) by (intros; apply s3_cons).
    rewrite s3_cons, !rsum_plus.
    replace (s2 l (fun i j => w a a i j + w a i a j + w a i j a + w i a a j + w i a j a + w i j a a))
      with (s2 l (fun i j => w a a i j + w a i a j + w a i j a) + rsum l (fun b => rsum l (fun j => w b a a j + w b a j a + w b j a a))).
    2:{ unfold s2. rewrite <- rsum_plus. apply rsum_ext. intros. rewrite <- rsum_plus. apply rsum_ext. intros. lra. }
    replace (s3 l (fun i j k => w a i j k + w i a j k + w i j a k + w i j k a))
      with (s3 l (w a) + rsum l (fun b => s2 l (fun i j => w b a i j + w b i a j + w b i j a))).
    2:{ unfold s3. rewrite <- rsum_plus. apply rsum_ext. intros. rewrite <- s2_plus. unfold s2.
        apply rsum_ext; intros; apply rsum_ext; intros. lra. }
    lra.
  Qed.

  (** Sums over distinct elements as sums over increasing tuples *)
  Lemma s2_t2 l : forall w, (forall a, In a l -> w a a = 0) -> s2 l w = t2 l (fun a b => w a b + w b a).
  Proof.
    induction l as [|a l IH]; intros w H; [reflexivity|]. rewrite s2_cons. cbn [t2].
    rewrite (H a) by now left. rewrite (IH w) by (intros; apply H; now right). lra.
  Qed.
  Lemma s3_t3 l : forall w,
    (forall a b, In a l -> In b l -> w a a b = 0 /\ w a b a = 0 /\ w b a a = 0) ->
    s3 l w = t3 l (fun a b c => w a b c + w a c b + w b a c + w c a b + w b c a + w c b a).
  Proof.
    induction l as [|a l IH]; intros w H; [reflexivity|]. rewrite s3_cons. cbn [t3].
    rewrite (proj1 (H a a (or_introl eq_refl) (or_introl eq_refl))).
    rewrite (rsum_zero l).
    2:{ intros j Hj. destruct (H a j (or_introl eq_refl) (or_intror Hj)) as (-> & -> & ->). lra. }
    rewrite (IH w) by (intros; apply H; now right).
    rewrite s2_t2.
    2:{ intros b Hb. destruct (H b a (or_intror Hb) (or_introl eq_refl)) as (-> & -> & ->). lra. }
    f_equal. rewrite Rplus_0_l, Rplus_0_l. clear. revert w.
    assert (E : forall f g, (forall b c, f b c = g b c) -> t2 l f = t2 l g).
    { induction l as [|x l IH]; intros f g Hfg; cbn [t2]; [reflexivity|]. rewrite (IH f g Hfg). f_equal.
      apply rsum_ext; intros; apply Hfg. }
    intro w. apply E. intros. lra.
  Qed.
  Lemma t3_ext l : forall f g, (forall a b c, f a b c = g a b c) -> t3 l f = t3 l g.
  Proof.
    assert (E : forall l f g, (forall b c, f b c = g b c) -> t2 l f = t2 l g).
    { clear. induction l as [|x l IH]; intros f g Hfg; cbn [t2]; [reflexivity|]. rewrite (IH f g Hfg). f_equal.
      apply rsum_ext; intros; apply Hfg. }
    induction l as [|x l IH]; intros f g Hfg; cbn [t3]; [reflexivity|]. rewrite (IH f g Hfg). f_equal. apply E. intros; apply Hfg.
  Qed.
  Lemma s4_t4 l : forall w,
    (forall a b c, In a l -> In b l -> In c l ->
       w a a b c = 0 /\ w a b a c = 0 /\ w a b c a = 0 /\ w b a a c = 0 /\ w b a c a = 0 /\ w b c a a = 0) ->
    s4 l w = t4 l (fun a b c d =>
      w a b c d + w a b d c + w a c b d + w a d b c + w a c d b + w a d c b +
      (w b a c d + w b a d c + w c a b d + w d a b c + w c a d b + w d a c b) +
      (w b c a d + w b d a c + w c b a d + w d b a c + w c d a b + w d c a b) +
      (w b c d a + w b d c a + w c b d a + w d b c a + w c d b a + w d c b a)).
  Proof.
    induction l as [|a l IH]; intros w H; [reflexivity|]. rewrite s4_cons. cbn [t4].
    assert (Ia : In a (a :: l)) by now left.
    rewrite (proj1 (H a a a Ia Ia Ia)).
    rewrite (rsum_zero l).
    2:{ intros j Hj. assert (Ij : In j (a :: l)) by now right.
        destruct (H a a j Ia Ia Ij) as (E1 & E2 & E3 & E4 & E5 & E6).
        destruct (H a j a Ia Ij Ia) as (E7 & E8 & E9 & E10 & E11 & E12). lra. }
    replace (s2 l _) with 0.
    2:{ symmetry. unfold s2. apply rsum_zero. intros i Hi. apply rsum_zero. intros j Hj.
        destruct (H a i j Ia (or_intror Hi) (or_intror Hj)) as (E1 & E2 & E3 & E4 & E5 & E6). lra. }
    rewrite (IH w) by (intros; apply H; now right).
    rewrite s3_t3.
    2:{ intros b c Hb Hc. assert (Ib : In b (a :: l)) by now right. assert (Ic : In c (a :: l)) by now right.
        destruct (H b a c Ib Ia Ic) as (E1 & E2 & E3 & E4 & E5 & E6).
        destruct (H b c a Ib Ic Ia) as (E7 & E8 & E9 & E10 & E11 & E12). lra. }
    f_equal. rewrite !Rplus_0_l. apply t3_ext. intros. lra.
  Qed.
End Tuples.
