(** * Integrals: improper integrals of nonnegative functions *)

From Coq Require Import Reals Lra Lia.
From Coquelicot Require Import Coquelicot.
From Verif Require Import SpecDistr.
Local Open Scope R_scope.

Ltac rplus := match goal with |- context [plus ?x ?y] => change (plus x y) with (x + y) end.
Lemma cont_ex_RInt (f : R -> R) a b : a <= b -> (forall x, a <= x <= b -> continuous f x) -> ex_RInt f a b.
Proof.
  intros H C. apply (@ex_RInt_continuous R_CompleteNormedModule). intros z Hz. apply C.
  rewrite Rmin_left, Rmax_right in Hz by lra. exact Hz.
Qed.

Lemma half_right (f : R -> R) c B :
  (forall x, c <= x -> continuous f x /\ 0 <= f x) -> (forall x, c <= x -> RInt f c x <= B) ->
  exists L, is_RInt_gen f (at_point c) (Rbar_locally p_infty) L /\ forall x, c <= x -> RInt f c x <= L.
Proof.
  intros Hf HB.
  assert (E : forall a b, c <= a -> a <= b -> ex_RInt f a b).
  { intros a b Ha Hb. apply cont_ex_RInt; [exact Hb|]. intros x Hx. apply Hf. lra. }
  assert (Mon : forall a b, c <= a -> a <= b -> RInt f c a <= RInt f c b).
  { intros a b Ha Hb. rewrite <- (RInt_Chasles f c a b) by (apply E; lra).
    assert (0 <= RInt f a b) by (apply RInt_ge_0; [exact Hb|apply E; lra|intros; apply Hf; lra]).
    rplus; lra. }
  destruct (completeness (fun y => exists x, c <= x /\ y = RInt f c x)) as [L [L1 L2]].
  { exists B. intros y (x & Hx & ->). auto. }
  { exists (RInt f c c), c. split; [lra|reflexivity]. }
  assert (L1' : forall x, c <= x -> RInt f c x <= L) by (intros x Hx; apply L1; eauto).
  exists L. split; [|exact L1'].
  intros P [eps HP].
  assert (exists x0, c <= x0 /\ L - eps < RInt f c x0) as (x0 & Hx0 & Hl).
  { destruct (Classical_Prop.classic (exists x0, c <= x0 /\ L - eps < RInt f c x0)) as [H|H]; [exact H|exfalso].
    assert (L <= L - eps).
    { apply L2. intros y (x & Hx & ->). apply Rnot_lt_le. intro. apply H. eauto. }
    destruct eps as [e He]; cbn in *; lra. }
  exists (fun a => a = c) (fun b => x0 < b).
  - reflexivity.
  - exists x0. auto.
  - intros a b -> Hb. cbn. exists (RInt f c b). split; [apply (@RInt_correct R_CompleteNormedModule), E; lra|].
    apply HP. apply Rabs_lt_between'. assert (RInt f c x0 <= RInt f c b) by (apply Mon; lra).
    assert (RInt f c b <= L) by (apply L1'; lra). destruct eps as [e He]; cbn in *. lra.
Qed.

Lemma half_left (F : (R -> Prop) -> Prop) (D : R -> Prop) (f : R -> R) c B :
  D c -> (forall a, D a -> a <= c) -> (forall a x, D a -> a <= x <= c -> D x) ->
  (forall x, D x -> continuous f x /\ 0 <= f x) -> (forall a0, D a0 -> F (fun a => D a /\ a <= a0)) ->
  (forall a, D a -> RInt f a c <= B) ->
  exists L, is_RInt_gen f F (at_point c) L /\ forall a, D a -> RInt f a c <= L.
Proof.
  intros Dc Dle Dint Hf HF HB.
  assert (E : forall a b, D a -> a <= b -> b <= c -> ex_RInt f a b).
  { intros a b Ha Hb Hc. apply cont_ex_RInt; [exact Hb|]. intros x Hx. apply Hf. apply (Dint a x Ha). lra. }
  assert (Mon : forall a b, D a -> D b -> a <= b -> RInt f b c <= RInt f a c).
  { intros a b Ha Hb Hab. assert (Hc := Dle b Hb). rewrite <- (RInt_Chasles f a b c) by (apply E; auto; lra).
    assert (0 <= RInt f a b). { apply RInt_ge_0; [exact Hab|now apply E|]. intros x Hx. apply Hf, (Dint a x Ha). lra. }
    rplus; lra. }
  destruct (completeness (fun y => exists a, D a /\ y = RInt f a c)) as [L [L1 L2]].
  { exists B. intros y (x & Hx & ->). auto. }
  { exists (RInt f c c), c. split; [exact Dc|reflexivity]. }
  assert (L1' : forall a, D a -> RInt f a c <= L) by (intros x Hx; apply L1; eauto).
  exists L. split; [|exact L1'].
  intros P [eps HP].
  assert (exists x0, D x0 /\ L - eps < RInt f x0 c) as (x0 & Hx0 & Hl).
  { destruct (Classical_Prop.classic (exists x0, D x0 /\ L - eps < RInt f x0 c)) as [H|H]; [exact H|exfalso].
    assert (L <= L - eps).
    { apply L2. intros y (x & Hx & ->). apply Rnot_lt_le. intro. apply H. eauto. }
    destruct eps as [e He]; cbn in *; lra. }
  exists (fun a => D a /\ a <= x0) (fun b => b = c).
  - apply HF, Hx0.
  - reflexivity.
  - intros a b [Ha Hle] ->. cbn. exists (RInt f a c). split; [apply (@RInt_correct R_CompleteNormedModule), E; auto; lra|].
    apply HP. apply Rabs_lt_between'. assert (RInt f x0 c <= RInt f a c) by (apply Mon; auto).
    assert (RInt f a c <= L) by auto. destruct eps as [e He]; cbn in *. lra.
Qed.

(** Comparison with a function with a known antiderivative. *)
Lemma RInt_dominated (f G g : R -> R) a b : a <= b ->
  (forall x, a <= x <= b -> continuous f x) -> (forall x, a <= x <= b -> is_derive G x (g x)) ->
  (forall x, a <= x <= b -> continuous g x) -> (forall x, a <= x <= b -> f x <= g x) ->
  RInt f a b <= G b - G a.
Proof.
  intros H Cf DG Cg Le.
  assert (I : is_RInt g a b (G b - G a)).
  { apply (is_RInt_derive G g a b); intros x Hx; rewrite Rmin_left, Rmax_right in Hx by lra; auto. }
  rewrite <- (is_RInt_unique _ _ _ _ I). apply RInt_le; [exact H|now apply cont_ex_RInt|now exists (G b - G a)|].
  intros x Hx. apply Le. lra.
Qed.

Lemma filter_left_infty : forall c a0, a0 <= c -> Rbar_locally m_infty (fun a => a <= c /\ a <= a0).
Proof. intros c a0 H. exists a0. intros x Hx. lra. Qed.
Lemma filter_right_zero : forall a0, 0 < a0 -> at_right 0 (fun a => 0 < a /\ a <= a0).
Proof.
  intros a0 H. exists (mkposreal a0 H). intros y Hy Hy0. cbn in Hy. unfold AbsRing_ball, abs, minus, plus, opp in Hy. cbn in Hy.
  apply Rabs_lt_between in Hy. lra.
Qed.

(** A positive total from a nonnegative function with a positive value. *)
Lemma RInt_positive (f : R -> R) a b x : a < x < b -> (forall y, a <= y <= b -> continuous f y /\ 0 < f y) -> 0 < RInt f a b.
Proof. intros H Hf. apply RInt_gt_0; [lra|intros; apply Hf; lra|intros; apply Hf; lra]. Qed.

(** Rules for [average]. *)
Section Rules.
  Context {Fa Fb : (R -> Prop) -> Prop} {FFa : ProperFilter Fa} {FFb : ProperFilter Fb}.

  Lemma rint_ext (f g : R -> R) (l l' : R) : (forall x, f x = g x) -> l = l' -> is_RInt_gen f Fa Fb l -> is_RInt_gen g Fa Fb l'.
  Proof. intros E <-. apply is_RInt_gen_ext. apply filter_forall. auto. Qed.

  Lemma rint_plus (f g : R -> R) (k l : R) : is_RInt_gen f Fa Fb k -> is_RInt_gen g Fa Fb l ->
    is_RInt_gen (fun x => f x + g x) Fa Fb (k + l).
  Proof. intros Hf Hg. exact (is_RInt_gen_plus f g k l Hf Hg). Qed.
  Lemma rint_scal c (f : R -> R) (k : R) : is_RInt_gen f Fa Fb k -> is_RInt_gen (fun x => c * f x) Fa Fb (c * k).
  Proof. intros Hf. exact (is_RInt_gen_scal f c k Hf). Qed.
  Lemma rint_zero : is_RInt_gen (fun x => 0) Fa Fb 0.
  Proof.
    intros P HP. unfold filtermapi. apply filter_forall. intros [a b]. exists 0. split; [|now apply locally_singleton].
    cbn. refine (eq_rect _ (fun l => is_RInt (fun _ : R => 0) a b l) (@is_RInt_const R_NormedModule a b 0) 0 _).
    exact (Rmult_0_r (b - a)).
  Qed.
  Lemma rint_unique (f : R -> R) (k l : R) : is_RInt_gen f Fa Fb k -> is_RInt_gen f Fa Fb l -> k = l.
  Proof.
    intros Hk Hl. rewrite <- (@is_RInt_gen_unique R_CompleteNormedModule Fa Fb _ _ f k Hk).
    exact (@is_RInt_gen_unique R_CompleteNormedModule Fa Fb _ _ f l Hl).
  Qed.
End Rules.
