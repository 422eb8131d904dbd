(** * MomProd: products of expectations; existence of independent variables with given moments *)

From Coq Require Import List ZArith Bool Reals Lra Lia.
From Verif Require Import Base Num Map HessGrad Sums SpecU2 SpecProb SpecMom MomSpec MomPoly MomSums MomProofs.
Import ListNotations.
Local Open Scope R_scope.

Definition positive (P : expect) : Prop := forall f, int P f -> (forall o, 0 <= f o) -> 0 <= Ex P f.

Definition point : expect.
Proof.
  refine (mkExpect unit (fun _ => True) (fun f => f tt) _ _ _ _); intros; auto.
Defined.
Lemma point_pos : positive point.
Proof. intros f _ H. apply H. Qed.

Section Product.
  Variables P Q : expect.
  Definition pint (f : Om P * Om Q -> R) : Prop :=
    exists l : list ((Om P -> R) * (Om Q -> R)),
      (forall p, In p l -> int P (fst p) /\ int Q (snd p)) /\
      forall o, f o = rsum l (fun p => fst p (fst o) * snd p (snd o)).
  Definition pEx (f : Om P * Om Q -> R) : R := Ex P (fun o => Ex Q (fun q => f (o, q))).

  Lemma sum_Ex (S : expect) {A : Type} (l : list A) (c : A -> R) (g : A -> Om S -> R) :
    (forall a, In a l -> int S (g a)) ->
    int S (fun o => rsum l (fun a => c a * g a o)) /\
    Ex S (fun o => rsum l (fun a => c a * g a o)) = rsum l (fun a => c a * Ex S (g a)).
  Proof.
    intro H. apply (Ex_rsum S l (fun a o => c a * g a o) (fun a => c a * Ex S (g a))).
    intros a Ha. apply Ex_scal, H, Ha.
  Qed.

  Lemma inner f l : (forall p, In p l -> int P (fst p) /\ int Q (snd p)) ->
    (forall o, f o = rsum l (fun p => fst p (fst o) * snd p (snd o))) ->
    (forall o, int Q (fun q => f (o, q)) /\ Ex Q (fun q => f (o, q)) = rsum l (fun p => fst p o * Ex Q (snd p))) /\
    int P (fun o => Ex Q (fun q => f (o, q))) /\ pEx f = rsum l (fun p => Ex P (fst p) * Ex Q (snd p)).
  Proof.
    intros I E.
    assert (A : forall o, int Q (fun q => f (o, q)) /\ Ex Q (fun q => f (o, q)) = rsum l (fun p => fst p o * Ex Q (snd p))).
    { intro o. apply (Ex_eq Q (fun q => rsum l (fun p => fst p o * snd p q))); [intro q; now rewrite E|].
      apply (sum_Ex Q l (fun p => fst p o) (fun p => snd p)). intros a Ha. now apply I. }
    split; [exact A|]. unfold pEx.
    apply (Ex_eq P (fun o => rsum l (fun p => Ex Q (snd p) * fst p o))).
    - intro o. rewrite (proj2 (A o)). apply rsum_ext. intros; ring.
    - destruct (sum_Ex P l (fun p => Ex Q (snd p)) (fun p => fst p)) as [B C]; [intros a Ha; now apply I|].
      split; [exact B|]. rewrite C. apply rsum_ext. intros; ring.
  Qed.

  Definition prod_expect : expect.
  Proof.
    refine (mkExpect (Om P * Om Q) pint pEx _ _ _ _).
    - intros f g E (l & I & H).
      assert (H' : forall o, g o = rsum l (fun p => fst p (fst o) * snd p (snd o))) by (intro o; rewrite <- E; apply H).
      split; [now exists l|].
      rewrite (proj2 (proj2 (inner f l I H))), (proj2 (proj2 (inner g l I H'))). reflexivity.
    - intro c.
      assert (I : forall p, In p [(fun _ : Om P => c, fun _ : Om Q => 1)] -> int P (fst p) /\ int Q (snd p)).
      { intros p [<-|[]]. split; [exact (proj1 (Ex_const P c))|exact (proj1 (Ex_const Q 1))]. }
      assert (H : forall o : Om P * Om Q, c = rsum [(fun _ : Om P => c, fun _ : Om Q => 1)] (fun p => fst p (fst o) * snd p (snd o))).
      { intro o. cbn. ring. }
      split; [now exists [(fun _ : Om P => c, fun _ : Om Q => 1)]|].
      rewrite (proj2 (proj2 (inner (fun _ => c) _ I H))). cbn. rewrite (proj2 (Ex_const P c)), (proj2 (Ex_const Q 1)). ring.
    - intros f g (l & I & H) (l' & I' & H').
      assert (I2 : forall p, In p (l ++ l') -> int P (fst p) /\ int Q (snd p)).
      { intros p Hp. apply in_app_or in Hp as [Hp|Hp]; auto. }
      assert (H2 : forall o, f o + g o = rsum (l ++ l') (fun p => fst p (fst o) * snd p (snd o))).
      { intro o. rewrite rsum_app, H, H'. reflexivity. }
      split; [now exists (l ++ l')|].
      rewrite (proj2 (proj2 (inner (fun o => f o + g o) _ I2 H2))), rsum_app.
      now rewrite (proj2 (proj2 (inner f l I H))), (proj2 (proj2 (inner g l' I' H'))).
    - intros c f (l & I & H).
      set (l2 := map (fun p : (Om P -> R) * (Om Q -> R) => (fun o => c * fst p o, snd p)) l).
      assert (I2 : forall p, In p l2 -> int P (fst p) /\ int Q (snd p)).
      { intros p Hp. apply in_map_iff in Hp as (q & <- & Hq). cbn [fst snd]. split; [exact (proj1 (Ex_scal P c _ (proj1 (I q Hq))))|apply I, Hq]. }
      assert (H2 : forall o, c * f o = rsum l2 (fun p => fst p (fst o) * snd p (snd o))).
      { intro o. unfold l2. rewrite rsum_map. cbn. rewrite H, <- rsum_scal. apply rsum_ext. intros; ring. }
      split; [now exists l2|].
      rewrite (proj2 (proj2 (inner (fun o => c * f o) _ I2 H2))), (proj2 (proj2 (inner f l I H))).
      unfold l2. rewrite rsum_map. cbn. rewrite <- rsum_scal. apply rsum_ext. intros p Hp.
      rewrite (proj2 (Ex_scal P c (fst p) (proj1 (I p Hp)))). ring.
  Defined.

  Lemma prod_pos : positive P -> positive Q -> positive prod_expect.
  Proof.
    intros HP HQ f (l & I & H) F. destruct (inner f l I H) as (A & B & _). apply HP; [exact B|].
    intro o. apply HQ; [apply A|]. intro q. apply F.
  Qed.

  Lemma prod_split (a : Om P -> R) (b : Om Q -> R) : int P a -> int Q b ->
    int prod_expect (fun o => a (fst o) * b (snd o)) /\ Ex prod_expect (fun o => a (fst o) * b (snd o)) = Ex P a * Ex Q b.
  Proof.
    intros Ha Hb.
    assert (I : forall p, In p [(a, b)] -> int P (fst p) /\ int Q (snd p)) by (intros p [<-|[]]; auto).
    assert (H : forall o : Om P * Om Q, a (fst o) * b (snd o) = rsum [(a, b)] (fun p => fst p (fst o) * snd p (snd o))).
    { intro o. cbn. ring. }
    split; [now exists [(a, b)]|].
    etransitivity; [exact (proj2 (proj2 (inner (fun o => a (fst o) * b (snd o)) _ I H)))|]. cbn. ring.
  Qed.
End Product.

Section Family.
  Variable K : expect -> Prop.
  Hypothesis (Kp : K point) (Km : forall P Q, K P -> K Q -> K (prod_expect P Q)).

  Lemma full_family ids (V : Z -> nat -> R) : NoDup ids ->
    (forall i, In i ids -> exists (P : expect) (Z : Om P -> R), K P /\ forall k, (k <= 8)%nat ->
       int P (fun o => Z o ^ k) /\ Ex P (fun o => Z o ^ k) = V i k) ->
    exists (P : expect) (X : Z -> Om P -> R), K P /\ forall k : Z -> nat, (forall i, In i ids -> (k i <= 8)%nat) ->
      int P (fun o => rprod ids (fun i => X i o ^ k i)) /\
      Ex P (fun o => rprod ids (fun i => X i o ^ k i)) = rprod ids (fun i => V i (k i)).
  Proof.
    induction ids as [|i ids IH]; intros ND H.
    - exists point, (fun _ _ => 0). split; [exact Kp|]. intros k _. cbn. split; reflexivity.
    - inversion ND as [|? ? Hi ND']; subst.
      destruct (IH ND') as (Q & X & KQ & HX); [intros; apply H; now right|].
      destruct (H i (or_introl eq_refl)) as (P & Z & KP & HZ).
      exists (prod_expect P Q), (fun j o => if Z.eqb j i then Z (fst o) else X j (snd o)).
      split; [now apply Km|]. intros k Hk.
      destruct (HZ (k i)) as [Z1 Z2]; [apply Hk; now left|].
      destruct (HX k) as [X1 X2]; [intros; apply Hk; now right|].
      destruct (prod_split P Q _ _ Z1 X1) as [A B].
      cbn [rprod]. rewrite <- Z2, <- X2, <- B.
      apply (Ex_eq (prod_expect P Q) (fun o => Z (fst o) ^ k i * rprod ids (fun j => X j (snd o) ^ k j))); [|split; [exact A|reflexivity]].
      intro o. rewrite Z.eqb_refl. f_equal. apply rprod_ext. intros j Hj. destruct (Z.eqb_spec j i); [subst; tauto|reflexivity].
  Qed.

  Lemma family ids (V : Z -> nat -> R) : NoDup ids -> (forall i, In i ids -> V i 0%nat = 1) ->
    (forall i, In i ids -> exists (P : expect) (Z : Om P -> R), K P /\ forall k, (k <= 8)%nat ->
       int P (fun o => Z o ^ k) /\ Ex P (fun o => Z o ^ k) = V i k) ->
    exists (P : expect) (X : Z -> Om P -> R), K P /\ independent P ids X V.
  Proof.
    intros ND V0 H. destruct (full_family ids V ND H) as (P & X & KP & HX). exists P, X. split; [exact KP|].
    intros L k NL IL Hk.
    set (k' := fun i => if in_dec Z.eq_dec i L then k i else 0%nat).
    assert (Hk' : forall i, In i ids -> (k' i <= 8)%nat).
    { intros i _. unfold k'. destruct (in_dec Z.eq_dec i L); [auto|lia]. }
    assert (E : forall f : Z -> nat -> R, (forall i, In i ids -> f i 0%nat = 1) ->
      rprod ids (fun i => f i (k' i)) = rprod L (fun i => f i (k i))).
    { intros f F0. rewrite (rprod_support L _ NL ids ND IL).
      - apply rprod_ext. intros i Hi. unfold k'. destruct (in_dec Z.eq_dec i L); [reflexivity|tauto].
      - intros i Hi Hn. unfold k'. destruct (in_dec Z.eq_dec i L); [tauto|]. now apply F0. }
    destruct (HX k' Hk') as [A B].
    rewrite <- (E V V0).
    apply (Ex_eq P (fun o => rprod ids (fun i => X i o ^ k' i))); [|split; [exact A|exact B]].
    intro o. apply (E (fun i n => X i o ^ n)). intros; reflexivity.
  Qed.
End Family.

(** ** Signed expectations with any moments *)
Definition pts (o : nat) : R := IZR (Z.of_nat o - 4).
Definition wts (V : nat -> R) (o : nat) : R :=
  match o with
  | 0%nat => (1) / 280 * V 1%nat + (-1) / 1120 * V 2%nat + (-7) / 1440 * V 3%nat + (7) / 5760 * V 4%nat + (1) / 720 * V 5%nat + (-1) / 2880 * V 6%nat + (-1) / 10080 * V 7%nat + (1) / 40320 * V 8%nat
  | 1%nat => (-4) / 105 * V 1%nat + (4) / 315 * V 2%nat + (1) / 20 * V 3%nat + (-1) / 60 * V 4%nat + (-1) / 80 * V 5%nat + (1) / 240 * V 6%nat + (1) / 1680 * V 7%nat + (-1) / 5040 * V 8%nat
  | 2%nat => (1) / 5 * V 1%nat + (-1) / 10 * V 2%nat + (-169) / 720 * V 3%nat + (169) / 1440 * V 4%nat + (13) / 360 * V 5%nat + (-13) / 720 * V 6%nat + (-1) / 720 * V 7%nat + (1) / 1440 * V 8%nat
  | 3%nat => (-4) / 5 * V 1%nat + (4) / 5 * V 2%nat + (61) / 180 * V 3%nat + (-61) / 180 * V 4%nat + (-29) / 720 * V 5%nat + (29) / 720 * V 6%nat + (1) / 720 * V 7%nat + (-1) / 720 * V 8%nat
  | 4%nat => (1) * V 0%nat + (-205) / 144 * V 2%nat + (91) / 192 * V 4%nat + (-5) / 96 * V 6%nat + (1) / 576 * V 8%nat
  | 5%nat => (4) / 5 * V 1%nat + (4) / 5 * V 2%nat + (-61) / 180 * V 3%nat + (-61) / 180 * V 4%nat + (29) / 720 * V 5%nat + (29) / 720 * V 6%nat + (-1) / 720 * V 7%nat + (-1) / 720 * V 8%nat
  | 6%nat => (-1) / 5 * V 1%nat + (-1) / 10 * V 2%nat + (169) / 720 * V 3%nat + (169) / 1440 * V 4%nat + (-13) / 360 * V 5%nat + (-13) / 720 * V 6%nat + (1) / 720 * V 7%nat + (1) / 1440 * V 8%nat
  | 7%nat => (4) / 105 * V 1%nat + (4) / 315 * V 2%nat + (-1) / 20 * V 3%nat + (-1) / 60 * V 4%nat + (1) / 80 * V 5%nat + (1) / 240 * V 6%nat + (-1) / 1680 * V 7%nat + (-1) / 5040 * V 8%nat
  | 8%nat => (-1) / 280 * V 1%nat + (-1) / 1120 * V 2%nat + (7) / 1440 * V 3%nat + (7) / 5760 * V 4%nat + (-1) / 720 * V 5%nat + (-1) / 2880 * V 6%nat + (1) / 10080 * V 7%nat + (1) / 40320 * V 8%nat
  | _ => 0
  end.

Lemma wts_moments V k : (k <= 8)%nat -> rsum (seq 0 9) (fun o => wts V o * pts o ^ k) = V k.
Proof.
  intro H. do 9 (destruct k as [|k]; [unfold pts; cbn; field|]). lia.
Qed.

Definition signed (V : nat -> R) (H : V 0%nat = 1) : expect.
Proof.
  refine (mkExpect nat (fun _ => True) (fun f => rsum (seq 0 9) (fun o => wts V o * f o)) _ _ _ _).
  - intros f g E _. split; [exact I|]. apply rsum_ext. intros; now rewrite E.
  - intro c. split; [exact I|]. rewrite rsum_scal_r. 
    assert (E := wts_moments V 0 ltac:(lia)). rewrite H in E.
    rewrite (rsum_ext _ (wts V) (fun o => wts V o * pts o ^ 0)); [rewrite E; ring|]. intros; cbn; ring.
  - intros f g _ _. split; [exact I|]. rewrite <- rsum_plus. apply rsum_ext. intros; ring.
  - intros c f _. split; [exact I|]. rewrite <- rsum_scal. apply rsum_ext. intros; ring.
Defined.

Lemma signed_family ids (V : Z -> nat -> R) : NoDup ids -> (forall i, In i ids -> V i 0%nat = 1) ->
  exists (P : expect) (X : Z -> Om P -> R), independent P ids X V.
Proof.
  intros ND V0. destruct (family (fun _ => True) I (fun _ _ _ _ => I) ids V ND V0) as (P & X & _ & H); [|now exists P, X].
  intros i Hi. exists (signed (V i) (V0 i Hi)), pts. split; [exact I|]. intros k Hk. split; [exact I|]. now apply wts_moments.
Qed.

Lemma prob_family ids (M : Z -> moms RN) : NoDup ids -> (forall i, In i ids -> realizable (M i)) ->
  exists (P : prob) (X : Z -> Om P -> R), independent P ids X (fun i => stdmom (M i)).
Proof.
  intros ND H.
  destruct (family positive point_pos prod_pos ids (fun i => stdmom (M i)) ND (fun _ _ => eq_refl)) as (P & X & KP & HI).
  - intros i Hi. destruct (H i Hi) as (P & Z & HZ). exists P, Z. split; [exact (Ex_pos P)|exact HZ].
  - exists (mkProb P KP), X. exact HI.
Qed.
