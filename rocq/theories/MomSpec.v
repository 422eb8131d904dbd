(** * MomSpec: expectations of products of quadratic forms of independent variables

    The expectation of a product of n quadratic forms is a sum over n-tuples of
    terms, which is rearranged as a sum over the sets of at most n variables of the
    tuples in which exactly those variables occur. *)

From Coq Require Import List ZArith Bool Reals Lra Lia Permutation.
From Verif Require Import Base Num Map HessGrad Sums SpecU2 SpecProb MomSums.
Import ListNotations.
Local Open Scope R_scope.

Definition qform : Type := ((Z -> R) * (Z -> Z -> R))%type.

Fixpoint qS (qs : list qform) (L : list Z) (K : list Z -> R) : R :=
  match qs with
  | [] => K []
  | q :: qs' =>
      rsum L (fun i => fst q i * qS qs' L (fun w => K (i :: w))) +
      rsum L (fun i => rsum L (fun j => snd q i j * qS qs' L (fun w => K (i :: j :: w))))
  end.

Lemma qS_ext qs L : forall K K', (forall w, incl w L -> (length w <= 2 * length qs)%nat -> K w = K' w) -> qS qs L K = qS qs L K'.
Proof.
  induction qs as [|q qs IH]; intros K K' H; cbn [qS]; [apply H; [intros x []|cbn; lia]|].
  f_equal.
  - apply rsum_ext. intros i Hi. f_equal. apply IH. intros w Hw Lw. apply H; [|cbn [length]; lia].
    intros x [<-|Hx]; auto.
  - apply rsum_ext. intros i Hi. apply rsum_ext. intros j Hj. f_equal. apply IH. intros w Hw Lw. apply H; [|cbn [length]; lia].
    intros x [<-|[<-|Hx]]; auto.
Qed.
Lemma qS_plus qs L : forall K K', qS qs L (fun w => K w + K' w) = qS qs L K + qS qs L K'.
Proof.
  induction qs as [|q qs IH]; intros K K'; cbn [qS]; [reflexivity|].
  rewrite (rsum_ext L _ (fun i => fst q i * qS qs L (fun w => K (i :: w)) + fst q i * qS qs L (fun w => K' (i :: w)))) by
    (intros; rewrite IH; ring).
  rewrite rsum_plus.
  rewrite (rsum_ext L (fun i => rsum L (fun j => _))
             (fun i => rsum L (fun j => snd q i j * qS qs L (fun w => K (i :: j :: w)))
                       + rsum L (fun j => snd q i j * qS qs L (fun w => K' (i :: j :: w))))).
  - rewrite rsum_plus. ring.
  - intros. rewrite <- rsum_plus. apply rsum_ext. intros. rewrite IH. ring.
Qed.
Lemma qS_zero qs L K : (forall w, incl w L -> (length w <= 2 * length qs)%nat -> K w = 0) -> qS qs L K = 0.
Proof.
  intro H. rewrite (qS_ext qs L K (fun _ => 0)) by exact H. clear H.
  induction qs as [|q qs IH]; cbn [qS]; [reflexivity|].
  rewrite (rsum_zero L), (rsum_zero L); [lra| |].
  - intros. apply rsum_zero. intros. rewrite IH. ring.
  - intros. rewrite IH. ring.
Qed.
Lemma qS_perm qs L L' : Permutation L L' -> forall K, qS qs L K = qS qs L' K.
Proof.
  intro P. induction qs as [|q qs IH]; intro K; cbn [qS]; [reflexivity|]. f_equal.
  - rewrite (rsum_perm L L' _ P). apply rsum_ext. intros. now rewrite IH.
  - rewrite (rsum_perm L L' _ P). apply rsum_ext. intros. rewrite (rsum_perm L L' _ P). apply rsum_ext. intros. now rewrite IH.
Qed.

Notation cnt := (count_occ Z.eq_dec).

Lemma qS_avoid qs a l : ~ In a l -> forall K, qS qs (a :: l) (fun w => if (cnt w a =? 0)%nat then K w else 0) = qS qs l K.
Proof.
  intro Na. induction qs as [|q qs IH]; intro K; [reflexivity|].
  assert (Z1 : forall K', qS qs (a :: l) (fun w => if (cnt (a :: w) a =? 0)%nat then K' w else 0) = 0).
  { intros. apply qS_zero. intros w _ _. cbn [count_occ]. destruct (Z.eq_dec a a); [reflexivity|congruence]. }
  assert (Z3 : forall K' j, qS qs (a :: l) (fun w => if (cnt (a :: j :: w) a =? 0)%nat then K' w else 0) = 0).
  { intros. apply qS_zero. intros w _ _. cbn [count_occ]. destruct (Z.eq_dec a a); [reflexivity|congruence]. }
  assert (Z2 : forall K' i, qS qs (a :: l) (fun w => if (cnt (i :: a :: w) a =? 0)%nat then K' w else 0) = 0).
  { intros. apply qS_zero. intros w _ _. cbn [count_occ]. destruct (Z.eq_dec a a); [|congruence]. destruct (Z.eq_dec i a); reflexivity. }
  assert (S1 : forall K' i, i <> a -> qS qs (a :: l) (fun w => if (cnt (i :: w) a =? 0)%nat then K' w else 0) = qS qs l K').
  { intros. rewrite <- IH. apply qS_ext. intros w _ _. cbn [count_occ]. destruct (Z.eq_dec i a); [congruence|reflexivity]. }
  assert (S2 : forall K' i j, i <> a -> j <> a ->
     qS qs (a :: l) (fun w => if (cnt (i :: j :: w) a =? 0)%nat then K' w else 0) = qS qs l K').
  { intros. rewrite <- IH. apply qS_ext. intros w _ _. cbn [count_occ].
    destruct (Z.eq_dec i a); [congruence|]. destruct (Z.eq_dec j a); [congruence|]. reflexivity. }
  cbn [qS rsum].
  rewrite (Z1 (fun w => K (a :: w))), (Z3 (fun w => K (a :: a :: w)) a).
  rewrite (rsum_ext l (fun i => fst q i * _) (fun i => fst q i * qS qs l (fun w => K (i :: w)))).
  2:{ intros i Hi. rewrite (S1 (fun w => K (i :: w)) i) by (intros ->; contradiction). reflexivity. }
  rewrite (rsum_zero l (fun j => snd q a j * _)).
  2:{ intros j Hj. rewrite (Z3 (fun w => K (a :: j :: w)) j). ring. }
  rewrite (rsum_ext l (fun i => snd q i a * _ + _) (fun i => rsum l (fun j => snd q i j * qS qs l (fun w => K (i :: j :: w))))).
  - ring.
  - intros i Hi. rewrite (Z2 (fun w => K (i :: a :: w)) i). rewrite Rmult_0_r, Rplus_0_l. apply rsum_ext. intros j Hj.
    rewrite (S2 (fun w => K (i :: j :: w)) i j) by (intros ->; contradiction). reflexivity.
Qed.

(** ** Products of powers *)
Lemma rprod_ext {A : Type} (l : list A) f g : (forall a, In a l -> f a = g a) -> rprod l f = rprod l g.
Proof. induction l as [|a l IH]; cbn; intro H; [reflexivity|]. rewrite H, IH; auto. Qed.
Lemma rprod_zero {A : Type} (l : list A) f a : In a l -> f a = 0 -> rprod l f = 0.
Proof. induction l as [|b l IH]; cbn; [intros []|]. intros [->|H] E; [rewrite E|rewrite IH]; auto; ring. Qed.
Lemma rprod_perm {A : Type} (l l' : list A) f : Permutation l l' -> rprod l f = rprod l' f.
Proof. induction 1; cbn; try congruence; ring. Qed.
Lemma rprod_app {A : Type} (l l' : list A) f : rprod (l ++ l') f = rprod l f * rprod l' f.
Proof. induction l as [|a l IH]; cbn; [ring|]. rewrite IH; ring. Qed.

Section Moebius.
  Variable V : Z -> nat -> R.
  Hypothesis V0 : forall i, V i 0%nat = 1.
  Hypothesis V1 : forall i, V i 1%nat = 0.

  (** expectation of a product of variables *)
  Definition mu (L w : list Z) : R := rprod L (fun i => V i (cnt w i)).
  (** the same, when every variable of [A] has to occur *)
  Definition occ (i : Z) (k : nat) : R := if (k =? 0)%nat then 0 else V i k.
  Definition Kf (A l w : list Z) : R := rprod A (fun i => occ i (cnt w i)) * rprod l (fun i => V i (cnt w i)).
  Definition fstar (qs : list qform) (l A : list Z) : R := qS qs (A ++ l) (Kf A l).

  Lemma fstar_cons qs a l A : NoDup (A ++ a :: l) -> fstar qs (a :: l) A = fstar qs l A + fstar qs l (A ++ [a]).
  Proof.
    intro ND. unfold fstar.
    assert (Na : ~ In a (A ++ l)) by (apply NoDup_remove_2; exact ND).
    rewrite <- app_assoc. cbn [app].
    rewrite <- (qS_avoid qs a (A ++ l) Na).
    rewrite (qS_perm qs (a :: A ++ l) (A ++ a :: l)) by apply Permutation_middle.
    rewrite <- qS_plus. apply qS_ext. intros w _ _. unfold Kf. rewrite rprod_app. cbn [rprod].
    assert (Eo : occ a (cnt w a) = if (cnt w a =? 0)%nat then 0 else V a (cnt w a)) by reflexivity.
    rewrite Eo. destruct (cnt w a =? 0)%nat eqn:E.
    - apply Nat.eqb_eq in E. rewrite E, V0. ring.
    - ring.
  Qed.

  Lemma count_total A : NoDup A -> forall w, (forall a, In a A -> (2 <= cnt w a)%nat) -> (2 * length A <= length w)%nat.
  Proof.
    intros ND w H.
    assert (E : (length A <= length A)%nat) by lia.
    assert (S : (list_sum (map (fun a => cnt w a) A) <= length w)%nat).
    { clear H. induction w as [|x w IH]; cbn [count_occ length].
      - clear. induction A as [|a A IH]; [apply Nat.le_refl|]. exact IH.
      - assert (X : (list_sum (map (fun a => cnt (x :: w) a) A) <= 1 + list_sum (map (fun a => cnt w a) A))%nat); [|cbn [count_occ] in X; lia].
        clear IH E. induction A as [|a A IHA]; cbn [map list_sum fold_right]; [lia|].
        inversion ND as [|? ? Na ND']; subst. specialize (IHA ND').
        cbn [count_occ] in *. destruct (Z.eq_dec x a) as [->|D].
        + assert (Y : list_sum (map (fun a0 => if Z.eq_dec a a0 then S (cnt w a0) else cnt w a0) A) = list_sum (map (fun a0 => cnt w a0) A)).
          { f_equal. apply map_ext_in. intros b Hb. destruct (Z.eq_dec a b); [subst; contradiction|reflexivity]. }
          unfold list_sum in *. cbn. rewrite Y. lia.
        + unfold list_sum in *. cbn. lia. }
    clear ND E. assert (2 * length A <= list_sum (map (fun a => cnt w a) A))%nat; [|lia].
    clear S. induction A as [|a A IH]; cbn; [lia|]. assert (2 <= cnt w a)%nat by (apply H; now left).
    unfold list_sum in IH. assert (X := IH (fun b Hb => H b (or_intror Hb))). lia.
  Qed.

  Lemma fstar_vanish qs l A : NoDup A -> (length qs < length A)%nat -> fstar qs l A = 0.
  Proof.
    intros ND H. unfold fstar. apply qS_zero. intros w _ Lw. unfold Kf.
    destruct (Exists_dec (fun a => (cnt w a <= 1)%nat) A (fun a => le_dec (cnt w a) 1)) as [Y|N].
    - apply Exists_exists in Y as (a & Ha & Ca).
      rewrite (rprod_zero A _ a Ha); [ring|]. unfold occ. assert (C : cnt w a = 0%nat \/ cnt w a = 1%nat) by lia.
      destruct C as [-> | ->]; cbn [Nat.eqb]; [reflexivity|apply V1].
    - exfalso. assert (2 * length A <= length w)%nat; [|lia]. apply count_total; [exact ND|].
      intros a Ha. destruct (le_dec (cnt w a) 1) as [L|G]; [|lia]. exfalso. apply N. apply Exists_exists. eauto.
  Qed.

  Lemma fstar_msum qs l : forall A n, NoDup (A ++ l) -> (length A + n = length qs)%nat ->
    fstar qs l A = msum n l (fun s => fstar qs [] (A ++ s)).
  Proof.
    induction l as [|a l IH]; intros A n ND Hn; cbn [msum]; [now rewrite app_nil_r|].
    rewrite fstar_cons by exact ND.
    assert (ND1 : NoDup (A ++ l)) by (apply NoDup_remove_1 in ND; exact ND).
    assert (ND2 : NoDup ((A ++ [a]) ++ l)) by (rewrite <- app_assoc; exact ND).
    rewrite (IH A n ND1 Hn). f_equal. destruct n as [|n].
    - apply fstar_vanish; [|rewrite app_length; cbn; lia].
      clear - ND2. induction l as [|b l IHl]; [now rewrite app_nil_r in ND2|]. apply IHl. eapply NoDup_remove_1; exact ND2.
    - rewrite (IH (A ++ [a]) n ND2) by (rewrite app_length; cbn; lia).
      apply msum_ext. intros s _. now rewrite <- app_assoc.
  Qed.

  Theorem qS_msum qs L : NoDup L -> qS qs L (mu L) = msum (length qs) L (fun s => fstar qs [] s).
  Proof.
    intro ND. etransitivity; [|exact (fstar_msum qs L [] (length qs) ND eq_refl)]. unfold fstar. cbn [app].
    apply qS_ext. intros w _ _. unfold Kf, mu. cbn [rprod]. ring.
  Qed.

  (** Larger lists of variables do not matter when the forms vanish outside. *)
  Definition qsup (L : list Z) (q : qform) : Prop :=
    (forall i, ~ In i L -> fst q i = 0) /\ (forall i j, ~ In i L \/ ~ In j L -> snd q i j = 0).
  Lemma qS_sup qs L L' : NoDup L -> NoDup L' -> incl L L' -> List.Forall (qsup L) qs ->
    forall K, qS qs L' K = qS qs L K.
  Proof.
    intros N N' I F. induction F as [|q qs [G H] F IH]; intro K; cbn [qS]; [reflexivity|]. f_equal.
    - rewrite (rsum_support Z.eq_dec L' L); [|exact N'|exact N| |].
      + apply rsum_ext. intros. now rewrite IH.
      + intros i _ Hi. rewrite G by exact Hi. ring.
      + intros i Hi Hn. exfalso. apply Hn, I, Hi.
    - rewrite (rsum_support Z.eq_dec L' L); [|exact N'|exact N| |].
      + apply rsum_ext. intros i Hi. rewrite (rsum_support Z.eq_dec L' L); [|exact N'|exact N| |].
        * apply rsum_ext. intros. now rewrite IH.
        * intros j _ Hj. rewrite H by now right. ring.
        * intros j Hj Hn. exfalso. apply Hn, I, Hj.
      + intros i _ Hi. apply rsum_zero. intros. rewrite H by now left. ring.
      + intros i Hi Hn. exfalso. apply Hn, I, Hi.
  Qed.

  (** ** The expectation is this sum *)
  Lemma mono_count L : NoDup L -> forall w (f : Z -> R), incl w L -> rprod w f = rprod L (fun i => f i ^ cnt w i).
  Proof.
    intros ND w f. induction w as [|x w IH]; intro I; cbn [rprod count_occ].
    - clear. induction L as [|a L IH]; cbn [rprod]; [reflexivity|]. rewrite <- IH. cbn [pow]. ring.
    - rewrite IH by (intros y Hy; apply I; now right). assert (Hx : In x L) by (apply I; now left). clear I IH.
      induction L as [|a L IH]; [destruct Hx|]. inversion ND as [|? ? Na ND']; subst. cbn [rprod].
      destruct (Z.eq_dec x a) as [->|D].
      + cbn [pow]. rewrite (rprod_ext L (fun i => f i ^ (if Z.eq_dec a i then _ else _)) (fun i => f i ^ cnt w i)); [ring|].
        intros b Hb. destruct (Z.eq_dec a b); [subst; contradiction|reflexivity].
      + destruct Hx as [->|Hx]; [congruence|]. rewrite <- IH by assumption. ring.
  Qed.

  Fixpoint qprod {O : Type} (qs : list qform) (ids : list Z) (X : Z -> O -> R) (o : O) : R :=
    match qs with [] => 1 | q :: qs' => quad ids (fst q) (snd q) X o * qprod qs' ids X o end.

  Lemma Ex_rsum (P : expect) {A : Type} (l : list A) (f : A -> Om P -> R) (e : A -> R) :
    (forall a, In a l -> int P (f a) /\ Ex P (f a) = e a) ->
    int P (fun o => rsum l (fun a => f a o)) /\ Ex P (fun o => rsum l (fun a => f a o)) = rsum l e.
  Proof.
    induction l as [|a l IH]; intro H; cbn [rsum]; [apply Ex_const|].
    destruct (H a (or_introl eq_refl)) as [I1 E1]. destruct IH as [I2 E2]; [intros; apply H; now right|].
    destruct (Ex_plus P (f a) (fun o => rsum l (fun a0 => f a0 o)) I1 I2) as [I3 E3]. split; [exact I3|]. now rewrite E3, E1, E2.
  Qed.

  Lemma Ex_eq (P : expect) f g (e : R) : (forall o, f o = g o) -> int P f /\ Ex P f = e -> int P g /\ Ex P g = e.
  Proof. intros H [I E]. destruct (Ex_ext P f g H I) as [I' E']. split; [exact I'|]. now rewrite <- E'. Qed.

  Lemma Ex_qprod (P : expect) (ids : list Z) (X : Z -> Om P -> R) : NoDup ids -> independent P ids X V ->
    forall qs pre, incl pre ids -> (length pre + 2 * length qs <= 8)%nat ->
    int P (fun o => rprod pre (fun i => X i o) * qprod qs ids X o) /\
    Ex P (fun o => rprod pre (fun i => X i o) * qprod qs ids X o) = qS qs ids (fun w => mu ids (pre ++ w)).
  Proof.
    intros ND IND. induction qs as [|q qs IH]; intros pre Ipre Hl; cbn [qprod qS].
    - rewrite app_nil_r. unfold mu.
      apply Ex_eq with (f := fun o => rprod ids (fun i => X i o ^ cnt pre i)).
      + intro o. rewrite (mono_count ids ND pre (fun i => X i o) Ipre). ring.
      + apply IND; [exact ND|apply incl_refl|]. intros i Hi. cbn in Hl. assert (H := count_occ_bound Z.eq_dec i pre). lia.
    - set (mono := fun (l : list Z) o => rprod l (fun i => X i o)) in *.
      assert (A1 := fun i (Hi : In i ids) => IH (pre ++ [i])).
      assert (B : forall i, In i ids -> int P (fun o => fst q i * (rprod (pre ++ [i]) (fun i => X i o) * qprod qs ids X o)) /\
                 Ex P (fun o => fst q i * (rprod (pre ++ [i]) (fun i => X i o) * qprod qs ids X o)) =
                 fst q i * qS qs ids (fun w => mu ids (pre ++ i :: w))).
      { intros i Hi. destruct (IH (pre ++ [i])) as [I E].
        - intros x Hx. apply in_app_iff in Hx as [Hx|[<-|[]]]; auto.
        - rewrite app_length. cbn in *. lia.
        - destruct (Ex_scal P (fst q i) _ I) as [I' E']. split; [exact I'|]. rewrite E', E. f_equal. apply qS_ext.
          intros w _ _. now rewrite <- app_assoc. }
      assert (C : forall i, In i ids -> 
                 int P (fun o => rsum ids (fun j => snd q i j * (rprod (pre ++ [i; j]) (fun i => X i o) * qprod qs ids X o))) /\
                 Ex P (fun o => rsum ids (fun j => snd q i j * (rprod (pre ++ [i; j]) (fun i => X i o) * qprod qs ids X o))) =
                 rsum ids (fun j => snd q i j * qS qs ids (fun w => mu ids (pre ++ i :: j :: w)))).
      { intros i Hi. apply (Ex_rsum P ids (fun j o => snd q i j * (rprod (pre ++ [i; j]) (fun i => X i o) * qprod qs ids X o))).
        intros j Hj. destruct (IH (pre ++ [i; j])) as [I E].
        - intros x Hx. apply in_app_iff in Hx as [Hx|[<-|[<-|[]]]]; auto.
        - rewrite app_length. cbn in *. lia.
        - destruct (Ex_scal P (snd q i j) _ I) as [I' E']. split; [exact I'|]. rewrite E', E. f_equal. apply qS_ext.
          intros w _ _. now rewrite <- app_assoc. }
      destruct (Ex_rsum P ids _ _ B) as [I1 E1]. destruct (Ex_rsum P ids _ _ C) as [I2 E2].
      destruct (Ex_plus P _ _ I1 I2) as [I3 E3]. rewrite E1, E2 in E3.
      eapply Ex_eq; [|split; [exact I3|exact E3]].
      intro o. cbv beta. unfold quad.
      rewrite (rsum_ext ids (fun a => fst q a * (rprod (pre ++ [a]) (fun i => X i o) * qprod qs ids X o))
                 (fun a => (fst q a * X a o) * (rprod pre (fun i => X i o) * qprod qs ids X o))) by
        (intros; rewrite rprod_app; cbn; ring).
      rewrite rsum_scal_r.
      rewrite (rsum_ext ids (fun a => rsum ids (fun j => snd q a j * _))
                 (fun a => rsum ids (fun j => snd q a j * X a o * X j o) * (rprod pre (fun i => X i o) * qprod qs ids X o))).
      2:{ intros a _. rewrite <- rsum_scal_r. apply rsum_ext. intros j _. rewrite rprod_app. cbn. ring. }
      rewrite rsum_scal_r. ring.
  Qed.
End Moebius.
