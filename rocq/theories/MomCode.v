(** * MomCode: the loops of moments.hpp as sums over increasing tuples of variables *)

From Coq Require Import List ZArith Bool Reals Lra Lia Permutation Sorted.
From Verif Require Import Base Num Map HessGrad Moments Sums SpecU2 SpecProb MomSums MomSpec URealR ADProofs.
Import ListNotations.
Local Open Scope R_scope.

(** ** Increasing tuples of a sorted list *)
Section Sorted.
  Implicit Types L : list Z.
  Lemma t2_ext_lt L : StronglySorted Z.lt L -> forall f g,
    (forall a b, In a L -> In b L -> (a < b)%Z -> f a b = g a b) -> t2 L f = t2 L g.
  Proof.
    induction 1 as [|x L S IH F]; intros f g H; cbn [t2]; [reflexivity|]. rewrite Forall_forall in F. f_equal.
    - apply rsum_ext. intros b Hb. apply H; [now left|now right|now apply F].
    - apply IH. intros a b Ha Hb. apply H; now right.
  Qed.
  Lemma t3_ext_lt L : StronglySorted Z.lt L -> forall f g,
    (forall a b c, In a L -> In b L -> In c L -> (a < b < c)%Z -> f a b c = g a b c) -> t3 L f = t3 L g.
  Proof.
    induction 1 as [|x L S IH F]; intros f g H; cbn [t3]; [reflexivity|]. rewrite Forall_forall in F. f_equal.
    - apply t2_ext_lt; [exact S|]. intros b c Hb Hc Hbc. apply H; [now left|now right|now right|]. split; [now apply F|exact Hbc].
    - apply IH. intros a b c Ha Hb Hc. apply H; now right.
  Qed.
  Lemma t4_ext_lt L : StronglySorted Z.lt L -> forall f g,
    (forall a b c d, In a L -> In b L -> In c L -> In d L -> (a < b)%Z -> (b < c)%Z -> (c < d)%Z -> f a b c d = g a b c d) -> t4 L f = t4 L g.
  Proof.
    induction 1 as [|x L S IH F]; intros f g H; cbn [t4]; [reflexivity|]. rewrite Forall_forall in F. f_equal.
    - apply t3_ext_lt; [exact S|]. intros b c d Hb Hc Hd [Hbc Hcd]. apply H; [now left|now right|now right|now right| |exact Hbc|exact Hcd].
      now apply F.
    - apply IH. intros a b c d Ha Hb Hc Hd. apply H; now right.
  Qed.

  Lemma t2_s2 L f : StronglySorted Z.lt L -> t2 L f = s2 L (fun i j => if (i <? j)%Z then f i j else 0).
  Proof.
    intro S. rewrite s2_t2 by (intros a _; rewrite Z.ltb_irrefl; reflexivity). apply t2_ext_lt; [exact S|].
    intros a b _ _ H. replace (a <? b)%Z with true by (symmetry; apply Z.ltb_lt; lia).
    replace (b <? a)%Z with false by (symmetry; apply Z.ltb_ge; lia). lra.
  Qed.
  Lemma t3_s3 L f : StronglySorted Z.lt L ->
    t3 L f = s3 L (fun i j k => if (i <? j)%Z && (j <? k)%Z then f i j k else 0).
  Proof.
    intro S. rewrite s3_t3.
    - apply t3_ext_lt; [exact S|]. intros a b c _ _ _ [H1 H2].
      replace (a <? b)%Z with true by (symmetry; apply Z.ltb_lt; lia).
      replace (b <? c)%Z with true by (symmetry; apply Z.ltb_lt; lia).
      replace (a <? c)%Z with true by (symmetry; apply Z.ltb_lt; lia).
      replace (b <? a)%Z with false by (symmetry; apply Z.ltb_ge; lia).
      replace (c <? b)%Z with false by (symmetry; apply Z.ltb_ge; lia).
      replace (c <? a)%Z with false by (symmetry; apply Z.ltb_ge; lia). cbn [andb]. lra.
    - intros a b _ _. rewrite !Z.ltb_irrefl, !andb_false_r. cbn [andb].
      destruct (Z.ltb_spec a b), (Z.ltb_spec b a); cbn [andb]; repeat split; lia || reflexivity.
  Qed.

  (** the list of increasing pairs *)
  Fixpoint pairs L : list (Z * Z) :=
    match L with [] => [] | a :: L' => map (pair a) L' ++ pairs L' end.
  Lemma pairs_t2 L f : rsum (pairs L) (fun p => f (fst p) (snd p)) = t2 L f.
  Proof. induction L as [|a L IH]; cbn [pairs t2]; [reflexivity|]. rewrite rsum_app, rsum_map, IH. reflexivity. Qed.
  Lemma in_pairs L : StronglySorted Z.lt L -> forall i j, In (i, j) (pairs L) <-> In i L /\ In j L /\ (i < j)%Z.
  Proof.
    induction 1 as [|a L S IH F]; intros i j; cbn [pairs]; [cbn; tauto|]. rewrite Forall_forall in F.
    rewrite in_app_iff, in_map_iff, IH. cbn [In]. split.
    - intros [(x & [= <- <-] & Hx)|(H1 & H2 & H3)]; [|tauto]. split; [now left|]. split; [now right|]. now apply F.
    - intros ([<-|Hi] & [<-|Hj] & H); [lia|left; eauto| |right; auto]. apply F in Hi. lia.
  Qed.
  Lemma sorted_nodup L : StronglySorted Z.lt L -> NoDup L.
  Proof.
    induction 1 as [|a L S IH F]; constructor; [|exact IH]. rewrite Forall_forall in F. intro H. apply F in H. lia.
  Qed.
  Lemma nodup_pairs L : StronglySorted Z.lt L -> NoDup (pairs L).
  Proof.
    intro S. assert (N := sorted_nodup L S). induction S as [|a L S IH F]; cbn [pairs]; [constructor|].
    inversion N as [|? ? Na NL]; subst. specialize (IH NL).
    assert (D : forall x, In x (map (pair a) L) -> ~ In x (pairs L)).
    { intros x Hx Hp. apply in_map_iff in Hx as (y & <- & _). apply in_pairs in Hp as (H & _ & _); [contradiction|exact S]. }
    assert (N1 : NoDup (map (pair a) L)) by (apply FinFun.Injective_map_NoDup; [intros x y [=]; assumption|exact NL]).
    revert D N1. generalize (map (pair a) L). induction l as [|p l IHl]; intros D N1; [exact IH|]. cbn [app].
    inversion N1 as [|? ? Np Nl]; subst. constructor.
    - rewrite in_app_iff. intros [H|H]; [contradiction|]. apply (D p); [now left|exact H].
    - apply IHl; [|exact Nl]. intros x Hx. apply D. now right.
  Qed.
End Sorted.

(** ** Loops that accumulate a sum *)
Fixpoint tl_sum {A : Type} (l : list A) (w : A -> list A -> R) : R :=
  match l with [] => 0 | a :: l' => w a l' + tl_sum l' w end.
Lemma tl_plus {A : Type} (l : list A) f g : tl_sum l (fun a r => f a r + g a r) = tl_sum l f + tl_sum l g.
Proof. induction l as [|a l IH]; cbn [tl_sum]; [lra|]. rewrite IH; lra. Qed.
Lemma tl_1 {A : Type} (l : list A) f : tl_sum l (fun a _ => f a) = rsum l f.
Proof. induction l as [|a l IH]; cbn [tl_sum rsum]; [lra|]. rewrite IH; lra. Qed.
Lemma tl_2 {A : Type} (l : list A) f : tl_sum l (fun a r => rsum r (f a)) = t2 l f.
Proof. induction l as [|a l IH]; cbn [tl_sum t2]; [lra|]. rewrite IH; lra. Qed.
Lemma tl_3 {A : Type} (l : list A) f : tl_sum l (fun a r => t2 r (f a)) = t3 l f.
Proof. induction l as [|a l IH]; cbn [tl_sum t3]; [lra|]. rewrite IH; lra. Qed.
Lemma tl_ext {A : Type} (l : list A) f g : (forall a r, incl (a :: r) l -> f a r = g a r) -> tl_sum l f = tl_sum l g.
Proof.
  induction l as [|a l IH]; intro H; cbn [tl_sum]; [reflexivity|]. rewrite H by apply incl_refl. f_equal. apply IH.
  intros b r Hb. apply H. intros x Hx. right. now apply Hb.
Qed.

Lemma for_each_map {A B : Type} (f : B -> R -> R) (e : A -> B) (w : A -> R) (l : list A) :
  (forall a m, In a l -> f (e a) m = m + w a) -> forall m, for_each f (map e l) m = m + rsum l w.
Proof.
  unfold for_each. induction l as [|a l IH]; intros H m; cbn [map fold_left rsum]; [lra|].
  rewrite IH by (intros; apply H; now right). rewrite H by now left. lra.
Qed.
Lemma for_tails_map {A B : Type} (f : B -> list B -> R -> R) (e : A -> B) (w : A -> list A -> R) (l : list A) :
  (forall a r m, incl (a :: r) l -> f (e a) (map e r) m = m + w a r) ->
  forall m, for_tails f (map e l) m = m + tl_sum l w.
Proof.
  induction l as [|a l IH]; intros H m; cbn [map for_tails tl_sum]; [lra|].
  rewrite H by apply incl_refl. rewrite IH; [lra|].
  intros b r m' Hb. apply H. intros x Hx. right. now apply Hb.
Qed.

Ltac runfold := cbn [nadd nmul ndiv nsub nopp nofZ RN T n0 G H M fst snd id1 id2 diag1 diag2 val]; change (T RN) with R in *.
Ltac rr := match goal with |- @eq _ ?a ?b => change (@eq R a b) end; runfold; cbn [Z.mul Pos.mul Pos.add Pos.succ Pos.add_carry]; ring.
