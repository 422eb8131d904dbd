(** * MomMatch: the loops compute the expectations *)

From Coq Require Import List ZArith Bool Reals Lra Lia Permutation Sorted.
From Verif Require Import Base Num Map HessGrad Moments Sums SpecU2 SpecProb MomSums MomSpec MomPoly MomCode MomLoops.
Import ListNotations.
Local Open Scope R_scope.

Definition yf21 := Eval vm_compute in yfinal 1 2.
Definition yf22 := Eval vm_compute in yfinal 2 2.
Definition yf31 := Eval vm_compute in yfinal 1 3.
Definition yf32 := Eval vm_compute in yfinal 2 3.
Definition yf33 := Eval vm_compute in yfinal 3 3.
Definition yf41 := Eval vm_compute in yfinal 1 4.
Definition yf42 := Eval vm_compute in yfinal 2 4.
Definition yf43 := Eval vm_compute in yfinal 3 4.
Definition yf44 := Eval vm_compute in yfinal 4 4.
Lemma yf21_eq : yfinal 1 2 = yf21. Proof. vm_compute. reflexivity. Qed.
Lemma yf22_eq : yfinal 2 2 = yf22. Proof. vm_compute. reflexivity. Qed.
Lemma yf31_eq : yfinal 1 3 = yf31. Proof. vm_compute. reflexivity. Qed.
Lemma yf32_eq : yfinal 2 3 = yf32. Proof. vm_compute. reflexivity. Qed.
Lemma yf33_eq : yfinal 3 3 = yf33. Proof. vm_compute. reflexivity. Qed.
Lemma yf41_eq : yfinal 1 4 = yf41. Proof. vm_compute. reflexivity. Qed.
Lemma yf42_eq : yfinal 2 4 = yf42. Proof. vm_compute. reflexivity. Qed.
Lemma yf43_eq : yfinal 3 4 = yf43. Proof. vm_compute. reflexivity. Qed.
Lemma yf44_eq : yfinal 4 4 = yf44. Proof. vm_compute. reflexivity. Qed.

Section Match.
  Variables (g : Z -> R) (h : Z -> Z -> R) (mo : Z -> moms RN).
  Hypothesis hsym : forall i j, h i j = h j i.

  Let V (i : Z) (k : nat) : R := stdmom (mo i) k.
  Lemma V0 i : V i 0%nat = 1. Proof. reflexivity. Qed.
  Lemma V1 i : V i 1%nat = 0. Proof. reflexivity. Qed.
  Let q (n : nat) := repeat (g, h) n.

  Ltac explicit e :=
    unfold q; rewrite fstar_explicit; [|exact hsym|exact V1|repeat constructor; cbn; intuition congruence|cbn; lia];
    cbn [length]; rewrite e;
    cbv [fval ev nm nth rsum rprod fst snd Nat.ltb Nat.leb Nat.sub Nat.div Nat.modulo Nat.divmod length seq map V stdmom yf21 yf22 yf31 yf32 yf33 yf41 yf42 yf43 yf44].

  Lemma f_nil n : fstar V (q (S n)) [] [] = 0.
  Proof. unfold fstar, q. cbn [repeat app qS rsum]. lra. Qed.

  Lemma f21 a : fstar V (q 2) [] [a] = m2_A (ent g h mo a) 0.
  Proof. explicit yf21_eq. unfold m2_A, ent, rd. rr. Qed.
  Lemma f22 a b : a <> b -> fstar V (q 2) [] [a; b] = m2_B (tent g h mo (a, b)) 0.
  Proof. intro. explicit yf22_eq. unfold m2_B, tent, rd. rr. Qed.

  Ltac ord a b :=
    let H1 := fresh "O" in let H2 := fresh "O" in let H3 := fresh "O" in let H4 := fresh "O" in
    assert (H1 : (a <? b)%Z = true) by (apply Z.ltb_lt; lia);
    assert (H2 : (b <? a)%Z = false) by (apply Z.ltb_ge; lia);
    assert (H3 : (a =? b)%Z = false) by (apply Z.eqb_neq; lia);
    assert (H4 : (b =? a)%Z = false) by (apply Z.eqb_neq; lia);
    rewrite ?H1, ?H2, ?H3, ?H4, ?(hsym b a); clear H1 H2 H3 H4.

  Lemma f31 a : fstar V (q 3) [] [a] = w3A g h mo a.
  Proof. explicit yf31_eq. unfold w3A, m3_A, for_each, ent, rd. cbn [for_tails fold_left fst snd]. rr. Qed.
  Lemma f32 a b : (a < b)%Z -> fstar V (q 3) [] [a; b] = w3B g h mo a b + w3D g h mo a b.
  Proof.
    intro. assert (a <> b) by lia. explicit yf32_eq. unfold w3B, w3D, m3_B, m3_D, for_each, ent, tent, rd.
    cbn [fold_left fst snd]. rr.
  Qed.
  Definition W3F (i j k : Z) : R := if (j <? k)%Z then w3F g h mo i j k else 0.
  Lemma f33 a b c : (a < b < c)%Z -> fstar V (q 3) [] [a; b; c] =
    w3C g h mo a b c + w3E h a b c + (W3F a b c + W3F a c b + W3F b a c + W3F c a b + W3F b c a + W3F c b a).
  Proof.
    intro. assert (a <> b /\ a <> c /\ b <> c) as (? & ? & ?) by lia. explicit yf33_eq.
    unfold W3F, w3F, w3E, w3C, m3_F, m3_C, ent, tent, rd. cbn [fst snd id1 id2 val diag1 diag2].
    ord a b. ord a c. ord b c. cbn [orb]. rr.
  Qed.

  Lemma f41 a : fstar V (q 4) [] [a] = w4A g h mo a.
  Proof. explicit yf41_eq. unfold w4A, m4_A0, rd. rr. Qed.
  Lemma f42 a b : (a < b)%Z -> fstar V (q 4) [] [a; b] = w4B g h mo a b + w4B g h mo b a + w4E g h mo a b.
  Proof.
    intro. assert (a <> b) by lia. explicit yf42_eq. unfold w4B, w4E, m4_B0, m4_E0, rd. ord a b. rr.
  Qed.
  Definition W43 (i j k : Z) : R :=
    (if (j <? k)%Z then w4C g h mo i j k + w4F g h mo i j k else 0) + (if (i <? j)%Z then w4G g h mo i j k else 0).
  Lemma f43 a b c : (a < b < c)%Z -> fstar V (q 4) [] [a; b; c] =
    W43 a b c + W43 a c b + W43 b a c + W43 c a b + W43 b c a + W43 c b a.
  Proof.
    intro. assert (a <> b /\ a <> c /\ b <> c) as (? & ? & ?) by lia. explicit yf43_eq.
    assert (C : forall i, (i + 1 =? i)%Z = false) by (intro; apply Z.eqb_neq; lia).
    unfold W43, w4C, w4F, w4G, out, m4_C, m4_F0, m4_G2, m4_G3, m4_H, for_each, rd. cbn [fst snd]. rewrite !C.
    ord a b. ord a c. ord b c. cbn [orb fold_left]. rr.
  Qed.
  Definition W44 (i j k l : Z) : R :=
    (if (j <? k)%Z && (k <? l)%Z then w4D g h mo i j k l else 0) + (if (i <? j)%Z then w4J h i j k l else 0)
    + (if (i <? j)%Z && (k <? l)%Z then w4L h i j k l + w4I h i j k l else 0).
  Lemma f44 a b c d : (a < b)%Z -> (b < c)%Z -> (c < d)%Z -> fstar V (q 4) [] [a; b; c; d] =
      W44 a b c d + W44 a b d c + W44 a c b d + W44 a d b c + W44 a c d b + W44 a d c b +
      (W44 b a c d + W44 b a d c + W44 c a b d + W44 d a b c + W44 c a d b + W44 d a c b) +
      (W44 b c a d + W44 b d a c + W44 c b a d + W44 d b a c + W44 c d a b + W44 d c a b) +
      (W44 b c d a + W44 b d c a + W44 c b d a + W44 d b c a + W44 c d b a + W44 d c b a).
  Proof.
    intros. assert (a <> b /\ a <> c /\ a <> d /\ b <> c /\ b <> d /\ c <> d) as (? & ? & ? & ? & ? & ?) by lia.
    explicit yf44_eq.
    unfold W44, w4D, w4J, w4L, w4I, out, m4_D, ent, rd. cbn [fst snd].
    ord a b. ord a c. ord a d. ord b c. ord b d. ord c d. cbn [andb orb]. rr.
  Qed.

  (** ** The sums of the loops are the expectations of the powers *)
  Variables (L : list Z).
  Hypothesis HS : StronglySorted Z.lt L.
  Let NDL : NoDup L := sorted_nodup L HS.

  Lemma m1_match : rsum L (fun i => h i i) = qS (q 1) L (mu V L).
  Proof.
    rewrite (qS_msum V V0 V1 (q 1) L NDL). change (length (q 1)) with 1%nat. rewrite msum_1, (f_nil 0), Rplus_0_l.
    apply rsum_ext. intros a _. unfold q, fstar, Kf. cbn [repeat app qS rsum rprod fst snd count_occ].
    destruct (Z.eq_dec a a) as [_|X]; [|congruence]. cbv [occ Nat.eqb V stdmom]. ring.
  Qed.

  Lemma m2_match : rsum L (fun i => m2_A (ent g h mo i) 0) + t2 L (fun i j => m2_B (tent g h mo (i, j)) 0) = qS (q 2) L (mu V L).
  Proof.
    rewrite (qS_msum V V0 V1 (q 2) L NDL). change (length (q 2)) with 2%nat. rewrite msum_2, (f_nil 1), Rplus_0_l. f_equal.
    - apply rsum_ext. intros a _. symmetry. apply f21.
    - apply t2_ext_lt; [exact HS|]. intros a b _ _ Hab. symmetry. apply f22. lia.
  Qed.

  Lemma m3_match : rsum L (w3A g h mo) + t2 L (w3B g h mo) + t3 L (w3C g h mo) + rsum L (fun i => t2 L (w3F g h mo i))
      + (t2 L (w3D g h mo) + t3 L (w3E h)) = qS (q 3) L (mu V L).
  Proof.
    rewrite (qS_msum V V0 V1 (q 3) L NDL). change (length (q 3)) with 3%nat. rewrite msum_3, (f_nil 2), Rplus_0_l.
    rewrite (rsum_ext L (fun a => fstar V (q 3) [] [a]) (w3A g h mo)) by (intros; apply f31).
    rewrite (t2_ext_lt L HS (fun a b => fstar V (q 3) [] [a; b]) (fun a b => w3B g h mo a b + w3D g h mo a b)) by (intros; now apply f32).
    rewrite (t3_ext_lt L HS (fun a b c => fstar V (q 3) [] [a; b; c]) _ (fun a b c _ _ _ => f33 a b c)).
    rewrite t2_plus, !t3_plus.
    assert (E : rsum L (fun i => t2 L (w3F g h mo i)) = s3 L W3F).
    { unfold s3. apply rsum_ext. intros i _. apply t2_s2. exact HS. }
    rewrite E, s3_t3.
    - rewrite !t3_plus. lra.
    - intros a b _ _. unfold W3F, w3F, m3_F, tent. cbn [id1 id2 fst snd]. rewrite Z.ltb_irrefl, Z.eqb_refl, orb_true_r. cbn [orb].
      destruct (a <? b)%Z, (b <? a)%Z; repeat split; reflexivity.
  Qed.

  Lemma rsum_s2 (f : Z -> Z -> Z -> R) : rsum L (fun i => t2 L (f i)) = s3 L (fun i j k => if (j <? k)%Z then f i j k else 0).
  Proof. unfold s3. apply rsum_ext. intros i _. apply t2_s2. exact HS. Qed.
  Lemma t2_rsum (f : Z -> Z -> Z -> R) : t2 L (fun i j => rsum L (f i j)) = s3 L (fun i j k => if (i <? j)%Z then f i j k else 0).
  Proof.
    rewrite t2_s2 by exact HS. unfold s3, s2. apply rsum_ext. intros i _. apply rsum_ext. intros j _.
    destruct (i <? j)%Z; [reflexivity|]. symmetry. now apply rsum_zero.
  Qed.
  Lemma rsum_t3 (f : Z -> Z -> Z -> Z -> R) : rsum L (fun i => t3 L (f i)) =
    s4 L (fun i j k l => if (j <? k)%Z && (k <? l)%Z then f i j k l else 0).
  Proof. unfold s4. apply rsum_ext. intros i _. apply t3_s3. exact HS. Qed.
  Lemma t2_s2_s4 (f : Z -> Z -> Z -> Z -> R) : t2 L (fun i j => s2 L (f i j)) =
    s4 L (fun i j k l => if (i <? j)%Z then f i j k l else 0).
  Proof.
    rewrite t2_s2 by exact HS. unfold s4, s3, s2. apply rsum_ext. intros i _. apply rsum_ext. intros j _.
    destruct (i <? j)%Z; [reflexivity|]. symmetry. apply rsum_zero. intros. now apply rsum_zero.
  Qed.
  Lemma t2_t2_s4 (f : Z -> Z -> Z -> Z -> R) : t2 L (fun i j => t2 L (f i j)) =
    s4 L (fun i j k l => if (i <? j)%Z && (k <? l)%Z then f i j k l else 0).
  Proof.
    rewrite (t2_ext_lt L HS (fun i j => t2 L (f i j)) (fun i j => s2 L (fun k l => if (k <? l)%Z then f i j k l else 0))) by
      (intros; apply t2_s2; exact HS).
    rewrite t2_s2_s4. unfold s4, s3, s2. apply rsum_ext. intros i _. apply rsum_ext. intros j _. apply rsum_ext. intros k _.
    apply rsum_ext. intros l _. destruct (i <? j)%Z; reflexivity.
  Qed.
  Lemma s4_plus (f f' : Z -> Z -> Z -> Z -> R) : s4 L (fun a b c d => f a b c d + f' a b c d) = s4 L f + s4 L f'.
  Proof. unfold s4. rewrite <- rsum_plus. apply rsum_ext. intros. apply s3_plus. Qed.
  Lemma s3_ext (f f' : Z -> Z -> Z -> R) : (forall a b c, f a b c = f' a b c) -> s3 L f = s3 L f'.
  Proof. intro H. unfold s3, s2. apply rsum_ext. intros. apply rsum_ext. intros. apply rsum_ext. intros. apply H. Qed.
  Lemma s4_ext (f f' : Z -> Z -> Z -> Z -> R) : (forall a b c d, f a b c d = f' a b c d) -> s4 L f = s4 L f'.
  Proof. intro H. unfold s4. apply rsum_ext. intros. now apply s3_ext. Qed.

  Lemma m4_match :
    rsum L (w4A g h mo) + s2 L (w4B g h mo) + rsum L (fun i => t2 L (w4C g h mo i)) + rsum L (fun i => t3 L (w4D g h mo i))
    + rsum L (fun i => t2 L (w4F g h mo i))
    + t2 L (fun i j => w4E g h mo i j + (rsum L (w4G g h mo i j) + s2 L (w4J h i j) + t2 L (w4L h i j)) + t2 L (w4I h i j))
    = qS (q 4) L (mu V L).
  Proof.
    rewrite (qS_msum V V0 V1 (q 4) L NDL). change (length (q 4)) with 4%nat. rewrite msum_4, (f_nil 3), Rplus_0_l.
    rewrite (rsum_ext L (fun a => fstar V (q 4) [] [a]) (w4A g h mo)) by (intros; apply f41).
    rewrite (t2_ext_lt L HS (fun a b => fstar V (q 4) [] [a; b]) (fun a b => w4B g h mo a b + w4B g h mo b a + w4E g h mo a b)) by (intros; now apply f42).
    rewrite (t3_ext_lt L HS (fun a b c => fstar V (q 4) [] [a; b; c]) _ (fun a b c _ _ _ => f43 a b c)).
    rewrite (t4_ext_lt L HS (fun a b c d => fstar V (q 4) [] [a; b; c; d]) _ (fun a b c d _ _ _ _ => f44 a b c d)).
    rewrite (t2_plus L (fun a b => w4B g h mo a b + w4B g h mo b a) (fun a b => w4E g h mo a b)).
    rewrite <- (s2_t2 L (w4B g h mo)) by (intros; unfold w4B; now rewrite Z.eqb_refl).
    rewrite <- (s3_t3 L W43).
    2:{ intros a b _ _. unfold W43, w4C, w4F, w4G, out. rewrite !Z.ltb_irrefl, !Z.eqb_refl, !orb_true_r. cbn [orb].
        destruct (a <? b)%Z, (b <? a)%Z; repeat split; lra. }
    rewrite <- (s4_t4 L W44).
    2:{ intros a b c _ _ _. unfold W44, w4D, w4J, w4L, w4I, out. rewrite !Z.ltb_irrefl, !Z.eqb_refl, !orb_true_r, !andb_false_r. cbn [orb andb].
        rewrite ?orb_true_r. cbn [orb andb].
        repeat split; repeat match goal with |- context [(?x <? ?y)%Z] => destruct (Z.ltb_spec x y) end; cbn [andb]; try lia;
          repeat match goal with |- context [(?x =? ?y)%Z] => destruct (Z.eqb_spec x y) end; cbn [orb]; try lia; try lra. }
    rewrite (t2_plus L (fun i j => w4E g h mo i j + (rsum L (w4G g h mo i j) + s2 L (w4J h i j) + t2 L (w4L h i j))) (fun i j => t2 L (w4I h i j))).
    rewrite (t2_plus L (fun i j => w4E g h mo i j) (fun i j => (rsum L (w4G g h mo i j) + s2 L (w4J h i j) + t2 L (w4L h i j)))).
    rewrite (t2_plus L (fun i j => rsum L (w4G g h mo i j) + s2 L (w4J h i j)) (fun i j => t2 L (w4L h i j))).
    rewrite (t2_plus L (fun i j => rsum L (w4G g h mo i j)) (fun i j => s2 L (w4J h i j))).
    rewrite !rsum_s2, rsum_t3, t2_rsum, t2_s2_s4, !t2_t2_s4.
    assert (E3 : s3 L W43 = s3 L (fun i j k => if (j <? k)%Z then w4C g h mo i j k else 0) + s3 L (fun i j k => if (j <? k)%Z then w4F g h mo i j k else 0)
       + s3 L (fun i j k => if (i <? j)%Z then w4G g h mo i j k else 0)).
    { rewrite <- !s3_plus. apply s3_ext. intros i j k. unfold W43. destruct (j <? k)%Z, (i <? j)%Z; lra. }
    assert (E4 : s4 L W44 = s4 L (fun i j k l => if (j <? k)%Z && (k <? l)%Z then w4D g h mo i j k l else 0)
       + s4 L (fun i j k l => if (i <? j)%Z then w4J h i j k l else 0)
       + s4 L (fun i j k l => if (i <? j)%Z && (k <? l)%Z then w4L h i j k l else 0)
       + s4 L (fun i j k l => if (i <? j)%Z && (k <? l)%Z then w4I h i j k l else 0)).
    { rewrite <- !s4_plus. apply s4_ext. intros i j k l. unfold W44. destruct (_ && (k <? l)%Z), (i <? j)%Z, (_ && _); lra. }
    rewrite E3, E4. lra.
  Qed.
End Match.
