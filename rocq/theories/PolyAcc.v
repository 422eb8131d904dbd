(** * PolyAcc: polynomial programs on doubles, real numbers and magnitudes at once (C76) *)

From Coq Require Import List ZArith Bool Reals Lra Lia Psatz.
From Flocq Require Import Core BinarySingleNaN.
From Verif Require Import Base Num Map UReal World HessGrad Moments CheckMoments UReal2 World2 HessProofs U2Facts URealFacts U2World SpecU2Run SpecU2 U2Proofs SpecCast ConvProofs.
From Verif Require Import Ieee IeeeFacts SpecIeee IeeeProofs2 IeeeProofs3 SpecAcc2 Track AccMom2 SpecAcc3 PolyHom Track2.
Import ListNotations.
Local Open Scope nat_scope.

(** ** Counts of roundings in the operations *)
Definition mz (o : option (moms PN)) : Prop := match o with
  | Some p => tk (v3 p) = 0 /\ tk (v4 p) = 0 /\ tk (v5 p) = 0 /\ tk (v6 p) = 0 /\ tk (v7 p) = 0 /\ tk (v8 p) = 0 | None => True end.
Definition kdg (k : nat) (d : diag PN) : Prop := (tk (dgrad d) <= k /\ tk (dhh d) <= k) /\ mz (dmom d).
Definition kb (k : nat) (x : ureal2 PN) : Prop :=
  tk (u2mu x) <= k /\ (forall i d, In (i, d) (diagmap (u2hg x)) -> kdg k d) /\ (forall ij t, In (ij, t) (trimap (u2hg x)) -> tk t <= k).
Lemma kb_find k x i d : kb k x -> mfind i (diagmap (u2hg x)) = Some d -> kdg k d.
Proof. intros (_ & H & _) E. apply mfind_In in E. exact (H _ _ E). Qed.
Lemma kb_tri k x i t : kb k x -> mfind i (trimap (u2hg x)) = Some t -> tk t <= k.
Proof. intros (_ & _ & H) E. apply mfind_In in E. exact (H _ _ E). Qed.
Lemma kb_up k l x : k <= l -> kb k x -> kb l x.
Proof.
  intros L (A & B & C). split; [lia|]. split.
  - intros i d H. destruct (B i d H) as [? ?]. split; [lia|assumption].
  - intros i t H. specialize (C i t H). lia.
Qed.
Lemma k_mull (x y : PN) k l K : tk x <= k -> tk y <= l -> S (k + l) <= K -> tk (nmul (n := PN) x y) <= K.
Proof. intros A B L. eapply Nat.le_trans; [now apply (k_mul x y k l)|exact L]. Qed.
(** [g] times its derivative; the second derivatives of sums and products are zero *)
Notation h0 := (phalf 0).
Lemma k_cellX k kf (f : PN) d : kdg k d -> tk f <= kf -> kdg (S (kf + k)) (cellX f h0 d).
Proof.
  intros [[A B] Z] F. split; [|exact Z]. split; cbn [cellX dgrad dhh]; [now apply k_mul|]. apply k_add0; [|now apply k_mul]. apply b_mul0, b_mul0, b_half0.
Qed.
Lemma k_cellYf k kf (f : PN) d : kdg k d -> tk f <= kf -> kdg (S (kf + k)) (cellYf f h0 d).
Proof.
  intros [[A B] Z] F. split; [|exact Z]. split; cbn [cellYf dgrad dhh].
  - apply k_add0; [reflexivity|now apply k_mul].
  - apply k_add0; [|now apply k_mul]. change (tb (nadd (n := PN) n0 (nmul (n := PN) (nmul (n := PN) h0 (dgrad d)) (dgrad d))) = 0%R).
    change ((tb (n0 : PN) + tb (nmul (n := PN) (nmul (n := PN) h0 (dgrad d)) (dgrad d)))%R = 0%R). rewrite b_mul0 by apply b_mul0, b_half0. cbn. ring.
Qed.
Lemma k_cellYn k kf K (f : PN) d0 d : kdg k d -> tk f <= kf -> kdg K d0 -> S (kf + k) <= K -> kdg (S K) (cellYn f h0 d0 d).
Proof.
  intros [[A B] _] F [[C D] Z] L. split; [|exact Z]. split; cbn [cellYn dgrad dhh].
  - apply k_add; [exact C|]. eapply k_mull; [exact F| |exact L]; assumption.
  - apply k_add; [|eapply k_mull; [exact F| |exact L]; assumption]. apply k_add0r; [|exact D]. apply b_mul0, b_mul0, b_half0.
Qed.
Lemma k_tX k kf (f : PN) h i j t : tk t <= k -> tk f <= kf -> tk (tX f h0 h i j t) <= S (kf + k).
Proof. intros A F. unfold tX. apply k_add0; [|now apply k_mul]. apply b_mul0, b_mul0, b_half0. Qed.
Lemma k_tY0 k kf (f : PN) h i j t : tk t <= k -> tk f <= kf -> tk (tY f h0 h i j n0 t) <= S (kf + k).
Proof.
  intros A F. unfold tY. apply k_add0; [|now apply k_mul].
  match goal with |- tb (nadd n0 ?e) = 0%R => change ((tb (n0 : PN) + tb e)%R = 0%R); assert (Z : tb e = 0%R) by (apply b_mul0, b_mul0, b_half0); rewrite Z end. cbn. ring.
Qed.
Lemma k_tY k kf K (f : PN) h i j t0 t : tk t <= k -> tk f <= kf -> tk t0 <= K -> S (kf + k) <= K -> tk (tY f h0 h i j t0 t) <= S K.
Proof.
  intros A F C L. unfold tY. apply k_add; [|eapply k_mull; [exact F| |exact L]; assumption]. apply k_add0r; [|exact C]. apply b_mul0, b_mul0, b_half0.
Qed.

Lemma vex (x : ureal2 PN) : hg_ok (u2hg x) -> exists xs, hess_visits (u2hg x) (neqb (n := PN) h0 n0) = Ret xs /\ visits_exact (u2hg x) xs.
Proof.
  intro OK. destruct (visits_of_hg (u2hg x) (neqb (n := PN) h0 n0) OK) as (xs & E & _ & X). exists xs. split; [exact E|]. apply X.
  exact (pz 0 (or_introl eq_refl)).
Qed.
Lemma kb_unary k kf K (x : ureal2 PN) fv f1 z : hg_ok (u2hg x) -> kb k x -> tk f1 <= kf -> tk fv <= K -> S (kf + k) <= K ->
  u2_unary x fv f1 (nofZ 0) = Ret z -> kb K z.
Proof.
  intros OK Kx F V L E. destruct (unary_result x fv f1 (nofZ 0) OK) as (r & E' & OKr & HD & HT). rewrite E in E'. injection E' as ->.
  destruct (vex x OK) as (xs & Ev & Xv). specialize (HT xs Ev Xv). split; [exact V|]. cbn [u2hg]. split.
  - intros i d Hd. apply (In_mfind _ _ _ (proj1 OKr)) in Hd. rewrite HD in Hd. apply option_map_some in Hd as (d0 & Hd & ->).
    assert (Q := k_cellX k kf f1 d0 (kb_find _ _ _ _ Kx Hd) F). destruct Q as [[Q1 Q2] Qz]. split; [|exact Qz]. split; eapply Nat.le_trans; eauto.
  - intros [i j] t Ht. destruct OKr as (_ & ST & TR & _). assert (B := TR _ _ (in_map fst _ _ Ht)). cbn in B.
    apply (In_mfind _ _ _ ST) in Ht. rewrite HT in Ht by lia. apply option_map_some in Ht as (t0 & Ht & ->).
    eapply Nat.le_trans; [|exact L]. apply k_add0; [apply b_mul0, b_mul0, b_half0|]. apply k_mul; [exact F|exact (kb_tri _ _ _ _ Kx Ht)].
Qed.

Lemma some_inj {A} (a b : A) : Some a = Some b -> a = b. Proof. congruence. Qed.
Lemma two_adds {N : Num} (f : N -> nat) (K : nat) (A : forall x y k, f x <= k -> f y <= k -> f (nadd x y) <= S k) (t0 : N) (T0 : f t0 <= S K)
  (p : diag N -> diag N -> N) (oa ob oc od : option (diag N))
  (P1 : forall a b, oa = Some a -> ob = Some b -> f (p a b) <= S K) (P2 : forall a b, oc = Some a -> od = Some b -> f (p a b) <= S K) :
  f (let t1 := match oa, ob with Some a, Some b => nadd t0 (p a b) | _, _ => t0 end in
     match oc, od with Some a, Some b => nadd t1 (p a b) | _, _ => t1 end) <= K + 3.
Proof.
  cbv zeta. assert (T1 : f (match oa, ob with Some a, Some b => nadd t0 (p a b) | _, _ => t0 end) <= S (S K)).
  { destruct oa as [a|], ob as [b|]; try lia. apply A; [exact T0|now apply P1]. }
  replace (K + 3) with (S (S (S K))) by lia. revert T1. generalize (match oa, ob with Some a, Some b => nadd t0 (p a b) | _, _ => t0 end). intros t1 T1.
  destruct oc as [a|], od as [b|]; try lia. apply A; [exact T1|]. assert (Q := P2 a b eq_refl eq_refl). lia.
Qed.

Section Bin.
  Variables (x y : ureal2 PN) (k1 k2 f1 f2 K : nat) (fv fx fy : PN).
  Hypothesis (OKx : hg_ok (u2hg x)) (OKy : hg_ok (u2hg y)) (Bx : kbelow (u2hg x)) (By : kbelow (u2hg y)).
  Hypothesis (Kx : kb k1 x) (Ky : kb k2 y) (Fx : tk fx <= f1) (Fy : tk fy <= f2).
  Hypothesis (L1 : S (f1 + k1) <= K) (L2 : S (f2 + k2) <= K).
  Lemma k_up (d : diag PN) k : kdg k d -> k <= S K -> kdg (S K) d. Proof. intros [? ?] ?. split; [lia|assumption]. Qed.
  Lemma k_mcell i d : mcell fx fy h0 h0 (u2hg x) (u2hg y) i = Some d -> kdg (S K) d.
  Proof.
    unfold mcell. destruct (mfind i (diagmap (u2hg x))) as [a|] eqn:Ea, (mfind i (diagmap (u2hg y))) as [b|] eqn:Eb; intro H; try discriminate; injection H as <-.
    - apply (k_cellYn k2 f2); [exact (kb_find _ _ _ _ Ky Eb)|exact Fy| |exact L2].
      destruct (k_cellX k1 f1 fx a (kb_find _ _ _ _ Kx Ea) Fx) as [[? ?] ?]. split; [lia|assumption].
    - apply (k_up _ (S (f1 + k1))); [|lia]. apply k_cellX; [exact (kb_find _ _ _ _ Kx Ea)|exact Fx].
    - apply (k_up _ (S (f2 + k2))); [|lia]. apply k_cellYf; [exact (kb_find _ _ _ _ Ky Eb)|exact Fy].
  Qed.
  Lemma k_mtri i j t : mtri fx fy h0 h0 (u2hg x) (u2hg y) i j = Some t -> tk t <= S K.
  Proof.
    unfold mtri. destruct (mfind (i, j) (trimap (u2hg x))) as [a|] eqn:Ea, (mfind (i, j) (trimap (u2hg y))) as [b|] eqn:Eb; intro H; try discriminate; injection H as <-.
    - apply (k_tY k2 f2); [exact (kb_tri _ _ _ _ Ky Eb)|exact Fy| |exact L2].
      assert (Q := k_tX k1 f1 fx (u2hg x) i j a (kb_tri _ _ _ _ Kx Ea) Fx). eapply Nat.le_trans; [exact Q|lia].
    - assert (Q := k_tX k1 f1 fx (u2hg x) i j a (kb_tri _ _ _ _ Kx Ea) Fx). eapply Nat.le_trans; [exact Q|lia].
    - assert (Q := k_tY0 k2 f2 fy (u2hg y) i j b (kb_tri _ _ _ _ Ky Eb) Fy). eapply Nat.le_trans; [exact Q|lia].
  Qed.
  Lemma k_le (x' y' : PN) k l : tk x' <= k -> tk y' <= k -> S k <= l -> tk (nadd (n := PN) x' y') <= l.
  Proof. intros A B L. eapply Nat.le_trans; [exact (k_add _ _ _ A B)|exact L]. Qed.
  Lemma k_get0 k (m : list ((Z * Z) * PN)) i : (forall t, mfind i m = Some t -> tk t <= k) -> tk (mget n0 i m) <= k.
  Proof. unfold mget. destruct (mfind i m); intro H; [now apply H|cbn; lia]. Qed.

  Lemma kb_sum z : tk fv <= S K -> u2_binary x y fv fx fy (nofZ 0) (nofZ 0) (nofZ 0) = Ret z -> kb (S K) z.
  Proof.
    intros V E. destruct (binary_result x y fv fx fy (nofZ 0) (nofZ 0) (nofZ 0) OKx OKy Bx By) as (r & E' & OKr & r0 & OK0 & HD & HT & HC).
    rewrite E in E'. injection E' as ->. destruct (vex x OKx) as (xs & Exs & Xx). destruct (vex y OKy) as (ys & Eys & Xy). specialize (HT xs ys Exs Eys Xx Xy).
    change (neqb (ndiv (nofZ 0) (nofZ 2)) n0) with (neqb (n := PN) h0 n0) in HC. rewrite (pz 0 (or_introl eq_refl)) in HC. change (0 =? 0)%Z with true in HC. cbv iota in HC. subst r0. split; [exact V|]. cbn [u2hg]. split.
    - intros i d Hd. apply (In_mfind _ _ _ (proj1 OKr)) in Hd. rewrite HD in Hd. exact (k_mcell i d Hd).
    - intros [i j] t Ht. destruct OKr as (_ & ST & TR & _). assert (B := TR _ _ (in_map fst _ _ Ht)). cbn in B.
      apply (In_mfind _ _ _ ST) in Ht. rewrite HT in Ht by lia. exact (k_mtri i j t Ht).
  Qed.
  Lemma k_prod i j a b : mfind i (diagmap (u2hg x)) = Some a -> mfind j (diagmap (u2hg y)) = Some b ->
    tk (nmul (n := PN) (nmul (n := PN) (phalf 1) (dgrad a)) (dgrad b)) <= S (S (k1 + k2)).
  Proof.
    intros Ea Eb. destruct (kb_find _ _ _ _ Kx Ea) as [[A _] _]. destruct (kb_find _ _ _ _ Ky Eb) as [[B _] _].
    eapply (k_mull _ _ (S (0 + k1)) k2); [|exact B|lia]. eapply (k_mull _ _ 0 k1); [|exact A|lia]. destruct (phalf_eq 1 (or_intror eq_refl)) as (_ & _ & _ & _ & ->). lia.
  Qed.
  Lemma kb_prod z : k1 + k2 + 1 <= K -> tk fv <= K + 3 -> u2_binary x y fv fx fy (nofZ 0) (nofZ 0) (nofZ 1) = Ret z -> kb (K + 3) z.
  Proof.
    intros LK V E. assert (LK2 : S (S (k1 + k2)) <= S K) by lia. destruct (binary_result x y fv fx fy (nofZ 0) (nofZ 0) (nofZ 1) OKx OKy Bx By) as (r & E' & OKr & r0 & OK0 & HD & HT & HC).
    rewrite E in E'. injection E' as ->. destruct (vex x OKx) as (xs & Exs & Xx). destruct (vex y OKy) as (ys & Eys & Xy). specialize (HT xs ys Exs Eys Xx Xy).
    change (neqb (ndiv (nofZ 1) (nofZ 2)) n0) with (neqb (n := PN) (phalf 1) n0) in HC. rewrite (pz 1 (or_intror eq_refl)) in HC. change (1 =? 0)%Z with false in HC. cbv iota in HC. destruct HC as [HC1 HC2].
    split; [exact V|]. cbn [u2hg]. split.
    - intros i d Hd. apply (In_mfind _ _ _ (proj1 OKr)) in Hd. rewrite HC1 in Hd.
      assert (Q : forall e, mfind i (diagmap r0) = Some e -> kdg (S K) e) by (intro e; rewrite HD; apply k_mcell).
      destruct (mfind i (diagmap (u2hg x))) as [a|] eqn:Ea, (mfind i (diagmap (u2hg y))) as [b|] eqn:Eb;
        try (destruct (Q d Hd) as [[? ?] ?]; split; [lia|assumption]).
      apply some_inj in Hd. subst d. unfold mget. destruct (mfind i (diagmap r0)) as [e|] eqn:Ee.
      2:{ rewrite HD in Ee. unfold mcell in Ee. rewrite Ea, Eb in Ee. discriminate. }
      destruct (Q e eq_refl) as [[Q1 Q2] Qz]. cbn [wC wd snd]. split; [|exact Qz]. split; cbn [dgrad dhh]; [lia|].
      replace (K + 3) with (S (K + 2)) by lia. apply k_add; [lia|]. eapply (k_mull _ _ 0 (S (S (k1 + k2)))); [cbn; lia|exact (k_prod i i a b Ea Eb)|lia].
    - intros [i j] t Ht. assert (OKr' := OKr). destruct OKr as (_ & ST & TR & _). assert (B := TR _ _ (in_map fst _ _ Ht)). cbn in B.
      apply (In_mfind _ _ _ ST) in Ht. assert (Hm : mget n0 (i, j) (trimap r) = t) by (unfold mget; now rewrite Ht). rewrite <- Hm, HC2 by lia.
      assert (T0 : tk (mget n0 (i, j) (trimap r0)) <= S K).
      { apply k_get0. intros t0 H0. rewrite HT in H0 by lia. exact (k_mtri i j t0 H0). }
      exact (two_adds (N := PN) tk K k_add _ T0 (fun d d' => nmul (n := PN) (nmul (n := PN) (phalf 1) (dgrad d)) (dgrad d')) _ _ _ _
        (fun a b Ea Eb => Nat.le_trans _ _ _ (k_prod i j a b Ea Eb) LK2) (fun a b Ea Eb => Nat.le_trans _ _ _ (k_prod j i a b Ea Eb) LK2)).
  Qed.
End Bin.
