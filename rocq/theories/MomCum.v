(** * MomCum: moments of sums of independent variables and of multiples *)

From Coq Require Import List ZArith Bool Reals Lra Lia.
From Verif Require Import Base Num Map UReal World HessGrad Moments CheckMoments UReal2 HessProofs U2Facts World2 U2World SpecObs SpecU2Run U2Proofs U2Proofs2.
From Verif Require Import URealFacts URealProofs Sums URealR SpecU2 U2Values U2Ret SpecProb SpecMom MomSums MomSpec MomPoly MomCode MomMatch MomProofs MomCov MomGiven MomDeg MomProd MomStats.
Import ListNotations.
Local Open Scope R_scope.

Lemma rprod_filter {A : Type} (p : A -> bool) l f : rprod l f = rprod (filter p l) f * rprod (filter (fun a => negb (p a)) l) f.
Proof.
  induction l as [|a l IH]; cbn [rprod filter]; [ring|]. destruct (p a); cbn [negb rprod]; rewrite IH; ring.
Qed.

Section Join.
  Variables (P Q : expect) (A B : list Z) (X : Z -> Om P -> R) (Y : Z -> Om Q -> R) (V : Z -> nat -> R).
  Definition jX (i : Z) (o : Om (prod_expect P Q)) : R := if in_dec Z.eq_dec i A then X i (fst o) else Y i (snd o).
  Lemma join_indep : independent P A X V -> independent Q B Y V -> independent (prod_expect P Q) (A ++ B) jX V.
  Proof.
    intros HA HB L k NL IL Hk.
    set (p := fun i => if in_dec Z.eq_dec i A then true else false).
    assert (FA : forall i, In i (filter p L) -> In i A).
    { intros i Hi. apply filter_In in Hi as [_ Hi]. unfold p in Hi. destruct (in_dec Z.eq_dec i A); [auto|discriminate]. }
    assert (FB : forall i, In i (filter (fun a => negb (p a)) L) -> ~ In i A /\ In i B).
    { intros i Hi. apply filter_In in Hi as [H1 Hi]. unfold p in Hi. destruct (in_dec Z.eq_dec i A) as [|n]; [discriminate|].
      split; [exact n|]. apply IL, in_app_or in H1. tauto. }
    destruct (HA (filter p L) k) as [I1 E1]; [now apply NoDup_filter|intros i Hi; now apply FA|intros i Hi; apply filter_In in Hi; now apply Hk|].
    destruct (HB (filter (fun a => negb (p a)) L) k) as [I2 E2]; [now apply NoDup_filter|intros i Hi; now apply FB|intros i Hi; apply filter_In in Hi; now apply Hk|].
    destruct (prod_split P Q _ _ I1 I2) as [I3 E3].
    rewrite (rprod_filter p L (fun i => V i (k i))), <- E1, <- E2, <- E3.
    apply (Ex_eq (prod_expect P Q) (fun o => rprod (filter p L) (fun i => X i (fst o) ^ k i) * rprod (filter (fun a => negb (p a)) L) (fun i => Y i (snd o) ^ k i)));
      [|split; [exact I3|reflexivity]].
    intro o. rewrite (rprod_filter p L (fun i => jX i o ^ k i)). f_equal; apply rprod_ext; intros i Hi; unfold jX.
    - destruct (in_dec Z.eq_dec i A); [reflexivity|]. destruct n. now apply FA.
    - destruct (in_dec Z.eq_dec i A); [|reflexivity]. now destruct (proj1 (FB i Hi)).
  Qed.
End Join.

(** Powers of sums of independent centered variables. *)
Section Powers.
  Variables (P Q : expect) (a : Om P -> R) (b : Om Q -> R).
  Hypothesis Ia : forall n, (n <= 4)%nat -> int P (fun o => a o ^ n).
  Hypothesis Ib : forall n, (n <= 4)%nat -> int Q (fun o => b o ^ n).
  Hypothesis (a1 : Ex P (fun o => a o ^ 1) = 0) (b1 : Ex Q (fun o => b o ^ 1) = 0).
  Let ea n := Ex P (fun o => a o ^ n).
  Let eb n := Ex Q (fun o => b o ^ n).

  Lemma terms (l : list (R * nat * nat)) : (forall t, In t l -> (snd (fst t) <= 4)%nat /\ (snd t <= 4)%nat) ->
    let f := fun o : Om (prod_expect P Q) => rsum l (fun t => fst (fst t) * (a (fst o) ^ snd (fst t) * b (snd o) ^ snd t)) in
    int (prod_expect P Q) f /\ Ex (prod_expect P Q) f = rsum l (fun t => fst (fst t) * (ea (snd (fst t)) * eb (snd t))).
  Proof.
    intros H f. unfold f.
    apply (Ex_rsum (prod_expect P Q) l (fun t o => fst (fst t) * (a (fst o) ^ snd (fst t) * b (snd o) ^ snd t))).
    intros [[c i] j] Ht. destruct (H _ Ht) as [Hi Hj]. cbn [fst snd] in *.
    destruct (prod_split P Q _ _ (Ia i Hi) (Ib j Hj)) as [I E].
    destruct (Ex_scal (prod_expect P Q) c _ I) as [I' E']. split; [exact I'|]. rewrite E', E. reflexivity.
  Qed.

  Lemma e0 : ea 0 = 1 /\ eb 0 = 1.
  Proof. split; [exact (proj2 (Ex_const P 1))|exact (proj2 (Ex_const Q 1))]. Qed.

  Lemma sum2 : Ex (prod_expect P Q) (fun o => (a (fst o) + b (snd o)) ^ 2) = ea 2 + eb 2.
  Proof.
    destruct (terms [(1, 2%nat, 0%nat); (2, 1%nat, 1%nat); (1, 0%nat, 2%nat)]) as [I E]; [cbn; intros t Ht; repeat (destruct Ht as [<-|Ht]; [cbn; lia|]); destruct Ht|].
    destruct e0 as [E0 E0']. cbn [rsum fst snd] in E. rewrite ?E0, ?E0' in E.
    change (ea 1) with (Ex P (fun o => a o ^ 1)) in E; change (eb 1) with (Ex Q (fun o => b o ^ 1)) in E; rewrite ?a1, ?b1 in E.
    etransitivity; [|etransitivity; [exact E|ring]].
    symmetry. apply (Ex_ext (prod_expect P Q) _ _); [|exact I]. intro o. cbn [rsum fst snd]. ring.
  Qed.
  Lemma sum3 : Ex (prod_expect P Q) (fun o => (a (fst o) + b (snd o)) ^ 3) = ea 3 + eb 3.
  Proof.
    destruct (terms [(1, 3%nat, 0%nat); (3, 2%nat, 1%nat); (3, 1%nat, 2%nat); (1, 0%nat, 3%nat)]) as [I E]; [cbn; intros t Ht; repeat (destruct Ht as [<-|Ht]; [cbn; lia|]); destruct Ht|].
    destruct e0 as [E0 E0']. cbn [rsum fst snd] in E. rewrite ?E0, ?E0' in E.
    change (ea 1) with (Ex P (fun o => a o ^ 1)) in E; change (eb 1) with (Ex Q (fun o => b o ^ 1)) in E; rewrite ?a1, ?b1 in E.
    etransitivity; [|etransitivity; [exact E|ring]].
    symmetry. apply (Ex_ext (prod_expect P Q) _ _); [|exact I]. intro o. cbn [rsum fst snd]. ring.
  Qed.
  Lemma sum4 : Ex (prod_expect P Q) (fun o => (a (fst o) + b (snd o)) ^ 4) = ea 4 + 6 * ea 2 * eb 2 + eb 4.
  Proof.
    destruct (terms [(1, 4%nat, 0%nat); (4, 3%nat, 1%nat); (6, 2%nat, 2%nat); (4, 1%nat, 3%nat); (1, 0%nat, 4%nat)]) as [I E]; [cbn; intros t Ht; repeat (destruct Ht as [<-|Ht]; [cbn; lia|]); destruct Ht|].
    destruct e0 as [E0 E0']. cbn [rsum fst snd] in E. rewrite ?E0, ?E0' in E.
    change (ea 1) with (Ex P (fun o => a o ^ 1)) in E; change (eb 1) with (Ex Q (fun o => b o ^ 1)) in E; rewrite ?a1, ?b1 in E.
    etransitivity; [|etransitivity; [exact E|ring]].
    symmetry. apply (Ex_ext (prod_expect P Q) _ _); [|exact I]. intro o. cbn [rsum fst snd]. ring.
  Qed.
End Powers.

Section Add.
  Variables (last : Z) (env : Z -> moms RN) (x y z : ureal2 RN).
  Hypothesis (Wx : wf2 last env x) (Wy : wf2 last env y) (Wz : wf2 last env z).
  Hypothesis JZ : jet_eq (jet_of z) (jet_add (jet_of x) (jet_of y)).
  Hypothesis DIS : forall i, j_dep (jet_of x) i -> j_dep (jet_of y) i -> False.
  Let A := map fst (diagmap (u2hg x)).
  Let B := map fst (diagmap (u2hg y)).
  Let V i := stdmom (env i).

  Lemma add_moments : exists a1 a2 a3 a4 b1 b2 b3 b4,
    (u2_m x 1 = Ret a1 /\ u2_m x 2 = Ret a2 /\ u2_m x 3 = Ret a3 /\ u2_m x 4 = Ret a4) /\
    (u2_m y 1 = Ret b1 /\ u2_m y 2 = Ret b2 /\ u2_m y 3 = Ret b3 /\ u2_m y 4 = Ret b4) /\
    (u2_m z 1 = Ret (a1 + b1) /\ u2_m z 2 = Ret (a2 + b2) /\ u2_m z 3 = Ret (a3 + b3) /\ u2_m z 4 = Ret (a4 + 6 * a2 * b2 + b4)).
  Proof.
    assert (NA : NoDup A) by exact (sorted_nodup _ (st_sorted x (proj1 Wx))).
    assert (NB : NoDup B) by exact (sorted_nodup _ (st_sorted y (proj1 Wy))).
    assert (SA := st_sup x (proj1 Wx)). assert (SB := st_sup y (proj1 Wy)). fold A in SA. fold B in SB.
    destruct (signed_family A V NA (fun _ _ => eq_refl)) as (P & X & IP).
    destruct (signed_family B V NB (fun _ _ => eq_refl)) as (Q & Y & IQ).
    assert (IJ := join_indep P Q A B X Y V IP IQ).
    assert (NJ : NoDup (A ++ B)).
    { clear -NA NB DIS. assert (D : forall i, In i A -> ~ In i B) by (intros i H1 H2; exact (DIS i H1 H2)).
      clear DIS. induction A as [|i l IH]; [exact NB|]. cbn. inversion NA; subst. constructor.
      - rewrite in_app_iff. intros [H|H]; [tauto|]. apply (D i); [now left|exact H].
      - apply IH; [assumption|]. intros j Hj. apply D. now right. }
    set (jx := jet_of x) in *. set (jy := jet_of y) in *.
    destruct JZ as (JM & _ & JG & JH). cbn [jet_add j_mean j_g j_h] in JM, JG, JH.
    destruct SA as [SA1 SA2]. destruct SB as [SB1 SB2]. cbn [fst snd] in *.
    assert (SZ : qsup (A ++ B) (j_g (jet_of z), j_h (jet_of z))).
    { split; cbn [fst snd].
      - intros i Hi. rewrite JG, SA1, SB1; [ring|intro; apply Hi, in_or_app; auto..].
      - intros i j Hij. rewrite JH, SA2, SB2; [ring|destruct Hij; [left|right]; intro; apply H, in_or_app; auto..]. }
    assert (DA : forall i, In i A -> ~ In i B) by (intros i H1 H2; exact (DIS i H1 H2)).
    assert (DB : forall i, In i B -> ~ In i A) by (intros i H1 H2; exact (DIS i H2 H1)).
    set (J := jX P Q A X Y) in *.
    assert (JA : forall i o, In i A -> J i o = X i (fst o)) by (intros i o Hi; unfold J, jX; destruct (in_dec Z.eq_dec i A); [reflexivity|tauto]).
    assert (JB : forall i o, In i B -> J i o = Y i (snd o)).
    { intros i o Hi; unfold J, jX; destruct (in_dec Z.eq_dec i A) as [Ha|]; [destruct (DB i Hi Ha)|reflexivity]. }
    assert (QE : forall o, quad (A ++ B) (j_g (jet_of z)) (j_h (jet_of z)) J o =
      quad A (j_g jx) (j_h jx) X (fst o) + quad B (j_g jy) (j_h jy) Y (snd o)).
    { intro o. unfold quad. rewrite !rsum_app.
      assert (E1 : rsum A (fun i => j_g (jet_of z) i * J i o) = rsum A (fun i => j_g jx i * X i (fst o))).
      { apply rsum_ext. intros i Hi. rewrite JG, (SB1 i (DA i Hi)), (JA i o Hi). ring. }
      assert (E2 : rsum B (fun i => j_g (jet_of z) i * J i o) = rsum B (fun i => j_g jy i * Y i (snd o))).
      { apply rsum_ext. intros i Hi. rewrite JG, (SA1 i (DB i Hi)), (JB i o Hi). ring. }
      assert (E3 : rsum A (fun i => rsum (A ++ B) (fun j => j_h (jet_of z) i j * J i o * J j o)) =
                   rsum A (fun i => rsum A (fun j => j_h jx i j * X i (fst o) * X j (fst o)))).
      { apply rsum_ext. intros i Hi. rewrite rsum_app. rewrite (rsum_zero B).
        - rewrite Rplus_0_r. apply rsum_ext. intros j Hj. rewrite JH, (SB2 i j (or_introl (DA i Hi))), (JA i o Hi), (JA j o Hj). ring.
        - intros j Hj. rewrite JH, (SB2 i j (or_introl (DA i Hi))), (SA2 i j (or_intror (DB j Hj))). ring. }
      assert (E4 : rsum B (fun i => rsum (A ++ B) (fun j => j_h (jet_of z) i j * J i o * J j o)) =
                   rsum B (fun i => rsum B (fun j => j_h jy i j * Y i (snd o) * Y j (snd o)))).
      { apply rsum_ext. intros i Hi. rewrite rsum_app. rewrite (rsum_zero A).
        - rewrite Rplus_0_l. apply rsum_ext. intros j Hj. rewrite JH, (SA2 i j (or_introl (DB i Hi))), (JB i o Hi), (JB j o Hj). ring.
        - intros j Hj. rewrite JH, (SA2 i j (or_introl (DB i Hi))), (SB2 i j (or_intror (DA j Hj))). ring. }
      rewrite E1, E2, E3, E4. ring. }
    assert (Sx : qsup A (j_g (jet_of x), j_h (jet_of x))) by (split; assumption).
    assert (Sy : qsup B (j_g (jet_of y), j_h (jet_of y))) by (split; assumption).
    assert (tr : forall (ids : list Z) (u : ureal2 RN) i, In i ids -> j_dep (jet_of u) i -> forall k, (k <= 8)%nat -> V i k = stdmom (env i) k) by reflexivity.
    destruct Wx as [OKx MOx], Wy as [OKy MOy], Wz as [OKz MOz].
    assert (Mx := u2_m1 x env P A X V OKx (fun i d H => proj2 (MOx i d H)) NA IP (tr A x) Sx).
    assert (My := u2_m1 y env Q B Y V OKy (fun i d H => proj2 (MOy i d H)) NB IQ (tr B y) Sy).
    assert (Mz := u2_m1 z env (prod_expect P Q) (A ++ B) J V OKz (fun i d H => proj2 (MOz i d H)) NJ IJ (tr _ z) SZ).
    assert (Cx := u2_mc x env P A X V OKx (fun i d H => proj2 (MOx i d H)) NA IP (tr A x) Sx).
    assert (Cy := u2_mc y env Q B Y V OKy (fun i d H => proj2 (MOy i d H)) NB IQ (tr B y) Sy).
    assert (Cz := u2_mc z env (prod_expect P Q) (A ++ B) J V OKz (fun i d H => proj2 (MOz i d H)) NJ IJ (tr _ z) SZ).
    assert (Kx := central x env P A X V OKx NA IP (tr A x) Sx).
    assert (Ky := central y env Q B Y V OKy NB IQ (tr B y) Sy).
    destruct (exY x env P A X V OKx NA IP (tr A x) Sx) as [Ix _].
    destruct (exY y env Q B Y V OKy NB IQ (tr B y) Sy) as [Iy _].
    set (yx := Yv x P A X) in *. set (yy := Yv y Q B Y) in *. set (yz := Yv z (prod_expect P Q) (A ++ B) J) in *.
    assert (YE : forall o, yz o = yx (fst o) + yy (snd o)).
    { intro o. unfold yz, yx, yy, Yv. rewrite QE. fold jx jy. rewrite JM. ring. }
    assert (EZ : Ex (prod_expect P Q) yz = Ex P yx + Ex Q yy).
    { destruct (Ex_const Q 1) as [I1 E1]. destruct (Ex_const P 1) as [I2 E2].
      destruct (prod_split P Q yx (fun _ => 1) Ix I1) as [J1 F1]. destruct (prod_split P Q (fun _ => 1) yy I2 Iy) as [J2 F2].
      destruct (Ex_plus (prod_expect P Q) _ _ J1 J2) as [J3 F3]. rewrite F1, F2, E1, E2 in F3.
      etransitivity; [|etransitivity; [exact F3|ring]]. symmetry. apply (Ex_ext (prod_expect P Q) _ yz); [|exact J3].
      intro o. rewrite YE. ring. }
    set (a := fun o => yx o - Ex P yx) in *. set (b := fun o => yy o - Ex Q yy) in *.
    assert (Ia : forall n, (n <= 4)%nat -> int P (fun o => a o ^ n)) by (intros n Hn; apply (Kx n Hn)).
    assert (Ib : forall n, (n <= 4)%nat -> int Q (fun o => b o ^ n)) by (intros n Hn; apply (Ky n Hn)).
    assert (ZE : forall n o, (yz o - Ex (prod_expect P Q) yz) ^ n = (a (fst o) + b (snd o)) ^ n).
    { intros n o. f_equal. rewrite YE, EZ. unfold a, b. ring. }
    assert (a1 : Ex P (fun o => a o ^ 1) = 0) by exact (proj2 (Kx 1%nat ltac:(lia))).
    assert (b1 : Ex Q (fun o => b o ^ 1) = 0) by exact (proj2 (Ky 1%nat ltac:(lia))).
    assert (Kz := central z env (prod_expect P Q) (A ++ B) J V OKz NJ IJ (tr _ z) SZ). fold yz in Kz.
    assert (ZE' : forall n, (n <= 4)%nat -> Ex (prod_expect P Q) (fun o => (yz o - Ex (prod_expect P Q) yz) ^ n) = Ex (prod_expect P Q) (fun o => (a (fst o) + b (snd o)) ^ n)).
    { intros n Hn. apply (Ex_ext (prod_expect P Q) _ _ (ZE n)). apply (Kz n Hn). }
    exists (Ex P yx - j_mean jx), (Ex P (fun o => a o ^ 2)), (Ex P (fun o => a o ^ 3)), (Ex P (fun o => a o ^ 4)).
    exists (Ex Q yy - j_mean jy), (Ex Q (fun o => b o ^ 2)), (Ex Q (fun o => b o ^ 3)), (Ex Q (fun o => b o ^ 4)).
    split; [split; [exact Mx|]; split; [exact (Cx 2%nat ltac:(lia))|]; split; [exact (Cx 3%nat ltac:(lia))|exact (Cx 4%nat ltac:(lia))]|].
    split; [split; [exact My|]; split; [exact (Cy 2%nat ltac:(lia))|]; split; [exact (Cy 3%nat ltac:(lia))|exact (Cy 4%nat ltac:(lia))]|].
    split; [|split; [|split]].
    - rewrite Mz. refine (f_equal (@Ret R) _). rewrite EZ, JM. fold jx jy. ring.
    - etransitivity; [exact (Cz 2%nat ltac:(lia))|]. refine (f_equal (@Ret R) _). rewrite ZE' by lia. now apply sum2.
    - etransitivity; [exact (Cz 3%nat ltac:(lia))|]. refine (f_equal (@Ret R) _). rewrite ZE' by lia. now apply sum3.
    - etransitivity; [exact (Cz 4%nat ltac:(lia))|]. refine (f_equal (@Ret R) _). rewrite ZE' by lia. now apply sum4.
  Qed.
End Add.

Section Scale.
  Variables (last : Z) (env : Z -> moms RN) (x z : ureal2 RN) (c : R).
  Hypothesis (Wx : wf2 last env x) (Wz : wf2 last env z).
  Hypothesis JM : j_mean (jet_of z) = c * j_mean (jet_of x).
  Hypothesis JG : forall i, j_g (jet_of z) i = c * j_g (jet_of x) i.
  Hypothesis JH : forall i j, j_h (jet_of z) i j = c * j_h (jet_of x) i j.

  Lemma scale_moments n : (1 <= n <= 4)%nat -> exists m, u2_m x (Z.of_nat n) = Ret m /\ u2_m z (Z.of_nat n) = Ret (c ^ n * m).
  Proof.
    intro Hn. destruct (world_model last env) as (P & X & IND).
    destruct (w_m1 last env P X IND x Wx) as [Ix Mx]. destruct (w_m1 last env P X IND z Wz) as [Iz Mz].
    assert (YE : forall o, c * Yw last P X x o = Yw last P X z o).
    { intro o. unfold Yw, Yv, quad. rewrite JM.
      assert (E1 : forall l, rsum l (fun i => j_g (jet_of z) i * X i o) = c * rsum l (fun i => j_g (jet_of x) i * X i o)).
      { intro l. rewrite <- rsum_scal. apply rsum_ext. intros i _. rewrite JG. ring. }
      assert (E2 : forall l l', rsum l (fun i => rsum l' (fun j => j_h (jet_of z) i j * X i o * X j o)) = c * rsum l (fun i => rsum l' (fun j => j_h (jet_of x) i j * X i o * X j o))).
      { intros l l'. rewrite <- rsum_scal. apply rsum_ext. intros i _. rewrite <- rsum_scal. apply rsum_ext. intros j _. rewrite JH. ring. }
      rewrite E1, E2. ring. }
    destruct (Ex_scal P c _ Ix) as [I1 E1]. destruct (Ex_ext P _ _ YE I1) as [_ E2].
    assert (EZ : Ex P (Yw last P X z) = c * Ex P (Yw last P X x)) by (rewrite <- E2; exact E1).
    destruct (Nat.eq_dec n 1) as [->|N1].
    - exists (Ex P (Yw last P X x) - j_mean (jet_of x)). change (Z.of_nat 1) with 1%Z. split; [exact Mx|].
      rewrite Mz. refine (f_equal (@Ret R) _). rewrite EZ, JM. ring.
    - exists (Ex P (fun o => Zw last P X x o ^ n)). split; [now apply (w_mc last env P X IND x n Wx); lia|].
      etransitivity; [apply (w_mc last env P X IND z n Wz); lia|]. refine (f_equal (@Ret R) _).
      destruct (Ex_scal P (c ^ n) _ (w_int last env P X IND x n Wx ltac:(lia))) as [I3 E3]. rewrite <- E3. symmetry.
      apply (Ex_ext P _ _); [|exact I3]. intro o. rewrite <- Rpow_mult_distr. f_equal. unfold Zw. rewrite EZ, <- YE. ring.
  Qed.
End Scale.

Lemma C49_sum_of_independent_proof : forall eig (w : world2 RN), reachable2 eig w -> forall u v,
  let x := w2_var w u in let y := w2_var w v in
  (forall i, j_dep (jet_of x) i -> j_dep (jet_of y) i -> False) ->
  exists z, u2_add x y = Ret z /\
  exists a1 a2 a3 a4 b1 b2 b3 b4,
    (u2_m x 1 = Ret a1 /\ u2_m x 2 = Ret a2 /\ u2_m x 3 = Ret a3 /\ u2_m x 4 = Ret a4) /\
    (u2_m y 1 = Ret b1 /\ u2_m y 2 = Ret b2 /\ u2_m y 3 = Ret b3 /\ u2_m y 4 = Ret b4) /\
    exists c1 c2 c3 c4,
    (u2_m z 1 = Ret c1 /\ u2_m z 2 = Ret c2 /\ u2_m z 3 = Ret c3 /\ u2_m z 4 = Ret c4) /\
    c1 = a1 + b1 /\ c2 = a2 + b2 /\ c3 = a3 + b3 /\
    c4 - 3 * c2 ^ 2 = (a4 - 3 * a2 ^ 2) + (b4 - 3 * b2 ^ 2).
Proof.
  intros eig w Hr u v x y HD. destruct (reachable2_wf Rltb_00 eig w Hr) as (env & [_ W] & B).
  destruct (C26_neg_add_sub_mul_proof eig w Hr u v) as (_ & (z & Ez & JZ) & _). exists z. split; [exact Ez|].
  assert (Wz : wf2 (w2_last w) env z).
  { destruct (binary_wf2 (w2_last w) env x y (nadd (u2mu x) (u2mu y)) (nofZ 1) (nofZ 1) (nofZ 0) (nofZ 0) (nofZ 0) (W u) (W v) ltac:(lia)) as (z' & E' & W').
    unfold u2_add in Ez. fold x y in Ez. rewrite E' in Ez. injection Ez as <-. exact W'. }
  destruct (add_moments (w2_last w) env x y z (W u) (W v) Wz JZ HD) as (a1 & a2 & a3 & a4 & b1 & b2 & b3 & b4 & Hx & Hy & Hz).
  exists a1, a2, a3, a4, b1, b2, b3, b4. split; [exact Hx|]. split; [exact Hy|].
  exists (a1 + b1), (a2 + b2), (a3 + b3), (a4 + 6 * a2 * b2 + b4). split; [exact Hz|]. repeat split. ring.
Qed.

Lemma C49_multiple_proof : forall eig (w : world2 RN), reachable2 eig w -> forall u v,
  let x := w2_var w u in let y := w2_var w v in
  (forall i, ~ j_dep (jet_of y) i) -> forall n, (1 <= n <= 4)%nat ->
  exists m z1 z2 z3, u2_m x (Z.of_nat n) = Ret m /\
    u2_mul x y = Ret z1 /\ u2_m z1 (Z.of_nat n) = Ret (u2_first_order_n y ^ n * m) /\
    u2_mul y x = Ret z2 /\ u2_m z2 (Z.of_nat n) = Ret (u2_first_order_n y ^ n * m) /\
    u2_neg x = Ret z3 /\ u2_m z3 (Z.of_nat n) = Ret ((-1) ^ n * m).
Proof.
  intros eig w Hr u v x y HC n Hn. destruct (reachable2_wf Rltb_00 eig w Hr) as (env & [_ W] & B).
  assert (G0 : forall i, j_g (jet_of y) i = 0) by (intro i; apply (proj1 (st_sup y (proj1 (W v)))), HC).
  assert (H0 : forall i j, j_h (jet_of y) i j = 0) by (intros i j; apply (proj2 (st_sup y (proj1 (W v)))); left; apply HC).
  destruct (C26_neg_add_sub_mul_proof eig w Hr u v) as ((z3 & E3 & J3) & _ & _ & (z1 & E1 & J1)).
  destruct (C26_neg_add_sub_mul_proof eig w Hr v u) as (_ & _ & _ & (z2 & E2 & J2)).
  fold x y in E1, E2, E3, J1, J2, J3.
  assert (W1 : wf2 (w2_last w) env z1).
  { edestruct (binary_wf2 (w2_last w) env x y) as (z' & E' & W'); [exact (W u)|exact (W v)|lia|].
    unfold u2_mul in E1. rewrite E' in E1. injection E1 as <-. exact W'. }
  assert (W2 : wf2 (w2_last w) env z2).
  { edestruct (binary_wf2 (w2_last w) env y x) as (z' & E' & W'); [exact (W v)|exact (W u)|lia|].
    unfold u2_mul in E2. rewrite E' in E2. injection E2 as <-. exact W'. }
  assert (W3 : wf2 (w2_last w) env z3).
  { edestruct (unary_wf2 (w2_last w) env x) as (z' & E' & W'); [exact (W u)|].
    unfold u2_neg in E3. rewrite E' in E3. injection E3 as <-. exact W'. }
  destruct J1 as (M1 & _ & JG1 & JH1). destruct J2 as (M2 & _ & JG2 & JH2). destruct J3 as (M3 & _ & JG3 & JH3).
  cbn [jet_mul jet_neg j_mean j_g j_h] in *.
  assert (Ey : u2_first_order_n y = j_mean (jet_of y)) by reflexivity. rewrite Ey.
  destruct (scale_moments (w2_last w) env x z1 (j_mean (jet_of y)) (W u) W1) with (n := n) as (m & Em & Em1); auto.
  - rewrite M1. ring.
  - intro i. rewrite JG1, G0. ring.
  - intros i j. rewrite JH1, H0, !G0. field.
  - destruct (scale_moments (w2_last w) env x z2 (j_mean (jet_of y)) (W u) W2) with (n := n) as (m' & Em' & Em2); auto.
    + intro i. rewrite JG2, G0. ring.
    + intros i j. rewrite JH2, H0, !G0. field.
    + destruct (scale_moments (w2_last w) env x z3 (-1) (W u) W3) with (n := n) as (m'' & Em'' & Em3); auto.
      * rewrite M3. ring.
      * intro i. rewrite JG3. ring.
      * intros i j. rewrite JH3. ring.
      * assert (m' = m) by congruence. assert (m'' = m) by congruence. subst m' m''.
        exists m, z1, z2, z3. repeat (split; [assumption|]). exact Em3.
Qed.
