(** * MomEst: the corrected mean of UReal2 *)

From Coq Require Import List ZArith Bool Reals Lra Lia.
From Verif Require Import Base Num Map UReal World HessGrad Moments CheckMoments UReal2 HessProofs U2Facts World2 U2World SpecObs SpecU2Run U2Proofs U2Proofs2.
From Verif Require Import URealFacts URealProofs Sums URealR SpecU2 U2Values U2Ret SpecProb SpecMom SpecEst MomSums MomSpec MomPoly MomCode MomMatch MomProofs MomCov MomGiven MomDeg MomProd MomStats.
Import ListNotations.
Local Open Scope R_scope.

Lemma C32_mean_and_estimate_proof : forall eig (cs : list (call2 RN)) (w : world2 RN),
  legal2 cs -> run2 eig w2_init cs = Ret w ->
  forall (P : prob) (ids : list Z) (X : Z -> Om P -> R) (M : Z -> moms RN), NoDup ids ->
  independent P ids X (fun i => stdmom (M i)) ->
  (forall i, In i ids -> exists s, s <> 0 /\ given eig w2_init cs i = Some (s, M i)) ->
  forall v, let x := w2_var w v in
  involves_only (jet_of x) ids ->
  let Y := value (jet_of x) ids X in
  exists m1, u2_m x 1 = Ret m1 /\
    u2_n PropMean x = Ret (u2_first_order_n x + m1) /\ u2_n PropMean x = Ret (Ex P Y) /\
    u2_n PropEst x = Ret (u2_first_order_n x - m1).
Proof.
  intros eig cs w HL Er P ids X M ND IND G v x HI Y.
  destruct (run_moments eig cs w HL Er P ids X M ND IND G v HI) as (I & E & _). fold x in E. fold Y in E.
  exists (Ex P Y - u2_first_order_n x). split; [exact E|]. unfold u2_n. rewrite E. cbn [bind propsign].
  split; [|split]; refine (f_equal (@Ret R) _); unfold u2_first_order_n; cbn [nadd nmul nofZ RN]; change (T RN) with R in *; ring.
Qed.

(** ** Measurements *)
Definition idv (v : nat) : Z := Z.of_nat (S v).
Lemma upto_idv k : upto (Z.of_nat k) = map idv (seq 0 k).
Proof. unfold upto, idv. rewrite Nat2Z.id, <- seq_shift, map_map. reflexivity. Qed.

Definition meas (a s : nat -> R) (m : nat -> moms RN) (v : nat) : ureal2 RN :=
  mkU2 (hg_diag (idv v) (fun _ => mkD (s v : RN) n0 (Some (m v))) hg_empty) (a v : RN).

Section Meas.
  Variables (eig : list (list RN) -> option (list RN)) (k : nat) (a s : nat -> R) (m : nat -> moms RN) (thr : nat -> R).
  Hypothesis HK : (Z.of_nat k < maxid)%Z.
  Hypothesis OKs : forall v, (v < k)%nat -> exists x, snd (u2_new_std eig 0 (a v : RN) (s v : RN) (m v) (thr v : RN)) = Ret x.

  Lemma meas_new v : (v < k)%nat -> u2_new_std eig (Z.of_nat v) (a v : RN) (s v : RN) (m v) (thr v : RN) = (idv v, Ret (meas a s m v)).
  Proof.
    intro Hv. destruct (OKs v Hv) as [x E]. unfold u2_new_std in *. destruct (nltb (s v) n0); [discriminate|].
    destruct (if negb _ then _ else _) as [[]| | |]; cbn [snd] in E; try discriminate.
    assert (W : wrap32 (Z.of_nat v + 1) = idv v) by (rewrite wrap_small by lia; unfold idv; lia). rewrite W. reflexivity.
  Qed.
  Lemma meas_run : forall n v0 w, (v0 + n = k)%nat -> w2_last w = Z.of_nat v0 -> (forall v, (v < v0)%nat -> w2_var w v = meas a s m v) ->
    exists w', run2 eig w (map (fun v => ENewStd v (a v : RN) (s v : RN) (m v) (thr v : RN)) (seq v0 n)) = Ret w' /\
      w2_last w' = Z.of_nat k /\ forall v, (v < k)%nat -> w2_var w' v = meas a s m v.
  Proof.
    induction n as [|n IH]; intros v0 w E L H.
    - exists w. cbn [seq map run2]. split; [reflexivity|]. split; [rewrite L; lia|]. intros v Hv. apply H. lia.
    - cbn [seq map run2 exec2]. rewrite L, meas_new by lia. cbn [assign2].
      apply IH; [lia|reflexivity|]. intros v Hv. cbn [w2_var]. unfold upd2. cbn [set_last w2_var].
      destruct (Nat.eqb_spec v v0) as [->|]; [reflexivity|]. apply H. lia.
  Qed.
End Meas.

(** Derivatives in units of the standard deviations. *)
Fixpoint qg (e : qexp) (s t : nat -> R) (v : nat) : R :=
  match e with
  | QVar u => if Nat.eqb v u then s u else 0
  | QConst _ => 0
  | QNeg a => - qg a s t v
  | QAdd a b => qg a s t v + qg b s t v
  | QSub a b => qg a s t v - qg b s t v
  | QMul a b => qeval b t * qg a s t v + qeval a t * qg b s t v
  end.
Fixpoint qh (e : qexp) (s t : nat -> R) (v : nat) : R :=
  match e with
  | QVar _ | QConst _ => 0
  | QNeg a => - qh a s t v
  | QAdd a b => qh a s t v + qh b s t v
  | QSub a b => qh a s t v - qh b s t v
  | QMul a b => qeval b t * qh a s t v + qeval a t * qh b s t v + qg a s t v * qg b s t v
  end.

Section Calc.
  Variables (k : nat) (a s : nat -> R) (m : nat -> moms RN) (x : nat -> ureal2 RN).
  Hypothesis HK : (Z.of_nat k < maxid)%Z.
  Hypothesis Hx : forall v, (v < k)%nat -> x v = meas a s m v.
  Let env (i : Z) := m (Z.to_nat (i - 1)).
  Lemma idv_eqb u v : (idv u =? idv v)%Z = Nat.eqb u v.
  Proof. unfold idv. destruct (Nat.eqb_spec u v), (Z.eqb_spec (Z.of_nat (S u)) (Z.of_nat (S v))); try reflexivity; lia. Qed.

  Lemma calc_ok e : qvars_below k e -> exists z, qcalc x e = Ret z /\ wf2 (Z.of_nat k) env z /\
    u2mu z = qeval e a /\ (forall v, j_g (jet_of z) (idv v) = qg e s a v) /\ (forall v, j_h (jet_of z) (idv v) (idv v) = qh e s a v).
  Proof.
    induction e as [v|c|e1 IH1|e1 IH1 e2 IH2|e1 IH1 e2 IH2|e1 IH1 e2 IH2]; cbn [qvars_below qcalc qeval qg qh]; intro B.
    - exists (x v). split; [reflexivity|]. rewrite (Hx v B). split; [|split; [reflexivity|]].
      + apply (wf2_mono (idv v) (Z.of_nat k) env env); [unfold idv; lia|auto|]. apply wf2_fresh; [unfold idv; lia|]. unfold env, idv. f_equal. lia.
      + destruct (jet_of_fresh (idv v) (a v) (s v) (m v)) as (_ & _ & JG & JH). split; intro u.
        * etransitivity; [apply JG|]. cbn [jet_fresh j_g]. rewrite idv_eqb. reflexivity.
        * etransitivity; [apply JH|]. reflexivity.
    - exists (u2_const (c : RN)). split; [reflexivity|]. split; [split; [apply hg_empty_ok|cbn; tauto]|]. split; [reflexivity|].
      split; intro; cbn; [reflexivity|]. now rewrite Pos.eqb_refl.
    - destruct (IH1 B) as (z1 & -> & W1 & M1 & G1 & H1). cbn [bind].
      destruct (unary_wf2 (Z.of_nat k) env z1 (nopp (u2mu z1)) (nofZ (-1)) (nofZ 0) W1) as (z & E & W).
      destruct (jet_unary_ok z1 (- u2mu z1) (-1) 0 (proj1 W1)) as (z' & E' & _ & _ & J & _).
      assert (z' = z) by (cut (Ret z' = Ret z); [congruence|rewrite <- E'; exact E]). subst z'.
      exists z. split; [exact E|]. split; [exact W|]. destruct (J (or_introl eq_refl)) as (JM & _ & JG & JH). cbn [jet_unary j_mean j_g j_h] in *.
      split; [etransitivity; [exact JM|]; now rewrite M1|].
      split; intro v; [rewrite JG, G1|rewrite JH, H1]; lra.
    - destruct (IH1 (proj1 B)) as (z1 & -> & W1 & M1 & G1 & H1). destruct (IH2 (proj2 B)) as (z2 & -> & W2 & M2 & G2 & H2). cbn [bind].
      destruct (binary_wf2 (Z.of_nat k) env z1 z2 (nadd (u2mu z1) (u2mu z2)) (nofZ 1) (nofZ 1) (nofZ 0) (nofZ 0) (nofZ 0) W1 W2 HK) as (z & E & W).
      destruct (jet_binary_ok z1 z2 (u2mu z1 + u2mu z2) 1 1 0 0 0 (proj1 W1) (proj1 W2) (wf2_below _ _ _ W1 HK) (wf2_below _ _ _ W2 HK)) as (z' & E' & _ & _ & J).
      assert (z' = z) by (cut (Ret z' = Ret z); [congruence|rewrite <- E'; exact E]). subst z'.
      exists z. split; [exact E|]. split; [exact W|]. destruct (J (or_introl eq_refl) (or_introl eq_refl)) as (JM & _ & JG & JH). cbn [jet_binary j_mean j_g j_h] in *.
      split; [etransitivity; [exact JM|]; now rewrite M1, M2|].
      split; intro v; [rewrite JG, G1, G2|rewrite JH, H1, H2]; lra.
    - destruct (IH1 (proj1 B)) as (z1 & -> & W1 & M1 & G1 & H1). destruct (IH2 (proj2 B)) as (z2 & -> & W2 & M2 & G2 & H2). cbn [bind].
      destruct (binary_wf2 (Z.of_nat k) env z1 z2 (nsub (u2mu z1) (u2mu z2)) (nofZ 1) (nofZ (-1)) (nofZ 0) (nofZ 0) (nofZ 0) W1 W2 HK) as (z & E & W).
      destruct (jet_binary_ok z1 z2 (u2mu z1 - u2mu z2) 1 (-1) 0 0 0 (proj1 W1) (proj1 W2) (wf2_below _ _ _ W1 HK) (wf2_below _ _ _ W2 HK)) as (z' & E' & _ & _ & J).
      assert (z' = z) by (cut (Ret z' = Ret z); [congruence|rewrite <- E'; exact E]). subst z'.
      exists z. split; [exact E|]. split; [exact W|]. destruct (J (or_introl eq_refl) (or_introl eq_refl)) as (JM & _ & JG & JH). cbn [jet_binary j_mean j_g j_h] in *.
      split; [etransitivity; [exact JM|]; now rewrite M1, M2|].
      split; intro v; [rewrite JG, G1, G2|rewrite JH, H1, H2]; lra.
    - destruct (IH1 (proj1 B)) as (z1 & -> & W1 & M1 & G1 & H1). destruct (IH2 (proj2 B)) as (z2 & -> & W2 & M2 & G2 & H2). cbn [bind].
      destruct (binary_wf2 (Z.of_nat k) env z1 z2 (nmul (u2mu z1) (u2mu z2)) (u2mu z2) (u2mu z1) (nofZ 0) (nofZ 0) (nofZ 1) W1 W2 HK) as (z & E & W).
      destruct (jet_binary_ok z1 z2 (u2mu z1 * u2mu z2) (u2mu z2) (u2mu z1) 0 0 1 (proj1 W1) (proj1 W2) (wf2_below _ _ _ W1 HK) (wf2_below _ _ _ W2 HK)) as (z' & E' & _ & _ & J).
      assert (z' = z) by (cut (Ret z' = Ret z); [congruence|rewrite <- E'; exact E]). subst z'.
      exists z. split; [exact E|]. split; [exact W|]. destruct (J (or_introl eq_refl) (or_introl eq_refl)) as (JM & _ & JG & JH). cbn [jet_binary j_mean j_g j_h] in *.
      rewrite M1, M2 in *.
      split; [exact JM|].
      split; intro v; [rewrite JG, G1, G2; ring|rewrite JH, H1, H2, !G1, !G2; field].
  Qed.
End Calc.

Lemma m1_sum (z : ureal2 RN) last env : wf2 last env z -> u2_m z 1 = Ret (rsum (upto last) (fun i => j_h (jet_of z) i i)).
Proof.
  intros W. destruct W as [OK MO]. change (u2_m z 1) with (@Ret RN (compute_m1 (u2hg z))). refine (f_equal (@Ret R) _).
  etransitivity; [exact (m1_ok z env OK)|].
  etransitivity; [symmetry; exact (m1_match (j_g (jet_of z)) (j_h (jet_of z)) env (map fst (diagmap (u2hg z))) (st_sorted z OK))|].
  apply (rsum_support Z.eq_dec).
  - exact (sorted_nodup _ (st_sorted z OK)).
  - apply upto_nodup.
  - intros i Hi Hn. destruct Hn. apply in_map_iff in Hi as ([j d] & <- & Hd). apply upto_in. exact (proj1 (MO j d Hd)).
  - intros i _ Hn. apply (proj2 (st_sup z OK)). now left.
Qed.

(** ** Expectations of polynomials of degree at most two *)
Section Unb.
  Variables (P : expect) (k : nat) (X : nat -> Om P -> R) (s t : nat -> R).
  Hypothesis U : uncorrelated P k X.
  Let L := seq 0 k.
  Let a (o : Om P) (v : nat) := t v + s v * X v o.

  Lemma deg0 e t1 t2 : qdeg e = 0%nat -> qeval e t1 = qeval e t2 /\ (forall v, qg e s t1 v = 0) /\ (forall v, qh e s t1 v = 0).
  Proof.
    revert t1 t2. induction e as [v|c|e1 IH1|e1 IH1 e2 IH2|e1 IH1 e2 IH2|e1 IH1 e2 IH2]; cbn [qdeg qeval qg qh]; intros t1 t2 D;
      [discriminate|auto|destruct (IH1 t1 t2 D) as (A & B & C); rewrite A; split; [auto|]; split; intro v; rewrite ?B, ?C; ring|..];
      (destruct (IH1 t1 t2 ltac:(lia)) as (A & B & C); destruct (IH2 t1 t2 ltac:(lia)) as (A' & B' & C');
       rewrite A, A'; split; [auto|]; split; intro v; rewrite ?B, ?C, ?B', ?C'; ring).
  Qed.
  Lemma deg1 e : (qdeg e <= 1)%nat -> qvars_below k e ->
    (forall t1 t2 v, qg e s t1 v = qg e s t2 v) /\ (forall t1 v, qh e s t1 v = 0) /\
    (forall o, qeval e (a o) = qeval e t + rsum L (fun v => qg e s t v * X v o)).
  Proof.
    induction e as [v|c|e1 IH1|e1 IH1 e2 IH2|e1 IH1 e2 IH2|e1 IH1 e2 IH2]; cbn [qdeg qeval qg qh qvars_below]; intros D B.
    - split; [auto|]. split; [auto|]. intro o. unfold a at 1. f_equal.
      rewrite (rsum_single Nat.eq_dec L _ v); [now rewrite Nat.eqb_refl|apply seq_NoDup|apply in_seq; lia|].
      intros u _ Hu. destruct (Nat.eqb_spec u v); [contradiction|ring].
    - split; [auto|]. split; [auto|]. intro o. rewrite rsum_zero; [ring|]. intros; ring.
    - destruct (IH1 D B) as (G & H & E). split; [intros; now rewrite (G t1 t2)|]. split; [intros; rewrite H; ring|].
      intro o. rewrite E. rewrite (rsum_ext L (fun v => - qg e1 s t v * X v o) (fun v => - (qg e1 s t v * X v o))) by (intros; ring).
      rewrite rsum_opp. ring.
    - destruct (IH1 ltac:(lia) (proj1 B)) as (G & H & E). destruct (IH2 ltac:(lia) (proj2 B)) as (G' & H' & E').
      split; [intros; now rewrite (G t1 t2), (G' t1 t2)|]. split; [intros; rewrite H, H'; ring|].
      intro o. rewrite E, E'. rewrite (rsum_ext L (fun v => (qg e1 s t v + qg e2 s t v) * X v o) (fun v => qg e1 s t v * X v o + qg e2 s t v * X v o)) by (intros; ring).
      rewrite rsum_plus. ring.
    - destruct (IH1 ltac:(lia) (proj1 B)) as (G & H & E). destruct (IH2 ltac:(lia) (proj2 B)) as (G' & H' & E').
      split; [intros; now rewrite (G t1 t2), (G' t1 t2)|]. split; [intros; rewrite H, H'; ring|].
      intro o. rewrite E, E'. rewrite (rsum_ext L (fun v => (qg e1 s t v - qg e2 s t v) * X v o) (fun v => qg e1 s t v * X v o - qg e2 s t v * X v o)) by (intros; ring).
      rewrite rsum_minus. ring.
    - destruct (IH1 ltac:(lia) (proj1 B)) as (G & H & E). destruct (IH2 ltac:(lia) (proj2 B)) as (G' & H' & E').
      destruct (Nat.eq_dec (qdeg e1) 0) as [Z|Z].
      + assert (Q := fun t1 => deg0 e1 t1 t Z). split.
        { intros t1 t2 v. destruct (Q t1) as (-> & -> & _). destruct (Q t2) as (-> & -> & _). rewrite (G' t1 t2). ring. }
        split. { intros t1 v. destruct (Q t1) as (-> & -> & ->). rewrite H'. ring. }
        intro o. destruct (Q t) as (_ & Q1 & _). destruct (Q (a o)) as (-> & _ & _). rewrite E'.
        rewrite (rsum_ext L (fun v => (qeval e2 t * qg e1 s t v + qeval e1 t * qg e2 s t v) * X v o) (fun v => qeval e1 t * (qg e2 s t v * X v o))) by (intros; rewrite Q1; ring).
        rewrite rsum_scal. ring.
      + assert (Z' : qdeg e2 = 0%nat) by lia. assert (Q := fun t1 => deg0 e2 t1 t Z'). split.
        { intros t1 t2 v. destruct (Q t1) as (-> & -> & _). destruct (Q t2) as (-> & -> & _). rewrite (G t1 t2). ring. }
        split. { intros t1 v. destruct (Q t1) as (-> & -> & ->). rewrite H. ring. }
        intro o. destruct (Q t) as (_ & Q1 & _). destruct (Q (a o)) as (-> & _ & _). rewrite E.
        rewrite (rsum_ext L (fun v => (qeval e2 t * qg e1 s t v + qeval e1 t * qg e2 s t v) * X v o) (fun v => qeval e2 t * (qg e1 s t v * X v o))) by (intros; rewrite Q1; ring).
        rewrite rsum_scal. ring.
  Qed.

  Lemma lin (g : nat -> R) : int P (fun o => rsum L (fun v => g v * X v o)) /\ Ex P (fun o => rsum L (fun v => g v * X v o)) = 0.
  Proof.
    destruct (Ex_rsum P L (fun v o => g v * X v o) (fun _ => 0)) as [I E].
    - intros v Hv. apply in_seq in Hv. destruct (proj1 U v ltac:(lia)) as [I E]. destruct (Ex_scal P (g v) _ I) as [I' E'].
      split; [exact I'|]. rewrite E', E. ring.
    - split; [exact I|]. rewrite E. now apply rsum_zero.
  Qed.
  Lemma bilin (g h : nat -> R) : int P (fun o => rsum L (fun v => g v * X v o) * rsum L (fun v => h v * X v o)) /\
    Ex P (fun o => rsum L (fun v => g v * X v o) * rsum L (fun v => h v * X v o)) = rsum L (fun v => g v * h v).
  Proof.
    assert (Q : forall o, rsum L (fun u => rsum L (fun v => g u * h v * (X u o * X v o))) = rsum L (fun v => g v * X v o) * rsum L (fun v => h v * X v o)).
    { intro o. rewrite <- rsum_scal_r. apply rsum_ext. intros u _. rewrite <- rsum_scal. apply rsum_ext. intros v _. ring. }
    destruct (Ex_rsum P L (fun u o => rsum L (fun v => g u * h v * (X u o * X v o))) (fun u => g u * h u)) as [I E].
    - intros u Hu. destruct (Ex_rsum P L (fun v o => g u * h v * (X u o * X v o)) (fun v => if Nat.eqb u v then g u * h v else 0)) as [I E].
      + intros v Hv. apply in_seq in Hu. apply in_seq in Hv. destruct (proj2 U u v ltac:(lia) ltac:(lia)) as [I E].
        destruct (Ex_scal P (g u * h v) _ I) as [I' E']. split; [exact I'|]. rewrite E', E. destruct (Nat.eqb u v); ring.
      + split; [exact I|]. rewrite E. rewrite (rsum_single Nat.eq_dec L _ u); [now rewrite Nat.eqb_refl|apply seq_NoDup|exact Hu|].
        intros v _ Hv. destruct (Nat.eqb_spec u v); [congruence|reflexivity].
    - destruct (Ex_ext P _ _ Q I) as [I' E']. split; [exact I'|]. now rewrite <- E', E.
  Qed.

  Lemma deg2 e : (qdeg e <= 2)%nat -> qvars_below k e ->
    (forall t1 t2 v, qh e s t1 v = qh e s t2 v) /\
    (int P (fun o => qeval e (a o)) /\ Ex P (fun o => qeval e (a o)) = qeval e t + rsum L (qh e s t)).
  Proof.
    assert (D1 : forall e, (qdeg e <= 1)%nat -> qvars_below k e -> int P (fun o => qeval e (a o)) /\ Ex P (fun o => qeval e (a o)) = qeval e t).
    { clear e. intros e D B. destruct (deg1 e D B) as (_ & _ & E). destruct (lin (qg e s t)) as [I1 E1]. destruct (Ex_const P (qeval e t)) as [I2 E2].
      destruct (Ex_plus P _ _ I2 I1) as [I3 E3]. destruct (Ex_ext P _ _ (fun o => eq_sym (E o)) I3) as [I4 E4]. split; [exact I4|].
      rewrite <- E4, E3, E1, E2. ring. }
    induction e as [v|c|e1 IH1|e1 IH1 e2 IH2|e1 IH1 e2 IH2|e1 IH1 e2 IH2]; intros D B.
    - split; [auto|]. destruct (D1 (QVar v) ltac:(cbn; lia) B) as [I E]. split; [exact I|]. rewrite E. cbn [qh]. rewrite rsum_zero; [ring|auto].
    - split; [auto|]. destruct (D1 (QConst c) ltac:(cbn; lia) B) as [I E]. split; [exact I|]. rewrite E. cbn [qh]. rewrite rsum_zero; [ring|auto].
    - cbn [qdeg qvars_below] in *. destruct (IH1 D B) as (H & I & E). split; [intros; cbn [qh]; now rewrite (H t1 t2)|].
      destruct (Ex_scal P (-1) _ I) as [I' E']. cbn [qeval].
      assert (Q : forall o, -1 * qeval e1 (a o) = - qeval e1 (a o)) by (intro; ring).
      destruct (Ex_ext P _ _ Q I') as [I2 E2]. split; [exact I2|]. rewrite <- E2, E', E. cbn [qh].
      rewrite rsum_opp. ring.
    - cbn [qdeg qvars_below] in *. destruct (IH1 ltac:(lia) (proj1 B)) as (H & I & E). destruct (IH2 ltac:(lia) (proj2 B)) as (H' & I' & E').
      split; [intros; cbn [qh]; now rewrite (H t1 t2), (H' t1 t2)|]. cbn [qeval].
      destruct (Ex_plus P _ _ I I') as [I2 E2]. split; [exact I2|]. rewrite E2, E, E'. cbn [qh]. rewrite rsum_plus. ring.
    - cbn [qdeg qvars_below] in *. destruct (IH1 ltac:(lia) (proj1 B)) as (H & I & E). destruct (IH2 ltac:(lia) (proj2 B)) as (H' & I' & E').
      split; [intros; cbn [qh]; now rewrite (H t1 t2), (H' t1 t2)|]. cbn [qeval].
      destruct (Ex_scal P (-1) _ I') as [I3 E3]. destruct (Ex_plus P _ _ I I3) as [I2 E2].
      assert (Q : forall o, qeval e1 (a o) + -1 * qeval e2 (a o) = qeval e1 (a o) - qeval e2 (a o)) by (intro; ring).
      destruct (Ex_ext P _ _ Q I2) as [I4 E4]. split; [exact I4|]. rewrite <- E4, E2, E3, E, E'. cbn [qh]. rewrite rsum_minus. ring.
    - cbn [qdeg qvars_below] in *. cbn [qeval qh].
      destruct (Nat.eq_dec (qdeg e1) 0) as [Z|Z]; [|destruct (Nat.eq_dec (qdeg e2) 0) as [Z'|Z']].
      + assert (Q := fun t1 => deg0 e1 t1 t Z). destruct (IH2 ltac:(lia) (proj2 B)) as (H & I & E). split.
        * intros t1 t2 v. destruct (Q t1) as (-> & -> & ->). destruct (Q t2) as (-> & -> & ->). rewrite (H t1 t2). ring.
        * destruct (Ex_scal P (qeval e1 t) _ I) as [I2 E2].
          assert (Q' : forall o, qeval e1 t * qeval e2 (a o) = qeval e1 (a o) * qeval e2 (a o)) by (intro o; now rewrite (proj1 (Q (a o)))).
          destruct (Ex_ext P _ _ Q' I2) as [I3 E3]. split; [exact I3|]. rewrite <- E3, E2, E. destruct (Q t) as (_ & Q1 & Q2).
          rewrite (rsum_ext L (fun v => _ + _ + _) (fun v => qeval e1 t * qh e2 s t v)) by (intros; rewrite Q1, Q2; ring). rewrite rsum_scal. ring.
      + assert (Q := fun t1 => deg0 e2 t1 t Z'). destruct (IH1 ltac:(lia) (proj1 B)) as (H & I & E). split.
        * intros t1 t2 v. destruct (Q t1) as (-> & -> & ->). destruct (Q t2) as (-> & -> & ->). rewrite (H t1 t2). ring.
        * destruct (Ex_scal P (qeval e2 t) _ I) as [I2 E2].
          assert (Q' : forall o, qeval e2 t * qeval e1 (a o) = qeval e1 (a o) * qeval e2 (a o)) by (intro o; rewrite (proj1 (Q (a o))); ring).
          destruct (Ex_ext P _ _ Q' I2) as [I3 E3]. split; [exact I3|]. rewrite <- E3, E2, E. destruct (Q t) as (_ & Q1 & Q2).
          rewrite (rsum_ext L (fun v => _ + _ + _) (fun v => qeval e2 t * qh e1 s t v)) by (intros; rewrite Q1, Q2; ring). rewrite rsum_scal. ring.
      + destruct (deg1 e1 ltac:(lia) (proj1 B)) as (G & H & E). destruct (deg1 e2 ltac:(lia) (proj2 B)) as (G' & H' & E'). split.
        * intros t1 t2 v. rewrite !H, !H', (G t1 t2), (G' t1 t2). ring.
        * set (f := fun o => rsum L (fun v => qg e1 s t v * X v o)) in *. set (g := fun o => rsum L (fun v => qg e2 s t v * X v o)) in *.
          destruct (lin (qg e1 s t)) as [I1 F1]. destruct (lin (qg e2 s t)) as [I2 F2]. destruct (bilin (qg e1 s t) (qg e2 s t)) as [I3 F3].
          fold f in I1, F1. fold g in I2, F2. change (int P (fun o => f o * g o)) in I3. change (Ex P (fun o => f o * g o) = rsum L (fun v => qg e1 s t v * qg e2 s t v)) in F3.
          destruct (Ex_const P (qeval e1 t * qeval e2 t)) as [I0 F0].
          destruct (Ex_scal P (qeval e2 t) _ I1) as [I1' F1']. destruct (Ex_scal P (qeval e1 t) _ I2) as [I2' F2'].
          destruct (Ex_plus P _ _ I0 I1') as [J1 K1]. destruct (Ex_plus P _ _ J1 I2') as [J2 K2]. destruct (Ex_plus P _ _ J2 I3) as [J3 K3].
          assert (Q : forall o, qeval e1 t * qeval e2 t + qeval e2 t * f o + qeval e1 t * g o + f o * g o = qeval e1 (a o) * qeval e2 (a o)).
          { intro o. rewrite E, E'. fold (f o). fold (g o). ring. }
          destruct (Ex_ext P _ _ Q J3) as [J4 K4]. split; [exact J4|]. rewrite <- K4, K3, K2, K1, F0, F1', F2', F1, F2, F3.
          rewrite (rsum_ext L (fun v => _ + _ + _) (fun v => qg e1 s t v * qg e2 s t v)) by (intros; rewrite H, H'; ring). ring.
  Qed.
End Unb.

Lemma C32_unbiased_estimate_proof : forall eig (k : nat) (t s : nat -> R) (m : nat -> moms RN) (thr : nat -> R)
    (P : prob) (X : nat -> Om P -> R) (e : qexp),
  (k <= max_new)%nat -> uncorrelated P k X ->
  (forall v n, (v < k)%nat -> exists x, snd (u2_new_std eig 0 (n : RN) (s v : RN) (m v) (thr v : RN)) = Ret x) ->
  qvars_below k e -> (qdeg e <= 2)%nat ->
  exists est : Om P -> R,
    (forall o, exists w z,
       run2 eig w2_init (measure k (fun v => t v + s v * X v o) s m thr) = Ret w /\
       qcalc (w2_var w) e = Ret z /\ u2_n PropEst z = Ret (est o)) /\
    int P est /\ Ex P est = qeval e t.
Proof.
  intros eig k t s m thr P X e HK U OKs B D.
  assert (HK' : (Z.of_nat k < maxid)%Z) by now apply max_new_lt.
  set (a := fun o v => t v + s v * X v o).
  destruct (deg2 P k X s t U e D B) as (H & I & E).
  exists (fun o => qeval e (a o) + -1 * rsum (seq 0 k) (qh e s t)). split.
  - intro o. destruct (meas_run eig k (a o) s m thr HK' (fun v Hv => OKs v (a o v) Hv) k 0 w2_init eq_refl eq_refl) as (w & Er & _ & Hw); [intros; lia|].
    destruct (calc_ok k (a o) s m (w2_var w) HK' Hw e B) as (z & Ez & W & M & _ & HH).
    exists w, z. split; [exact Er|]. split; [exact Ez|]. unfold u2_n. rewrite (m1_sum z _ _ W), upto_idv, rsum_map. cbn [bind propsign].
    refine (f_equal (@Ret R) _). cbn [nadd nmul nofZ RN]. change (T RN) with R in *. rewrite M. f_equal. f_equal.
    apply rsum_ext. intros v _. rewrite HH. apply H.
  - destruct (Ex_const P (-1 * rsum (seq 0 k) (qh e s t))) as [I2 E2]. destruct (Ex_plus P _ _ I I2) as [I3 E3]. split; [exact I3|].
    etransitivity; [exact E3|]. etransitivity; [exact (f_equal2 Rplus E E2)|]. ring.
Qed.
