(** * MomStats: consequences for the statistics of reachable variables *)

From Coq Require Import List ZArith Bool Reals Lra Lia Psatz.
From Verif Require Import Base Num Map UReal World HessGrad Moments CheckMoments UReal2 HessProofs U2Facts World2 U2World SpecObs SpecU2Run U2Proofs U2Proofs2.
From Verif Require Import URealFacts URealProofs Sums URealR SpecU2 U2Values U2Ret SpecProb SpecMom MomSums MomSpec MomPoly MomCode MomProofs MomCov MomGiven MomDeg MomProd.
Import ListNotations.
Local Open Scope R_scope.

(** ** A model for all the variables of a world *)
Definition upto (last : Z) : list Z := map Z.of_nat (seq 1 (Z.to_nat last)).
Lemma upto_nodup last : NoDup (upto last).
Proof. apply FinFun.Injective_map_NoDup; [intros a b H; lia|apply seq_NoDup]. Qed.
Lemma upto_in last i : (1 <= i <= last)%Z -> In i (upto last).
Proof.
  intro H. unfold upto. apply in_map_iff. exists (Z.to_nat i). split; [lia|]. apply in_seq. lia.
Qed.
Lemma wf2_sup last env (x : ureal2 RN) ids : wf2 last env x -> (forall i, (1 <= i <= last)%Z -> In i ids) ->
  qsup ids (j_g (jet_of x), j_h (jet_of x)).
Proof.
  intros [OK MO] H. assert (K : forall i, In i (map fst (diagmap (u2hg x))) -> In i ids).
  { intros i Hi. apply in_map_iff in Hi as ([k d] & <- & Hd). apply H. destruct (MO k d Hd). cbn. lia. }
  destruct (st_sup x OK) as [A B]. cbn [fst snd] in *. split; cbn [fst snd].
  - intros i Hi. apply A. intro Q. apply Hi, K, Q.
  - intros i j Hij. apply B. destruct Hij; [left|right]; intro Q; auto.
Qed.

Section World.
  Variables (last : Z) (env : Z -> moms RN).
  Lemma world_model : exists (P : expect) (X : Z -> Om P -> R),
    independent P (upto last) X (fun i => stdmom (env i)).
  Proof. apply signed_family; [apply upto_nodup|reflexivity]. Qed.

  Section Model.
    Variables (P : expect) (X : Z -> Om P -> R).
    Hypothesis IND : independent P (upto last) X (fun i => stdmom (env i)).
    Definition Yw (x : ureal2 RN) : Om P -> R := Yv x P (upto last) X.
    Definition Zw (x : ureal2 RN) (o : Om P) : R := Yw x o - Ex P (Yw x).

    Lemma w_m1 x : wf2 last env x -> int P (Yw x) /\ u2_m x 1 = Ret (Ex P (Yw x) - j_mean (jet_of x)).
    Proof.
      intros W. assert (S := wf2_sup last env x (upto last) W (upto_in last)). destruct W as [OK MO].
      split.
      - exact (proj1 (exY x env P _ X _ OK (upto_nodup last) IND (fun _ _ _ _ _ => eq_refl) S)).
      - exact (u2_m1 x env P _ X _ OK (fun i d H => proj2 (MO i d H)) (upto_nodup last) IND (fun _ _ _ _ _ => eq_refl) S).
    Qed.
    Lemma w_mc x n : wf2 last env x -> (2 <= n <= 4)%nat -> u2_m x (Z.of_nat n) = Ret (Ex P (fun o => Zw x o ^ n)).
    Proof.
      intros W Hn. assert (S := wf2_sup last env x (upto last) W (upto_in last)). destruct W as [OK MO].
      exact (u2_mc x env P _ X _ OK (fun i d H => proj2 (MO i d H)) (upto_nodup last) IND (fun _ _ _ _ _ => eq_refl) S n Hn).
    Qed.
    Lemma w_int x n : wf2 last env x -> (n <= 4)%nat -> int P (fun o => Zw x o ^ n).
    Proof.
      intros W Hn. assert (S := wf2_sup last env x (upto last) W (upto_in last)). destruct W as [OK MO].
      exact (proj1 (central x env P _ X _ OK (upto_nodup last) IND (fun _ _ _ _ _ => eq_refl) S n Hn)).
    Qed.
    Lemma w_mean0 x : wf2 last env x -> Ex P (fun o => Zw x o ^ 1) = 0.
    Proof.
      intros W. assert (S := wf2_sup last env x (upto last) W (upto_in last)). destruct W as [OK MO].
      exact (proj2 (central x env P _ X _ OK (upto_nodup last) IND (fun _ _ _ _ _ => eq_refl) S 1 ltac:(lia))).
    Qed.
    Lemma w_cov x y : wf2 last env x -> wf2 last env y ->
      int P (fun o => Zw x o * Zw y o) /\ u2_cov x y = Ret (Ex P (fun o => Zw x o * Zw y o)).
    Proof.
      intros Wx Wy. assert (Sx := wf2_sup last env x (upto last) Wx (upto_in last)).
      assert (Sy := wf2_sup last env y (upto last) Wy (upto_in last)). destruct Wx as [OKx MOx], Wy as [OKy MOy].
      exact (cov_ok x y env OKx OKy (fun i d H => proj2 (MOx i d H)) (fun i d H => proj2 (MOy i d H)) P _ X _ (upto_nodup last) IND (fun _ _ _ _ _ => eq_refl) (fun _ _ _ _ _ => eq_refl) Sx Sy).
    Qed.
  End Model.

  Lemma cov_sym x y : wf2 last env x -> wf2 last env y -> exists c, u2_cov x y = Ret c /\ u2_cov y x = Ret c.
  Proof.
    intros Wx Wy. destruct world_model as (P & X & IND).
    destruct (w_cov P X IND x y Wx Wy) as [I E]. destruct (w_cov P X IND y x Wy Wx) as [I' E'].
    exists (Ex P (fun o => Zw P X x o * Zw P X y o)). split; [exact E|]. rewrite E'. refine (f_equal (@Ret _) _).
    exact (proj2 (Ex_ext P _ _ (fun o => Rmult_comm _ _) I')).
  Qed.
  Lemma cov_self x : wf2 last env x -> u2_cov x x = u2_var x.
  Proof.
    intros W. destruct world_model as (P & X & IND).
    destruct (w_cov P X IND x x W W) as [I E]. rewrite E. unfold u2_var.
    change 2%Z with (Z.of_nat 2). rewrite (w_mc P X IND x 2 W ltac:(lia)). refine (f_equal (@Ret _) _). refine (proj2 (Ex_ext P _ _ _ I)). intro o; cbn; ring.
  Qed.
  Lemma all_ret x n : wf2 last env x -> (1 <= n <= 4)%nat -> exists m, u2_m x (Z.of_nat n) = Ret m.
  Proof.
    intros W Hn. destruct world_model as (P & X & IND). destruct (Nat.eq_dec n 1) as [->|].
    - change (Z.of_nat 1) with 1%Z. rewrite (proj2 (w_m1 P X IND x W)). eauto.
    - rewrite (w_mc P X IND x n W ltac:(lia)). eauto.
  Qed.
End World.

Lemma reach_env eig (w : world2 RN) : reachable2 eig w -> exists env, forall v, wf2 (w2_last w) env (w2_var w v).
Proof.
  intros Hr. destruct (reachable2_wf Rltb_00 eig w Hr) as (env & [_ W] & B). eauto.
Qed.

Lemma C29_covariance_symmetric_proof : forall eig (w : world2 RN), reachable2 eig w -> forall u v,
  let x := w2_var w u in let y := w2_var w v in
  (exists c, u2_cov x y = Ret c /\ u2_cov y x = Ret c) /\ u2_cov x x = u2_var x /\
  (exists r, u2_var x = Ret r /\ u2_s x = Ret (sqrt r)) /\
  exists c sx sy, u2_cov x y = Ret c /\ u2_s x = Ret sx /\ u2_s y = Ret sy /\ u2_corr x y = Ret (c / (sx * sy)).
Proof.
  intros eig w Hr u v x y. destruct (reach_env eig w Hr) as (env & W).
  destruct (cov_sym _ env x y (W u) (W v)) as (c & E1 & E2).
  destruct (all_ret _ env x 2 (W u) ltac:(lia)) as (m & Em). destruct (all_ret _ env y 2 (W v) ltac:(lia)) as (m' & Em').
  change (Z.of_nat 2) with 2%Z in *.
  assert (Sx : u2_s x = Ret (sqrt m)) by (unfold u2_s; rewrite Em; reflexivity).
  assert (Sy : u2_s y = Ret (sqrt m')) by (unfold u2_s; rewrite Em'; reflexivity).
  split; [eauto|]. split; [exact (cov_self _ env x (W u))|]. split; [exists m; auto|].
  exists c, (sqrt m), (sqrt m'). repeat split; auto. unfold u2_corr. rewrite E1. cbn [bind]. rewrite Sx. cbn [bind]. rewrite Sy. reflexivity.
Qed.

(** ** Validity of the moments *)
Section Pos.
  Variables (P : prob) (A : Om P -> R).
  Hypothesis IA : forall n, (n <= 4)%nat -> int P (fun o => A o ^ n).
  Hypothesis A1 : Ex P (fun o => A o ^ 1) = 0.
  Let m n := Ex P (fun o => A o ^ n).

  Lemma pos_m2 : 0 <= m 2.
  Proof. apply Ex_pos; [apply IA; lia|]. intro o. cbn. nra. Qed.
  Lemma pos_m4 : 0 <= m 4.
  Proof. apply Ex_pos; [apply IA; lia|]. intro o. replace (A o ^ 4) with ((A o ^ 2) ^ 2) by ring. apply pow2_ge_0. Qed.

  Lemma pos_quartic a b c : 0 <= a ^ 2 + 2 * a * b * 0 + (b ^ 2 + 2 * a * c) * m 2 + 2 * b * c * m 3 + c ^ 2 * m 4.
  Proof.
    destruct (Ex_poly P A IA (a ^ 2) (2 * a * b) (b ^ 2 + 2 * a * c) (2 * b * c) (c ^ 2)) as [I E].
    rewrite A1 in E. fold (m 2) (m 3) (m 4) in E. rewrite <- E. apply Ex_pos; [exact I|]. intro o.
    match goal with |- 0 <= ?t => replace t with ((a + b * A o + c * A o ^ 2) ^ 2) by ring end. apply pow2_ge_0.
  Qed.

  Lemma pos_m4_bound : m 2 ^ 3 + m 3 ^ 2 <= m 4 * m 2.
  Proof.
    assert (P2 := pos_m2). assert (P4 := pos_m4).
    destruct (Req_dec (m 2) 0) as [E|NE].
    - assert (m 3 = 0).
      { destruct (Req_dec (m 4) 0) as [E4|N4].
        - assert (Q := pos_quartic 0 1 (- m 3)). rewrite E, E4 in Q. nra.
        - assert (Q := pos_quartic 0 1 (- m 3 / m 4)). rewrite E in Q.
          replace (0 ^ 2 + 2 * 0 * 1 * 0 + (1 ^ 2 + 2 * 0 * (- m 3 / m 4)) * 0 + 2 * 1 * (- m 3 / m 4) * m 3 + (- m 3 / m 4) ^ 2 * m 4)
            with (- (m 3 ^ 2 / m 4)) in Q by (field; exact N4).
          assert (0 < m 4) by lra. assert (0 <= m 3 ^ 2) by apply pow2_ge_0.
          assert (0 <= m 3 ^ 2 / m 4) by (apply Rmult_le_pos; [assumption|]; left; now apply Rinv_0_lt_compat).
          assert (Z : m 3 ^ 2 / m 4 = 0) by lra. apply (f_equal (fun t => t * m 4)) in Z. unfold Rdiv in Z.
          rewrite Rmult_assoc, Rinv_l, Rmult_1_r in Z by exact N4. nra. }
      rewrite E, H. lra.
    - assert (Q := pos_quartic (- m 2 ^ 2) (- m 3) (m 2)).
      assert (Q' : 0 <= m 2 * (m 4 * m 2 - m 3 ^ 2 - m 2 ^ 3)) by (eapply Rle_trans; [exact Q|right; ring]).
      assert (0 < m 2) by lra. assert (0 <= m 4 * m 2 - m 3 ^ 2 - m 2 ^ 3); [|lra].
      apply (Rmult_le_reg_l (m 2)); [assumption|]. lra.
  Qed.

  Variable B : Om P -> R.
  Hypothesis IB : int P (fun o => B o ^ 2).
  Hypothesis IAB : int P (fun o => A o * B o).
  Lemma pos_cs : Ex P (fun o => A o * B o) ^ 2 <= m 2 * Ex P (fun o => B o ^ 2).
  Proof.
    set (c := Ex P (fun o => A o * B o)). set (b := Ex P (fun o => B o ^ 2)).
    assert (G : forall s t, 0 <= s ^ 2 * m 2 + 2 * s * t * c + t ^ 2 * b).
    { intros s t.
      destruct (Ex_scal P (s ^ 2) _ (IA 2 ltac:(lia))) as [I1 E1].
      destruct (Ex_scal P (2 * s * t) _ IAB) as [I2 E2].
      destruct (Ex_scal P (t ^ 2) _ IB) as [I3 E3].
      destruct (Ex_plus P _ _ I1 I2) as [J1 F1]. destruct (Ex_plus P _ _ J1 I3) as [J2 F2].
      rewrite F1, E1, E2, E3 in F2. fold (m 2) c b in F2. rewrite <- F2. apply Ex_pos; [exact J2|].
      intro o. match goal with |- 0 <= ?u => replace u with ((s * A o + t * B o) ^ 2) by ring end. apply pow2_ge_0. }
    assert (0 <= b) by (apply Ex_pos; [exact IB|intro; apply pow2_ge_0]).
    assert (P2 := pos_m2).
    destruct (Req_dec b 0) as [Eb|Nb].
    - destruct (Req_dec (m 2) 0) as [Em|Nm].
      + assert (G1 := G 1 1). assert (G2 := G 1 (-1)). rewrite Eb, Em in *. assert (c = 0) by lra. rewrite H0. lra.
      + assert (Q := G c (- m 2)). rewrite Eb in *. assert (0 < m 2) by lra.
        assert (0 <= m 2 * - c ^ 2) by (eapply Rle_trans; [exact Q|right; ring]).
        apply (Rmult_le_reg_l (m 2)); [assumption|]. lra.
    - assert (Q := G b (- c)). assert (0 < b) by lra.
      assert (0 <= b * (m 2 * b - c ^ 2)) by (eapply Rle_trans; [exact Q|right; ring]).
      assert (0 <= m 2 * b - c ^ 2); [|lra]. apply (Rmult_le_reg_l b); [assumption|]. lra.
  Qed.
End Pos.

Section Actual.
  Variables (eig : list (list RN) -> option (list RN)) (cs : list (call2 RN)) (w : world2 RN).
  Hypothesis L : legal2 cs.
  Hypothesis Er : run2 eig w2_init cs = Ret w.
  Hypothesis HR : forall i s m, given eig w2_init cs i = Some (s, m) -> s <> 0 -> realizable m.

  Lemma actual_model : exists (P : prob) (ids : list Z) (X : Z -> Om P -> R) (M : Z -> moms RN), NoDup ids /\
    independent P ids X (fun i => stdmom (M i)) /\
    (forall i, In i ids -> exists s, s <> 0 /\ given eig w2_init cs i = Some (s, M i)) /\
    (forall i s m, given eig w2_init cs i = Some (s, m) -> s <> 0 -> In i ids) /\
    forall v, involves_only (jet_of (w2_var w v)) ids.
  Proof.
    destruct (given_env eig cs w L Er) as (env & _ & G & B).
    set (M := fun i => match given eig w2_init cs i with Some (_, m) => m | None => mkM n0 n0 n0 n0 n0 n0 end).
    set (nd := fun i => match given eig w2_init cs i with Some (s, _) => negb (Reqb s 0) | None => false end).
    set (ids := filter nd (upto (w2_last w))).
    assert (H1 : forall i, In i ids -> exists s, s <> 0 /\ given eig w2_init cs i = Some (s, M i)).
    { intros i Hi. apply filter_In in Hi as [_ Hi]. unfold nd in Hi. unfold M. destruct (given eig w2_init cs i) as [[s m]|]; [|discriminate].
      exists s. split; [|reflexivity]. intros ->. rewrite (proj2 (Reqb_true 0 0) eq_refl) in Hi. discriminate. }
    assert (H2 : forall i s m, given eig w2_init cs i = Some (s, m) -> s <> 0 -> In i ids).
    { intros i s m Hg Hs. apply filter_In. split; [apply upto_in, (G i s m Hg)|]. unfold nd. rewrite Hg.
      now rewrite (proj2 (Reqb_false s 0) Hs). }
    assert (ND : NoDup ids) by apply NoDup_filter, upto_nodup.
    destruct (prob_family ids M ND) as (P & X & IND).
    { intros i Hi. destruct (H1 i Hi) as (s & Hs & Hg). exact (HR i s _ Hg Hs). }
    exists P, ids, X, M. split; [exact ND|]. split; [exact IND|]. split; [exact H1|]. split; [exact H2|].
    exact (C28_only_given_variables_proof eig cs w L Er ids H2).
  Qed.

  Lemma valid_moments v : let x := w2_var w v in exists m2 m3 m4, u2_m x 2 = Ret m2 /\ u2_m x 3 = Ret m3 /\ u2_m x 4 = Ret m4 /\
    0 <= m2 /\ m2 ^ 3 + m3 ^ 2 <= m4 * m2.
  Proof.
    intro x. destruct actual_model as (P & ids & X & M & ND & IND & H1 & _ & HI).
    destruct (run_moments eig cs w L Er P ids X M ND IND H1 v (HI v)) as (IY & _ & HC).
    set (A := fun o => value (jet_of (w2_var w v)) ids X o - Ex P (value (jet_of (w2_var w v)) ids X)).
    assert (IA1 : int P (fun o => A o ^ 1) /\ Ex P (fun o => A o ^ 1) = 0).
    { destruct (Ex_const P (- Ex P (value (jet_of (w2_var w v)) ids X))) as [I0 E0].
      destruct (Ex_plus P _ _ IY I0) as [I E].
      apply (Ex_eq P (fun o => value (jet_of (w2_var w v)) ids X o + - Ex P (value (jet_of (w2_var w v)) ids X))); [intro o; unfold A; ring|].
      split; [exact I|]. rewrite E, E0. ring. }
    assert (IA : forall n, (n <= 4)%nat -> int P (fun o => A o ^ n)).
    { intros n Hn. destruct n as [|[|n]]; [apply (Ex_const P 1)|apply IA1|]. apply HC; lia. }
    exists (Ex P (fun o => A o ^ 2)), (Ex P (fun o => A o ^ 3)), (Ex P (fun o => A o ^ 4)).
    split; [exact (proj2 (HC 2%nat ltac:(lia)))|]. split; [exact (proj2 (HC 3%nat ltac:(lia)))|]. split; [exact (proj2 (HC 4%nat ltac:(lia)))|].
    split; [exact (pos_m2 P A IA)|]. exact (pos_m4_bound P A IA (proj2 IA1)).
  Qed.

  Lemma valid_cov u v : let x := w2_var w u in let y := w2_var w v in exists c vx vy,
    u2_cov x y = Ret c /\ u2_var x = Ret vx /\ u2_var y = Ret vy /\ c ^ 2 <= vx * vy.
  Proof.
    intros x y. destruct actual_model as (P & ids & X & M & ND & IND & H1 & _ & HI).
    destruct (run_moments eig cs w L Er P ids X M ND IND H1 u (HI u)) as (IYu & _ & HCu).
    destruct (run_moments eig cs w L Er P ids X M ND IND H1 v (HI v)) as (_ & _ & HCv).
    destruct (run_cov eig cs w L Er P ids X M ND IND H1 u v (HI u) (HI v)) as (IC & HC).
    set (A := fun o => value (jet_of (w2_var w u)) ids X o - Ex P (value (jet_of (w2_var w u)) ids X)).
    set (B := fun o => value (jet_of (w2_var w v)) ids X o - Ex P (value (jet_of (w2_var w v)) ids X)).
    assert (IA : forall n, (n <= 4)%nat -> int P (fun o => A o ^ n)).
    { intros n Hn. destruct n as [|[|n]]; [apply (Ex_const P 1)| |apply HCu; lia].
      destruct (Ex_const P (- Ex P (value (jet_of (w2_var w u)) ids X))) as [I0 E0].
      destruct (Ex_plus P _ _ IYu I0) as [I E].
      apply (Ex_ext P (fun o => value (jet_of (w2_var w u)) ids X o + - Ex P (value (jet_of (w2_var w u)) ids X))); [intro o; unfold A; ring|].
      exact I. }
    exists (Ex P (fun o => A o * B o)), (Ex P (fun o => A o ^ 2)), (Ex P (fun o => B o ^ 2)).
    split; [exact HC|]. split; [exact (proj2 (HCu 2%nat ltac:(lia)))|]. split; [exact (proj2 (HCv 2%nat ltac:(lia)))|].
    apply (pos_cs P A IA B); [exact (proj1 (HCv 2%nat ltac:(lia)))|exact IC].
  Qed.
End Actual.

Lemma C28_model_exists_proof : forall eig (cs : list (call2 RN)) (w : world2 RN),
  legal2 cs -> run2 eig w2_init cs = Ret w ->
  (forall i s m, given eig w2_init cs i = Some (s, m) -> s <> 0 -> realizable m) ->
  exists (P : prob) (ids : list Z) (X : Z -> Om P -> R) (M : Z -> moms RN), NoDup ids /\
    independent P ids X (fun i => stdmom (M i)) /\
    (forall i, In i ids <-> exists s, s <> 0 /\ given eig w2_init cs i = Some (s, M i)) /\
    forall v, involves_only (jet_of (w2_var w v)) ids.
Proof.
  intros eig cs w L Er HR. destruct (actual_model eig cs w L Er HR) as (P & ids & X & M & ND & IND & H1 & H2 & HI).
  exists P, ids, X, M. split; [exact ND|]. split; [exact IND|]. split; [|exact HI].
  intro i. split; [apply H1|]. intros (s & Hs & Hg). eauto.
Qed.

Lemma C33_moments_valid_proof : forall eig (cs : list (call2 RN)) (w : world2 RN),
  legal2 cs -> run2 eig w2_init cs = Ret w ->
  (forall i s m, given eig w2_init cs i = Some (s, m) -> s <> 0 -> realizable m) ->
  forall v, let x := w2_var w v in exists m2 m3 m4,
    u2_m x 2 = Ret m2 /\ u2_m x 3 = Ret m3 /\ u2_m x 4 = Ret m4 /\
    0 <= m2 /\ m2 ^ 3 + m3 ^ 2 <= m4 * m2 /\
    (0 < m2 -> exists sk ku, u2_skew x = Ret sk /\ u2_kurt x = Ret ku /\ 1 + sk ^ 2 <= ku).
Proof.
  intros eig cs w L Er HR v x. destruct (valid_moments eig cs w L Er HR v) as (m2 & m3 & m4 & E2 & E3 & E4 & P2 & P4).
  fold x in E2, E3, E4. exists m2, m3, m4. repeat (split; [assumption|]). intro Hp.
  exists (m3 / (sqrt m2 * m2)), (m4 / (m2 * m2)).
  split; [unfold u2_skew; rewrite E3; cbn [bind]; unfold u2_s; rewrite E2; reflexivity|].
  split; [unfold u2_kurt; rewrite E2; cbn [bind]; rewrite E4; reflexivity|].
  assert (Q : sqrt m2 * sqrt m2 = m2) by (apply sqrt_sqrt; lra).
  assert (S : 0 < sqrt m2) by (now apply sqrt_lt_R0).
  replace ((m3 / (sqrt m2 * m2)) ^ 2) with (m3 ^ 2 / (m2 ^ 3)).
  2:{ transitivity (m3 ^ 2 / ((sqrt m2 * sqrt m2) * m2 ^ 2)); [rewrite Q; field; lra|field; lra]. }
  assert (0 < m2 ^ 3) by now apply pow_lt.
  apply (Rmult_le_reg_r (m2 ^ 3)); [assumption|].
  replace ((1 + m3 ^ 2 / m2 ^ 3) * m2 ^ 3) with (m2 ^ 3 + m3 ^ 2) by (field; lra).
  replace (m4 / (m2 * m2) * m2 ^ 3) with (m4 * m2) by (field; lra). exact P4.
Qed.

Lemma C33_covariance_bound_proof : forall eig (cs : list (call2 RN)) (w : world2 RN),
  legal2 cs -> run2 eig w2_init cs = Ret w ->
  (forall i s m, given eig w2_init cs i = Some (s, m) -> s <> 0 -> realizable m) ->
  forall u v, let x := w2_var w u in let y := w2_var w v in exists c sx sy,
    u2_cov x y = Ret c /\ u2_s x = Ret sx /\ u2_s y = Ret sy /\ Rabs c <= sx * sy /\
    (sx <> 0 -> sy <> 0 -> exists r, u2_corr x y = Ret r /\ -1 <= r <= 1).
Proof.
  intros eig cs w L Er HR u v x y. destruct (valid_cov eig cs w L Er HR u v) as (c & vx & vy & Ec & Ex1 & Ey1 & B).
  destruct (valid_moments eig cs w L Er HR u) as (a & ? & ? & Ea & _ & _ & Pa & _).
  destruct (valid_moments eig cs w L Er HR v) as (b & ? & ? & Eb & _ & _ & Pb & _).
  unfold u2_var in *. fold x in Ec, Ex1, Ea. fold y in Ec, Ey1, Eb.
  assert (a = vx) by congruence. assert (b = vy) by congruence. subst a b.
  assert (Sx : u2_s x = Ret (sqrt vx)) by (unfold u2_s; rewrite Ex1; reflexivity).
  assert (Sy : u2_s y = Ret (sqrt vy)) by (unfold u2_s; rewrite Ey1; reflexivity).
  assert (Bd : Rabs c <= sqrt vx * sqrt vy).
  { rewrite <- sqrt_mult by assumption. rewrite <- sqrt_Rsqr_abs. apply sqrt_le_1_alt. unfold Rsqr. lra. }
  exists c, (sqrt vx), (sqrt vy). repeat (split; [assumption|]). intros Nx Ny.
  exists (c / (sqrt vx * sqrt vy)). split.
  - unfold u2_corr. rewrite Ec. cbn [bind]. rewrite Sx. cbn [bind]. rewrite Sy. reflexivity.
  - assert (0 < sqrt vx * sqrt vy).
    { assert (0 <= sqrt vx) by apply sqrt_pos. assert (0 <= sqrt vy) by apply sqrt_pos. nra. }
    set (d := sqrt vx * sqrt vy) in *. assert (B1 := Rle_abs c). assert (B2 := Rle_abs (- c)). rewrite Rabs_Ropp in B2.
    split; apply (Rmult_le_reg_r d); try assumption; unfold Rdiv; rewrite Rmult_assoc, Rinv_l, Rmult_1_r by lra; lra.
Qed.
