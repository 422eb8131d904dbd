(** * MomGiven: the stored moments are the given ones; moments of the variables of a program *)

From Coq Require Import List ZArith Bool Reals Lra Lia Permutation Sorted.
From Verif Require Import Base Num Map UReal World HessGrad Moments CheckMoments UReal2 HessProofs U2Facts World2 U2World SpecObs SpecU2Run U2Proofs U2Proofs2.
From Verif Require Import URealFacts URealProofs Sums URealR SpecU2 U2Values U2Ret SpecProb SpecMom MomSums MomSpec MomCode MomProofs MomCov.
Import ListNotations.
Local Open Scope R_scope.

Lemma new_mom eig w c s m : made c = Some (s, m) -> s <> 0 -> snd (exec2 eig w c) = Ret tt ->
  forall env', wwf2 env' (fst (exec2 eig w c)) -> (0 <= w2_last w < maxid)%Z ->
  env' (w2_last (fst (exec2 eig w c))) = m.
Proof.
  intros Em Hs Eo env' [_ W] B. destruct c; try discriminate Em; cbn [made] in Em; injection Em as Es Em; cbn [exec2] in *.
  - unfold u2_new in *. destruct (if negb _ then _ else _) as [[]|e| |]; cbn [assign2 fst snd] in *; try discriminate Eo.
    specialize (W v). cbn [w2_var] in W. unfold upd2 in W. rewrite Nat.eqb_refl in W. cbn [u2hg] in W.
    assert (Wd := proj2 W (wrap32 (w2_last w + 1)) _ (or_introl eq_refl)). destruct Wd as [_ Wd]. cbn [dmom] in Wd.
    cbn [w2_last w2_w set_last w_last]. injection Wd as Wd. rewrite <- Wd, <- Em.
    assert (P : 0 < sqrt (c2nd m0)).
    { rewrite Es. assert (0 <= s) by (rewrite <- Es; apply sqrt_pos). lra. }
    assert (G : Rltb 0 (sqrt (c2nd m0)) = true) by (apply Rltb_true; exact P).
    rewrite G. unfold std_of.
    assert (P2 : (c2nd m0 : R) = sqrt (c2nd m0) ^ 2).
    { destruct (Rle_or_lt 0 (c2nd m0)) as [H|H]; [cbn; rewrite Rmult_1_r; symmetry; now apply sqrt_sqrt|].
      rewrite sqrt_neg_0 in P by lra. lra. }
    set (q := sqrt (c2nd m0)) in *. set (cc := c2nd m0 : R) in *.
    f_equal; cbn [ndiv nmul RN]; change (T RN) with R in *; f_equal; rewrite P2; ring.
  - unfold u2_new_std in *. destruct (nltb s0 n0); cbn [assign2 snd] in Eo; try discriminate Eo.
    destruct (if negb _ then _ else _) as [[]|e| |]; cbn [assign2 fst snd] in *; try discriminate Eo.
    specialize (W v). cbn [w2_var] in W. unfold upd2 in W. rewrite Nat.eqb_refl in W. cbn [u2hg] in W.
    assert (Wd := proj2 W (wrap32 (w2_last w + 1)) _ (or_introl eq_refl)). destruct Wd as [_ Wd]. cbn [dmom] in Wd.
    cbn [w2_last w2_w set_last w_last]. injection Wd as Wd. rewrite <- Wd, <- Em. reflexivity.
Qed.

Lemma given_run eig cs : forall env w, wwf2 env w -> List.Forall nary_ok2 cs -> List.Forall thr_number cs ->
  (w2_last w + Z.of_nat (count_new2 cs) < maxid)%Z -> forall w', run2 eig w cs = Ret w' ->
  exists env', wwf2 env' w' /\ (forall i, (i <= w2_last w)%Z -> env' i = env i) /\
    (forall i s m, given eig w cs i = Some (s, m) -> (w2_last w < i <= w2_last w')%Z /\ (s <> 0 -> env' i = m)) /\
    (w2_last w <= w2_last w')%Z.
Proof.
  induction cs as [|c cs IH]; intros env w W F F2 B w' Er.
  - injection Er as <-. exists env. split; [exact W|]. split; [auto|]. split; [intros i s m [=]|lia].
  - inversion F as [|? ? Fc Fcs]; subst. inversion F2 as [|? ? Tc Tcs]; subst. rewrite count_new2_cons in B.
    destruct (gen_exec2 Rltb_00 eig env w c W Fc Tc) as (env1 & W1 & E1' & L1 & O & LN); [destruct (is_new2 c); lia|].
    assert (NM : forall s m, made c = Some (s, m) -> s <> 0 -> snd (exec2 eig w c) = Ret tt -> env1 (w2_last (fst (exec2 eig w c))) = m).
    { intros s m Em Hs Eo. apply (new_mom eig w c s m Em Hs Eo env1 W1). destruct W as [[P _] _]. unfold w2_last in *. destruct (is_new2 c); lia. }
    cbn [run2] in Er. cbn [given]. destruct (exec2 eig w c) as [w1 o] eqn:Ee. cbn [fst snd] in *.
    assert (Er' : run2 eig w1 cs = Ret w') by (destruct O as [-> | [e ->]]; exact Er).
    destruct (IH env1 w1 W1 Fcs Tcs) with (w' := w') as (env' & W' & E' & G' & L'); [lia|exact Er'|].
    exists env'. split; [exact W'|]. split; [intros i Hi; rewrite E' by lia; apply E1'; lia|]. split; [|lia].
    intros i s m Hg.
    assert (Rest : given eig w1 cs i = Some (s, m) -> (w2_last w < i <= w2_last w')%Z /\ (s <> 0 -> env' i = m)).
    { intro H. destruct (G' i s m H). split; [lia|auto]. }
    destruct (made c) as [sm|] eqn:Em; [|auto]. destruct O as [Eo|[e Eo]]; rewrite Eo in Hg; [|auto].
    destruct (Z.eqb_spec (w2_last w1) i) as [Ei|Ei]; [|auto]. subst i. injection Hg as ->.
    assert (Hn : is_new2 c = true) by (destruct c; try discriminate Em; reflexivity).
    rewrite (LN Hn Eo) in *. split; [lia|]. intro Hs. rewrite E' by lia. now apply (NM s m).
Qed.

Lemma given_env eig cs w : legal2 cs -> run2 eig w2_init cs = Ret w -> exists env, wwf2 env w /\
  (forall i s m, given eig w2_init cs i = Some (s, m) -> (1 <= i <= w2_last w)%Z /\ (s <> 0 -> env i = m)) /\ (0 <= w2_last w < maxid)%Z.
Proof.
  intros (F & F2 & C0) Er. assert (C := max_new_lt _ C0).
  destruct (given_run eig cs (fun _ => mkM n0 n0 n0 n0 n0 n0) w2_init (wwf2_init _) F F2) with (w' := w) as (env & W & _ & G & L).
  - cbn. lia.
  - exact Er.
  - exists env. split; [exact W|]. cbn in G. split; [intros i s m H; destruct (G i s m H); split; [lia|auto]|].
    destruct (gen_run2_init Rltb_00 eig cs F F2) as (env2 & w2 & E2 & _ & _ & B); [exact C0|].
    rewrite Er in E2. injection E2 as <-. exact B.
Qed.

Lemma only_sup (x : ureal2 RN) ids : involves_only (jet_of x) ids -> qsup ids (j_g (jet_of x), j_h (jet_of x)).
Proof.
  intro H. split; cbn [fst snd]; [intros i Hi; now apply H|]. intros i j [Hi|Hj]; [now apply H|].
  rewrite jh_sym. now apply H.
Qed.

(** For linear expectations; probability spaces are a special case. *)
Lemma run_moments eig (cs : list (call2 RN)) (w : world2 RN) : legal2 cs -> run2 eig w2_init cs = Ret w ->
  forall (P : expect) (ids : list Z) (X : Z -> Om P -> R) (M : Z -> moms RN), NoDup ids ->
  independent P ids X (fun i => stdmom (M i)) ->
  (forall i, In i ids -> exists s, s <> 0 /\ given eig w2_init cs i = Some (s, M i)) ->
  forall v, let x := w2_var w v in
  involves_only (jet_of x) ids ->
  let Y := value (jet_of x) ids X in
  int P Y /\ u2_m x 1 = Ret (Ex P Y - u2_first_order_n x) /\
  forall n, (2 <= n <= 4)%nat ->
    int P (fun o => (Y o - Ex P Y) ^ n) /\
    u2_m x (Z.of_nat n) = Ret (Ex P (fun o => (Y o - Ex P Y) ^ n)).
Proof.
  intros HL Er P ids X M ND IND HG v x HI Y.
  destruct (given_env eig cs w HL Er) as (env & [_ W] & G & _). destruct (W v) as [OK MO].
  assert (MO' : forall i d, In (i, d) (diagmap (u2hg x)) -> dmom d = Some (env i)) by (intros; now apply MO).
  assert (VE : forall i, In i ids -> j_dep (jet_of x) i -> forall k, (k <= 8)%nat -> stdmom (M i) k = stdmom (env i) k).
  { intros i Hi _ k _. destruct (HG i Hi) as (s & Hs & Eg). apply G in Eg as [_ Eg]. now rewrite (Eg Hs). }
  assert (SUP := only_sup x ids HI).
  split; [exact (proj1 (exY x env P ids X _ OK ND IND VE SUP))|].
  split; [exact (u2_m1 x env P ids X _ OK MO' ND IND VE SUP)|].
  intros n Hn. split; [exact (proj1 (central x env P ids X _ OK ND IND VE SUP n (proj2 Hn)))|].
  exact (u2_mc x env P ids X _ OK MO' ND IND VE SUP n Hn).
Qed.

Lemma run_cov eig (cs : list (call2 RN)) (w : world2 RN) : legal2 cs -> run2 eig w2_init cs = Ret w ->
  forall (P : expect) (ids : list Z) (X : Z -> Om P -> R) (M : Z -> moms RN), NoDup ids ->
  independent P ids X (fun i => stdmom (M i)) ->
  (forall i, In i ids -> exists s, s <> 0 /\ given eig w2_init cs i = Some (s, M i)) ->
  forall u v, let x := w2_var w u in let y := w2_var w v in
  involves_only (jet_of x) ids -> involves_only (jet_of y) ids ->
  let A := value (jet_of x) ids X in let B := value (jet_of y) ids X in
  int P (fun o => (A o - Ex P A) * (B o - Ex P B)) /\
  u2_cov x y = Ret (Ex P (fun o => (A o - Ex P A) * (B o - Ex P B))).
Proof.
  intros HL Er P ids X M ND IND HG u v x y HIx HIy A B.
  destruct (given_env eig cs w HL Er) as (env & [_ W] & G & _). destruct (W u) as [OKx MOx]. destruct (W v) as [OKy MOy].
  assert (VE : forall i, In i ids -> forall k, (k <= 8)%nat -> stdmom (M i) k = stdmom (env i) k).
  { intros i Hi k _. destruct (HG i Hi) as (s & Hs & Eg). apply G in Eg as [_ Eg]. now rewrite (Eg Hs). }
  apply (cov_ok x y env OKx OKy (fun i d H => proj2 (MOx i d H)) (fun i d H => proj2 (MOy i d H)) P ids X _ ND IND).
  - intros; now apply VE.
  - intros; now apply VE.
  - now apply only_sup.
  - now apply only_sup.
Qed.

Lemma C28_moments_of_the_polynomial_proof : forall eig (cs : list (call2 RN)) (w : world2 RN),
  legal2 cs -> run2 eig w2_init cs = Ret w ->
  forall (P : prob) (ids : list Z) (X : Z -> Om P -> R) (M : Z -> moms RN), NoDup ids ->
  independent P ids X (fun i => stdmom (M i)) ->
  (forall i, In i ids -> exists s, s <> 0 /\ given eig w2_init cs i = Some (s, M i)) ->
  forall v, let x := w2_var w v in
  involves_only (jet_of x) ids ->
  let Y := value (jet_of x) ids X in
  int P Y /\ u2_m x 1 = Ret (Ex P Y - u2_first_order_n x) /\
  forall n, (2 <= n <= 4)%nat ->
    int P (fun o => (Y o - Ex P Y) ^ n) /\
    u2_m x (Z.of_nat n) = Ret (Ex P (fun o => (Y o - Ex P Y) ^ n)).
Proof.
  intros eig cs w HL Er P. exact (run_moments eig cs w HL Er P).
Qed.

Lemma C29_covariance_of_the_polynomials_proof : forall eig (cs : list (call2 RN)) (w : world2 RN),
  legal2 cs -> run2 eig w2_init cs = Ret w ->
  forall (P : prob) (ids : list Z) (X : Z -> Om P -> R) (M : Z -> moms RN), NoDup ids ->
  independent P ids X (fun i => stdmom (M i)) ->
  (forall i, In i ids -> exists s, s <> 0 /\ given eig w2_init cs i = Some (s, M i)) ->
  forall u v, let x := w2_var w u in let y := w2_var w v in
  involves_only (jet_of x) ids -> involves_only (jet_of y) ids ->
  let A := value (jet_of x) ids X in let B := value (jet_of y) ids X in
  int P (fun o => (A o - Ex P A) * (B o - Ex P B)) /\
  u2_cov x y = Ret (Ex P (fun o => (A o - Ex P A) * (B o - Ex P B))).
Proof.
  intros eig cs w HL Er P. exact (run_cov eig cs w HL Er P).
Qed.
