(** * Math2Acc4: the functions of two arguments on UReal2<double> (C78) *)

From Coq Require Import List ZArith Reals Bool Lra Lia Psatz.
From Coquelicot Require Import Coquelicot.
From Flocq Require Import Core BinarySingleNaN.
From Verif Require Import Base Num Map UReal World SpecObs HessGrad UReal2 HessProofs U2Facts World2 U2World SpecU2Run U2Proofs.
From Verif Require Import Ieee IeeeFacts SpecIeee IeeeProofs3 IeeeProofs4 IeeeCov Nan Math SpecMathIeee IeeeRel MathAcc MathAcc2 MathAcc3 MathAcc4.
From Verif Require Import Derivs Derivs2d Math2 SpecMath2 SpecAcc3 SpecMath2Ieee Math2Acc Math2Acc2.
Import ListNotations.
Local Open Scope R_scope.

(** ** Numbers known up to an error relative to their size *)
Definition apx (e K : R) (d : double) (r s : R) : Prop := finite d /\ Rabs r <= s /\ Rabs (real_of d - r) <= K * e * s.
Definition szr (s : R) : Prop := s = 0 \/ pow2 (-1000) <= s <= pow2 1000.

Section Calculus.
  Variable e : R.
  Hypothesis He : ur <= e <= pow2 (-20).
  Lemma apx_weaken K K' d r s s' : apx e K d r s -> 0 <= K <= K' -> s <= s' -> apx e K' d r s'.
  Proof.
    intros (F & B & C) HK Hs. assert (Se := e_small e He). assert (P := Rabs_pos r). split; [exact F|]. split; [lra|]. eapply Rle_trans; [exact C|].
    apply Rmult_le_compat; [apply Rmult_le_pos; lra|lra|apply Rmult_le_compat_r; lra|exact Hs].
  Qed.
  Lemma apx_near k d r : (k <= 500)%nat -> near e k d r -> apx e (INR k + 1) d r (Rabs r).
  Proof. intros Hk N. destruct (close_near e He k d r Hk N) as [F C]. split; [exact F|]. split; [lra|exact C]. Qed.
  Lemma apx_exact d : finite d -> apx e 0 d (real_of d) (Rabs (real_of d)).
  Proof. intro F. split; [exact F|]. split; [lra|]. rewrite Rminus_eq_0, Rabs_R0. lra. Qed.
  Lemma apx_0 s : 0 <= s -> apx e 0 (dofZ 0) 0 s.
  Proof. intro H. split; [reflexivity|]. rewrite (real_lit 0 eq_refl), Rminus_eq_0, Rabs_R0. lra. Qed.
  Lemma apx_eq K d r s r' s' : r = r' -> s = s' -> apx e K d r s -> apx e K d r' s'. Proof. now intros -> ->. Qed.
  Lemma apx_bound K d r s : 0 <= K <= 400 -> apx e K d r s -> Rabs (real_of d) <= 11 / 10 * s.
  Proof.
    intros HK (F & B & C). assert (Se := e_small e He). assert (P := Rabs_pos r). replace (real_of d) with ((real_of d - r) + r) by ring.
    eapply Rle_trans; [apply Rabs_triang|]. assert (K * e <= 400 * / 1000000) by (apply Rmult_le_compat; lra).
    assert (K * e * s <= 400 * / 1000000 * s) by (apply Rmult_le_compat_r; lra). lra.
  Qed.
  Lemma apx_zero K d r : apx e K d r 0 -> r = 0 /\ real_of d = 0.
  Proof.
    intros (_ & B & C). rewrite Rmult_0_r in C. assert (P := Rabs_pos r). assert (r = 0) by (apply Rabs_eq_0; lra). subst r. split; [reflexivity|].
    rewrite Rminus_0_r in C. apply Rabs_eq_0. assert (Q := Rabs_pos (real_of d)). lra.
  Qed.
  Lemma apx_round K (d : double) r s x : 0 <= K <= 900 -> szr s -> Rabs r <= s -> Rabs (x - r) <= K * e * s ->
    (no_overflow x -> finite d /\ real_of d = nearest x) -> apx e (K + 3) d r s.
  Proof.
    intros HK Hs B C H. assert (Se := e_small e He). assert (P := Rabs_pos r). assert (KE : K * e <= 900 * / 1000000) by (apply Rmult_le_compat; lra).
    assert (K0 : 0 <= K * e) by (apply Rmult_le_pos; lra).
    assert (X : Rabs x <= 11 / 10 * s).
    { replace x with ((x - r) + r) by ring. eapply Rle_trans; [apply Rabs_triang|]. assert (K * e * s <= 900 * / 1000000 * s) by (apply Rmult_le_compat_r; lra). lra. }
    assert (NO : no_overflow x).
    { apply fits. eapply Rle_trans; [exact X|]. destruct Hs as [->|[_ Hs]]; [rewrite Rmult_0_r; left; apply pow2_pos|].
      apply Rle_trans with (pow2 1001); [|apply pow2_le; lia]. change 1001%Z with (1 + 1000)%Z. rewrite pow2_add. change (pow2 1) with 2. assert (Q := pow2_pos 1000). lra. }
    destruct (H NO) as [F E]. split; [exact F|]. split; [exact B|]. rewrite E. destruct Hs as [->|[Hs _]].
    - rewrite Rmult_0_r in *. assert (x = 0) by (apply Rabs_eq_0; assert (Q := Rabs_pos x); lra). assert (r = 0) by (apply Rabs_eq_0; lra). subst x r.
      replace (nearest 0) with 0 by (symmetry; apply round_0, valid_rnd_N). rewrite Rminus_eq_0, Rabs_R0. lra.
    - destruct (nearest_pm x) as (dl & t & Hd & Ht & N). rewrite N. replace (x * (1 + dl) + t - r) with ((x - r) + dl * x + t) by ring.
      eapply Rle_trans; [apply Rabs_triang|]. assert (Q := Rabs_triang (x - r) (dl * x)). rewrite Rabs_mult in Q.
      assert (Q1 : Rabs dl * Rabs x <= e * (11 / 10 * s)) by (apply Rmult_le_compat; [apply Rabs_pos|apply Rabs_pos|lra|exact X]).
      assert (Q2 : pow2 (-1075) <= e * s).
      { apply Rle_trans with (ur * pow2 (-1000)); [change ur with (pow2 (-53)); rewrite <- pow2_add; apply pow2_le; lia|].
        assert (U := ur_small). assert (P2 := pow2_pos (-1000)). apply Rmult_le_compat; lra. }
      nra.
  Qed.
  Lemma apx_mul K K' d d' r r' s s' : 0 <= K <= 400 -> 0 <= K' <= 400 -> apx e K d r s -> apx e K' d' r' s' -> szr (s * s') ->
    apx e (K + K' + 4) (dmul d d') (r * r') (s * s').
  Proof.
    intros HK HK' A A' Hs. assert (B := apx_bound _ _ _ _ HK' A'). destruct A as (F & R1 & C). destruct A' as (F' & R1' & C').
    assert (Se := e_small e He). assert (P := Rabs_pos r). assert (P' := Rabs_pos r').
    apply (apx_weaken (K + K' + 1 + 3) _ _ _ (s * s')); [|lra|lra].
    apply (apx_round (K + K' + 1) _ _ _ (real_of d * real_of d')); [lra|exact Hs| | |].
    - rewrite Rabs_mult. apply Rmult_le_compat; lra.
    - assert (KE : K * K' * e <= 1) by (apply Rle_trans with (400 * 400 * / 1000000); [apply Rmult_le_compat; [apply Rmult_le_pos|..]; try lra; apply Rmult_le_compat; lra|lra]).
      replace (real_of d * real_of d' - r * r') with ((real_of d - r) * (real_of d' - r') + (real_of d - r) * r' + r * (real_of d' - r')) by ring.
      assert (K0 : 0 <= K * e) by (apply Rmult_le_pos; lra). assert (K0' : 0 <= K' * e) by (apply Rmult_le_pos; lra).
      eapply Rle_trans; [apply Rabs_triang|]. assert (T := Rabs_triang ((real_of d - r) * (real_of d' - r')) ((real_of d - r) * r')). rewrite !Rabs_mult in *.
      assert (Q1 : Rabs (real_of d - r) * Rabs (real_of d' - r') <= (K * e * s) * (K' * e * s')) by (apply Rmult_le_compat; auto using Rabs_pos).
      assert (Q2 : Rabs (real_of d - r) * Rabs r' <= (K * e * s) * s') by (apply Rmult_le_compat; auto using Rabs_pos).
      assert (Q3 : Rabs r * Rabs (real_of d' - r') <= s * (K' * e * s')) by (apply Rmult_le_compat; auto using Rabs_pos).
      assert (SS : 0 <= s * s') by (apply Rmult_le_pos; lra).
      assert (Q4 : (K * e * s) * (K' * e * s') <= e * (s * s')).
      { replace ((K * e * s) * (K' * e * s')) with (K * K' * e * (e * (s * s'))) by ring. rewrite <- (Rmult_1_l (e * (s * s'))) at 2.
        apply Rmult_le_compat_r; [apply Rmult_le_pos; lra|exact KE]. }
      nra.
    - intro NO. now apply dmul_round.
  Qed.
  Lemma apx_add K d d' r r' s s' : 0 <= K <= 400 -> apx e K d r s -> apx e K d' r' s' -> s + s' <= pow2 1000 ->
    apx e (K + 2) (dadd d d') (r + r') (s + s').
  Proof.
    intros HK A A' Hs. assert (B := apx_bound _ _ _ _ HK A). assert (B' := apx_bound _ _ _ _ HK A'). destruct A as (F & R1 & C). destruct A' as (F' & R1' & C').
    assert (Se := e_small e He). assert (P := Rabs_pos r). assert (P' := Rabs_pos r'). assert (U := ur_small).
    assert (X : Rabs (real_of d + real_of d') <= 11 / 10 * (s + s')) by (eapply Rle_trans; [apply Rabs_triang|]; lra).
    assert (NO : no_overflow (real_of d + real_of d')).
    { apply fits. eapply Rle_trans; [exact X|]. apply Rle_trans with (pow2 1001); [|apply pow2_le; lia]. change 1001%Z with (1 + 1000)%Z. rewrite pow2_add. change (pow2 1) with 2.
      assert (Q := pow2_pos 1000). lra. }
    destruct (dadd_round d d' F F' NO) as [Fz E]. split; [exact Fz|]. split; [eapply Rle_trans; [apply Rabs_triang|]; lra|]. rewrite E.
    destruct (nearest_sum d d') as (dl & D & N). rewrite N.
    replace ((real_of d + real_of d') * (1 + dl) - (r + r')) with ((real_of d - r) + (real_of d' - r') + dl * (real_of d + real_of d')) by ring.
    eapply Rle_trans; [apply Rabs_triang|]. assert (T := Rabs_triang (real_of d - r) (real_of d' - r')). rewrite Rabs_mult.
    assert (Q : Rabs dl * Rabs (real_of d + real_of d') <= e * (11 / 10 * (s + s'))) by (apply Rmult_le_compat; [apply Rabs_pos|apply Rabs_pos|lra|exact X]).
    nra.
  Qed.
  Lemma apx_half K d r s : 0 <= K <= 400 -> apx e K d r s -> szr (s / 2) -> apx e (K + 3) (ddiv d (dofZ 2)) (r / 2) (s / 2).
  Proof.
    intros HK (F & R1 & C) Hs. assert (V : real_of (dofZ 2) = 2) by exact (real_lit 2 eq_refl).
    apply (apx_round K _ _ _ (real_of d / 2)); [lra|exact Hs| | |].
    - unfold Rdiv. rewrite Rabs_mult, (Rabs_pos_eq (/ 2)) by lra. lra.
    - replace (real_of d / 2 - r / 2) with ((real_of d - r) * / 2) by (unfold Rdiv; ring). rewrite Rabs_mult, (Rabs_pos_eq (/ 2)) by lra. unfold Rdiv. nra.
    - intro NO. rewrite <- V in *. apply ddiv_round; [exact F|rewrite V; lra|exact NO].
  Qed.
  Lemma apx_opp K d r s : apx e K d r s -> apx e K (dopp d) (- r) s.
  Proof.
    intros (F & B & C). assert (E : real_of (dopp d) = - real_of d) by (unfold real_of, dopp; apply B2R_Bopp).
    split; [unfold finite, dopp; now rewrite is_finite_Bopp|]. split; [now rewrite Rabs_Ropp|]. rewrite E.
    replace (- real_of d - - r) with (- (real_of d - r)) by ring. now rewrite Rabs_Ropp.
  Qed.
End Calculus.

Lemma szr_sr lo hi s : 0 <= s -> (-1000 <= lo)%Z -> (hi <= 1000)%Z -> sr lo hi s -> szr s.
Proof.
  intros H L U [->|B]; [now left|right]. rewrite Rabs_pos_eq in B by exact H.
  split; [eapply Rle_trans; [|apply B]|eapply Rle_trans; [apply B|]]; apply pow2_le; lia.
Qed.
Lemma sr_abs lo hi r : sr lo hi r -> sr lo hi (Rabs r).
Proof. intros [->|H]; [left; apply Rabs_R0|right]. now rewrite Rabs_Rabsolu. Qed.

(** ** What [binary] stores *)
Definition d0 : double := dofZ 0.
Definition term2 (c g h : double) : double := dmul (dmul c g) h.
Lemma binary_at (x y : ureal2 DN) (f fx fy fxx fyy fxy : DN) : hg_ok (u2hg x) -> hg_ok (u2hg y) -> kbelow (u2hg x) -> kbelow (u2hg y) ->
  exists z, u2_binary x y f fx fy fxx fyy fxy = Ret z /\ u2mu z = f /\
  (forall i, depends z i <-> depends x i \/ depends y i) /\
  forall i, let gx := grad_at x i in let gy := grad_at y i in let hx := hess_at x i i in let hy := hess_at y i i in
    let cx : double := ddiv fxx (dofZ 2) in let cy : double := ddiv fyy (dofZ 2) in let cxy : double := ddiv fxy (dofZ 2) in
    (depends x i -> depends y i -> grad_at z i = dadd (dmul fx gx) (dmul fy gy) /\
       let t := dadd (dadd (dadd (term2 cx gx gx) (dmul fx hx)) (term2 cy gy gy)) (dmul fy hy) in
       hess_at z i i = if Beqb cxy (dofZ 0) then t else dadd t (dmul (dofZ 2) (term2 cxy gx gy))) /\
    (depends x i -> ~ depends y i -> gy = d0 /\ hy = d0 /\ grad_at z i = dmul fx gx /\ hess_at z i i = dadd (term2 cx gx gx) (dmul fx hx)) /\
    (~ depends x i -> depends y i -> gx = d0 /\ hx = d0 /\ grad_at z i = dadd d0 (dmul fy gy) /\ hess_at z i i = dadd (dadd d0 (term2 cy gy gy)) (dmul fy hy)) /\
    (~ depends x i -> ~ depends y i -> gx = d0 /\ hx = d0 /\ gy = d0 /\ hy = d0 /\ grad_at z i = d0 /\ hess_at z i i = d0).
Proof.
  intros OKx OKy Kx Ky. destruct (binary_result x y f fx fy fxx fyy fxy OKx OKy Kx Ky) as (r & E & OKr & r0 & OK0 & HD & _ & HC).
  exists (mkU2 r f). split; [exact E|]. split; [reflexivity|].
  assert (HR : forall i, mfind i (diagmap r) =
    match mfind i (diagmap (u2hg x)), mfind i (diagmap (u2hg y)) with
    | Some a, Some b => if neqb (n := DN) (ddiv fxy (dofZ 2)) n0 then mcell fx fy (ddiv fxx (dofZ 2) : DN) (ddiv fyy (dofZ 2) : DN) (u2hg x) (u2hg y) i
                        else Some (wd (wC (ddiv fxy (dofZ 2) : DN) (i, a) (i, b)) (mget diag0 i (diagmap r0)))
    | _, _ => mcell fx fy (ddiv fxx (dofZ 2) : DN) (ddiv fyy (dofZ 2) : DN) (u2hg x) (u2hg y) i end).
  { intro i. destruct (neqb (ndiv fxy (nofZ 2)) n0) eqn:Eh; change (neqb (n := DN) (ddiv fxy (dofZ 2)) n0) with (neqb (ndiv fxy (nofZ 2)) n0); rewrite Eh.
    - subst r. rewrite HD. destruct (mfind i (diagmap (u2hg x))), (mfind i (diagmap (u2hg y))); reflexivity.
    - destruct HC as [HC _]. rewrite HC, HD. destruct (mfind i (diagmap (u2hg x))), (mfind i (diagmap (u2hg y))); reflexivity. }
  assert (Iz := fun i => mfind_None_iff i (diagmap r) (proj1 OKr)). assert (Ix := fun i => mfind_None_iff i (diagmap (u2hg x)) (proj1 OKx)).
  assert (Iy := fun i => mfind_None_iff i (diagmap (u2hg y)) (proj1 OKy)).
  unfold depends, grad_at, hess_at, hg_diag_get, mget in *. cbn [u2hg].
  assert (SM : forall (m : list (Z * diag DN)) i d, (mfind i m = None <-> ~ In i (map fst m)) -> mfind i m = Some d -> In i (map fst m)).
  { intros m i d I0 Em. destruct (in_dec Z.eq_dec i (map fst m)) as [|N]; [assumption|]. apply I0 in N. congruence. }
  split.
  - intro i. specialize (HR i). unfold mcell in HR.
    destruct (mfind i (diagmap (u2hg x))) as [a|] eqn:Ea, (mfind i (diagmap (u2hg y))) as [b|] eqn:Eb.
    + assert (X1 := SM _ i a (Ix i) Ea).
      assert (X2 : exists c, mfind i (diagmap r) = Some c) by (rewrite HR; destruct (neqb _ _); eauto). destruct X2 as [c Ec].
      assert (X3 := SM (diagmap r) i c (Iz i) Ec). tauto.
    + assert (X1 := SM _ i a (Ix i) Ea). assert (X3 := SM (diagmap r) i _ (Iz i) HR). tauto.
    + assert (X1 := SM _ i b (Iy i) Eb). assert (X3 := SM (diagmap r) i _ (Iz i) HR). tauto.
    + split; [intro H; destruct (proj1 (Iz i) HR H)|]. intros [H|H]; [destruct (proj1 (Ix i) Ea H)|destruct (proj1 (Iy i) Eb H)].
  - intro i. cbv zeta. rewrite Z.eqb_refl. specialize (HR i). rewrite HR. rewrite HD. unfold mcell. clear HR Iz.
    change (neqb (n := DN) (ddiv fxy (dofZ 2)) n0) with (Beqb (ddiv fxy (dofZ 2)) (dofZ 0)).
    destruct (mfind i (diagmap (u2hg x))) as [a|] eqn:Ea, (mfind i (diagmap (u2hg y))) as [b|] eqn:Eb.
    + split; [intros _ _|split; [intros _ H|split; [intros H|intros H]]].
      * split; [destruct (Beqb _ _); reflexivity|]. destruct (Beqb (ddiv fxy (dofZ 2)) (dofZ 0)); reflexivity.
      * exfalso. apply Iy in H. congruence.
      * exfalso. apply Ix in H. congruence.
      * exfalso. apply Ix in H. congruence.
    + split; [intros _ H|split; [intros _ _|split; [intros H|intros H]]].
      * destruct (proj1 (Iy i) Eb H).
      * repeat split; reflexivity.
      * exfalso. apply Ix in H. congruence.
      * exfalso. apply Ix in H. congruence.
    + split; [intros H|split; [intros H|split; [intros _ _|intros _ H]]].
      * destruct (proj1 (Ix i) Ea H).
      * destruct (proj1 (Ix i) Ea H).
      * repeat split; reflexivity.
      * exfalso. apply Iy in H. congruence.
    + split; [intros H|split; [intros H|split; [intros _ H|intros _ _]]].
      * destruct (proj1 (Ix i) Ea H).
      * destruct (proj1 (Ix i) Ea H).
      * destruct (proj1 (Iy i) Eb H).
      * repeat split; reflexivity.
Qed.

Lemma apx_skip e K d r s K' r' s' : 0 <= e -> 0 <= K -> K' <= K -> apx e K d r s -> Rabs r' <= s' -> Rabs r' <= K' * e * s' -> apx e K d (r + r') (s + s').
Proof.
  intros He HK HK' (F & B & C) B' C'. split; [exact F|]. assert (P := Rabs_pos r'). split; [eapply Rle_trans; [apply Rabs_triang|lra]|].
  replace (real_of d - (r + r')) with ((real_of d - r) + - r') by ring. eapply Rle_trans; [apply Rabs_triang|]. rewrite Rabs_Ropp.
  assert (K' * e * s' <= K * e * s') by (apply Rmult_le_compat_r; [lra|apply Rmult_le_compat_r; lra]). lra.
Qed.

Section Terms.
  Variable e : R.
  Hypothesis He : ur <= e <= pow2 (-20).
  Variable K : R.
  Hypothesis HK : 0 <= K <= 300.
  Definition tsz (s g h : R) : R := s * Rabs g * Rabs h.
  Lemma tsz_sr lo hi s g h : sr lo hi s -> plain g -> plain h -> sr (lo + -250 + -250) (hi + 250 + 250) (tsz s g h).
  Proof. intros S1 Pg Ph. unfold tsz. apply sr_mul; [apply sr_mul; [exact S1|]|]; apply sr_abs, plain_sr; assumption. Qed.
  Lemma plain_half s : plain s -> sr (-251) 249 (s / 2).
  Proof. intro P. apply (sr_weaken (-250 + -1) (250 + -1)); [lia|lia|]. unfold Rdiv. apply sr_mul; [now apply plain_sr|]. right. rewrite Rabs_pos_eq by lra. change (pow2 (-1)) with (/ 2). lra. Qed.
  Lemma sr_top lo hi s : (hi <= 750)%Z -> sr lo hi s -> Rabs s <= pow2 750.
  Proof. intros L [->|[_ H]]; [rewrite Rabs_R0; left; apply pow2_pos|eapply Rle_trans; [exact H|apply pow2_le; lia]]. Qed.
  Lemma tsz_pos s g h : 0 <= s -> 0 <= tsz s g h.
  Proof. intro H. unfold tsz. apply Rmult_le_pos; [apply Rmult_le_pos; [exact H|]|]; apply Rabs_pos. Qed.

  Lemma term2_apx c g h r s : apx e (K + 3) c r (s / 2) -> 0 <= s -> plain s -> finite g -> finite h -> plain (real_of g) -> plain (real_of h) ->
    apx e (K + 11) (term2 c g h) (r * real_of g * real_of h) (tsz (s / 2) (real_of g) (real_of h)).
  Proof.
    intros A S0 Ps Fg Fh Pg Ph. assert (Hs := plain_half s Ps). assert (T := tsz_sr _ _ _ _ _ Hs Pg Ph).
    assert (S1 : 0 <= s / 2) by lra. unfold term2, tsz.
    apply (apx_weaken e He (K + 3 + 0 + 4 + 0 + 4) _ _ _ (s / 2 * Rabs (real_of g) * Rabs (real_of h))); [|lra|lra].
    apply (apx_mul e He); [lra|lra| |now apply apx_exact|].
    - apply (apx_mul e He); [lra|lra|exact A|now apply apx_exact|].
      apply (szr_sr (-251 + -250) (249 + 250)); [apply Rmult_le_pos; [exact S1|apply Rabs_pos]|lia|lia|].
      apply sr_mul; [exact Hs|apply sr_abs, plain_sr; exact Pg].
    - refine (szr_sr _ _ _ _ _ _ T); [now apply tsz_pos|lia|lia].
  Qed.
  Lemma lin_apx c h r : apx e K c r (Rabs r) -> plain r -> finite h -> plain (real_of h) ->
    apx e (K + 4) (dmul c h) (r * real_of h) (Rabs r * Rabs (real_of h)).
  Proof.
    intros A Pr Fh Ph. apply (apx_weaken e He (K + 0 + 4) _ _ _ (Rabs r * Rabs (real_of h))); [|lra|lra].
    apply (apx_mul e He); [lra|lra|exact A|now apply apx_exact|].
    apply (szr_sr (-250 + -250) (250 + 250)); [apply Rmult_le_pos; apply Rabs_pos|lia|lia|]. apply sr_mul; apply sr_abs, plain_sr; assumption.
  Qed.
  Lemma lin_top r h : plain r -> plain h -> 0 <= Rabs r * Rabs h <= pow2 750.
  Proof.
    intros Pr Ph. split; [apply Rmult_le_pos; apply Rabs_pos|]. rewrite <- (Rabs_pos_eq (Rabs r * Rabs h)) by (apply Rmult_le_pos; apply Rabs_pos).
    apply (sr_top (-250 + -250) (250 + 250)); [lia|]. apply sr_mul; apply sr_abs, plain_sr; assumption.
  Qed.
  Lemma tsz_top s g h : 0 <= s -> plain s -> plain g -> plain h -> 0 <= tsz (s / 2) g h <= pow2 750.
  Proof.
    intros S0 Ps Pg Ph. assert (P := tsz_pos (s / 2) g h ltac:(lra)). split; [exact P|]. rewrite <- (Rabs_pos_eq (tsz _ _ _)) by exact P.
    refine (sr_top _ _ _ _ (tsz_sr _ _ _ _ _ (plain_half s Ps) Pg Ph)). lia.
  Qed.

  Variables (x y z : ureal2 DN) (i : Z).
  Variables (fx fy fxx fyy fxy : double) (dx dy dxx dyy dxy sxx syy sxy : R).
  Hypothesis (Ax : apx e K fx dx (Rabs dx)) (Ay : apx e K fy dy (Rabs dy)).
  Hypothesis (Axx : apx e K fxx dxx sxx) (Ayy : apx e K fyy dyy syy) (Axy : apx e K fxy dxy sxy).
  Hypothesis (Pdx : plain dx) (Pdy : plain dy) (Psxx : plain sxx) (Psyy : plain syy) (Psxy : plain sxy).
  Hypothesis (Px : plain_at x i) (Py : plain_at y i).

  Let gx := grad_at x i. Let gy := grad_at y i. Let hx := hess_at x i i. Let hy := hess_at y i i.
  Let cx : double := ddiv fxx (dofZ 2). Let cy : double := ddiv fyy (dofZ 2). Let cxy : double := ddiv fxy (dofZ 2).
  Hypothesis Hboth : depends x i -> depends y i -> grad_at z i = dadd (dmul fx gx) (dmul fy gy) /\
       let t := dadd (dadd (dadd (term2 cx gx gx) (dmul fx hx)) (term2 cy gy gy)) (dmul fy hy) in
       hess_at z i i = if Beqb cxy (dofZ 0) then t else dadd t (dmul (dofZ 2) (term2 cxy gx gy)).
  Hypothesis Hx : depends x i -> ~ depends y i -> gy = d0 /\ hy = d0 /\ grad_at z i = dmul fx gx /\ hess_at z i i = dadd (term2 cx gx gx) (dmul fx hx).
  Hypothesis Hy : ~ depends x i -> depends y i -> gx = d0 /\ hx = d0 /\ grad_at z i = dadd d0 (dmul fy gy) /\ hess_at z i i = dadd (dadd d0 (term2 cy gy gy)) (dmul fy hy).
  Hypothesis Hn : ~ depends x i -> ~ depends y i -> gx = d0 /\ hx = d0 /\ gy = d0 /\ hy = d0 /\ grad_at z i = d0 /\ hess_at z i i = d0.

  Let T1 := tsz (sxx / 2) (real_of gx) (real_of gx). Let T2 := Rabs dx * Rabs (real_of hx).
  Let T3 := tsz (syy / 2) (real_of gy) (real_of gy). Let T4 := Rabs dy * Rabs (real_of hy).
  Let T5 := tsz (sxy / 2) (real_of gx) (real_of gy).
  Let L1 := Rabs dx * Rabs (real_of gx). Let L2 := Rabs dy * Rabs (real_of gy).
  Lemma apx_pos d r s k : apx e k d r s -> 0 <= s. Proof. intros (_ & B & _). assert (P := Rabs_pos r). lra. Qed.
  Lemma pow_1000 : 8 * pow2 750 <= pow2 1000.
  Proof. change 8 with (pow2 3). rewrite <- pow2_add. apply pow2_le. lia. Qed.
  Lemma half_apx f d s : apx e K f d s -> plain s -> apx e (K + 3) (ddiv f (dofZ 2)) (d / 2) (s / 2).
  Proof.
    intros A P. assert (S0 := apx_pos _ _ _ _ A). apply (apx_half e He); [lra|exact A|].
    apply (szr_sr (-251) 249); [lra|lia|lia|now apply plain_half].
  Qed.
  Lemma real_d0 : real_of d0 = 0. Proof. exact (real_lit 0 eq_refl). Qed.

  Lemma apx_grad : apx e (K + 6) (grad_at z i) (dx * real_of gx + dy * real_of gy) (L1 + L2).
  Proof.
    destruct Px as (Fgx & Pgx & Fhx & Phx), Py as (Fgy & Pgy & Fhy & Phy). fold gx in Fgx, Pgx. fold hx in Fhx, Phx. fold gy in Fgy, Pgy. fold hy in Fhy, Phy.
    assert (Q := pow_1000). assert (P5 := pow2_pos 750).
    assert (A1 := lin_apx fx gx dx Ax Pdx Fgx Pgx). assert (A2 := lin_apx fy gy dy Ay Pdy Fgy Pgy). fold L1 in A1. fold L2 in A2.
    assert (B1 := lin_top dx _ Pdx Pgx). assert (B2 := lin_top dy _ Pdy Pgy). fold L1 in B1. fold L2 in B2. assert (Z0 := real_d0).
    destruct (in_dec Z.eq_dec i (map fst (diagmap (u2hg x)))) as [Dx|Dx], (in_dec Z.eq_dec i (map fst (diagmap (u2hg y)))) as [Dy|Dy];
      fold (depends x i) in Dx; fold (depends y i) in Dy.
    - destruct (Hboth Dx Dy) as [-> _]. apply (apx_weaken e He (K + 4 + 2) _ _ _ (L1 + L2)); [|lra|lra].
      apply (apx_add e He); [lra|exact A1|exact A2|lra].
    - destruct (Hx Dx Dy) as (Eg & _ & -> & _). apply (apx_weaken e He (K + 4) _ _ _ (L1 + L2)); [|lra|lra].
      eapply apx_eq; [| |exact A1]; unfold L2; rewrite Eg, Z0, ?Rabs_R0; ring.
    - destruct (Hy Dx Dy) as (Eg & _ & -> & _). apply (apx_weaken e He (K + 4 + 2) _ _ _ (L1 + L2)); [|lra|lra].
      apply (apx_eq _ _ _ (0 + dy * real_of gy) (L1 + L2)); [rewrite Eg, Z0; ring|reflexivity|].
      apply (apx_add e He); [lra| |exact A2|lra]. apply (apx_weaken e He 0 _ _ _ L1); [apply apx_0; lra|lra|lra].
    - destruct (Hn Dx Dy) as (E1 & _ & E2 & _ & -> & _). apply (apx_weaken e He 0 _ _ _ (L1 + L2)); [|lra|lra].
      eapply apx_eq; [| |apply apx_0 with (s := L1 + L2); lra]; [rewrite E1, E2, Z0; ring|reflexivity].
  Qed.

  Lemma apx_hess : apx e (K + 19) (hess_at z i i)
    (dxx / 2 * real_of gx * real_of gx + dx * real_of hx + dyy / 2 * real_of gy * real_of gy + dy * real_of hy + 2 * (dxy / 2 * real_of gx * real_of gy))
    (T1 + T2 + T3 + T4 + 2 * T5).
  Proof.
    destruct Px as (Fgx & Pgx & Fhx & Phx), Py as (Fgy & Pgy & Fhy & Phy). fold gx in Fgx, Pgx. fold hx in Fhx, Phx. fold gy in Fgy, Pgy. fold hy in Fhy, Phy.
    assert (Q := pow_1000). assert (P5 := pow2_pos 750). assert (Se := e_small e He).
    assert (S1 := apx_pos _ _ _ _ Axx). assert (S2 := apx_pos _ _ _ _ Ayy). assert (S3 := apx_pos _ _ _ _ Axy).
    assert (Hc := half_apx _ _ _ Axy Psxy). fold cxy in Hc.
    assert (A1 := term2_apx cx gx gx _ _ (half_apx _ _ _ Axx Psxx) S1 Psxx Fgx Fgx Pgx Pgx). assert (A2 := lin_apx fx hx dx Ax Pdx Fhx Phx).
    assert (A3 := term2_apx cy gy gy _ _ (half_apx _ _ _ Ayy Psyy) S2 Psyy Fgy Fgy Pgy Pgy). assert (A4 := lin_apx fy hy dy Ay Pdy Fhy Phy).
    assert (A5 := term2_apx cxy gx gy _ _ Hc S3 Psxy Fgx Fgy Pgx Pgy).
    assert (B1 := tsz_top _ _ _ S1 Psxx Pgx Pgx). assert (B2 := lin_top _ _ Pdx Phx). assert (B3 := tsz_top _ _ _ S2 Psyy Pgy Pgy). assert (B4 := lin_top _ _ Pdy Phy).
    assert (B5 := tsz_top _ _ _ S3 Psxy Pgx Pgy).
    fold T1 in A1, B1. fold T2 in A2, B2. fold T3 in A3, B3. fold T4 in A4, B4. fold T5 in A5, B5. assert (Z0 := real_d0).
    assert (A2' := apx_weaken e He _ (K + 11) _ _ _ _ A2 ltac:(lra) (Rle_refl _)). assert (A4' := apx_weaken e He _ (K + 11) _ _ _ _ A4 ltac:(lra) (Rle_refl _)).
    assert (SX : apx e (K + 13) (dadd (term2 cx gx gx) (dmul fx hx)) (dxx / 2 * real_of gx * real_of gx + dx * real_of hx) (T1 + T2)).
    { apply (apx_weaken e He (K + 11 + 2) _ _ _ (T1 + T2)); [|lra|lra]. apply (apx_add e He); [lra|exact A1|exact A2'|lra]. }
    assert (SY : forall d r s, apx e (K + 13) d r s -> s <= 2 * pow2 750 -> apx e (K + 17) (dadd (dadd d (term2 cy gy gy)) (dmul fy hy))
              (r + dyy / 2 * real_of gy * real_of gy + dy * real_of hy) (s + T3 + T4)).
    { intros d r s A B. assert (Sp := apx_pos _ _ _ _ A). apply (apx_weaken e He (K + 13 + 2 + 2) _ _ _ (s + T3 + T4)); [|lra|lra].
      apply (apx_add e He); [lra| |apply (apx_weaken e He (K + 11) _ _ _ T4); [exact A4'|lra|lra]|lra].
      apply (apx_add e He); [lra|exact A|apply (apx_weaken e He (K + 11) _ _ _ T3); [exact A3|lra|lra]|lra]. }
    destruct (in_dec Z.eq_dec i (map fst (diagmap (u2hg x)))) as [Dx|Dx], (in_dec Z.eq_dec i (map fst (diagmap (u2hg y)))) as [Dy|Dy];
      fold (depends x i) in Dx; fold (depends y i) in Dy.
    - destruct (Hboth Dx Dy) as [_ E]. cbv zeta in E. rewrite E. clear E. assert (SS := SY _ _ _ SX ltac:(lra)).
      destruct (Beqb cxy (dofZ 0)) eqn:Ec.
      + assert (C0 : real_of cxy = 0).
        { destruct Hc as [Fc _]. rewrite (Beqb_correct _ _ cxy (dofZ 0) Fc eq_refl) in Ec. apply Req_bool_true_iff in Ec || (revert Ec; case Req_bool_spec; [intros Ec _|discriminate]).
          fold (real_of cxy) in Ec. rewrite Ec. exact Z0. }
        destruct Hc as (_ & Hc1 & Hc2). rewrite C0, Rminus_0_l, Rabs_Ropp in Hc2.
        apply (apx_weaken e He (K + 17) _ _ _ (T1 + T2 + T3 + T4 + 2 * T5)); [|lra|lra].
        assert (V : Rabs (2 * (dxy / 2 * real_of gx * real_of gy)) = 2 * (Rabs (dxy / 2) * Rabs (real_of gx) * Rabs (real_of gy))) by (rewrite !Rabs_mult, (Rabs_pos_eq 2) by lra; ring).
        assert (G : 0 <= Rabs (real_of gx) * Rabs (real_of gy)) by (apply Rmult_le_pos; apply Rabs_pos).
        apply (apx_skip e (K + 17) _ _ _ (K + 3)); [lra|lra|lra|exact SS| |]; rewrite V; unfold T5, tsz; rewrite !Rmult_assoc.
        * apply Rmult_le_compat_l; [lra|]. apply Rmult_le_compat_r; [exact G|exact Hc1].
        * apply Rle_trans with (2 * ((K + 3) * e * (sxy / 2) * (Rabs (real_of gx) * Rabs (real_of gy)))); [|right; ring].
          apply Rmult_le_compat_l; [lra|]. apply Rmult_le_compat_r; [exact G|exact Hc2].
      + apply (apx_weaken e He (K + 17 + 2) _ _ _ (T1 + T2 + T3 + T4 + 2 * T5)); [|lra|lra].
        apply (apx_add e He); [lra|exact SS| |lra].
        assert (V : real_of (dofZ 2) = 2) by exact (real_lit 2 eq_refl).
        assert (X2 : apx e 0 (dofZ 2) 2 2). { assert (X := apx_exact e (dofZ 2) eq_refl). rewrite V, Rabs_pos_eq in X by lra. exact X. }
        apply (apx_weaken e He (0 + (K + 11) + 4) _ _ _ (2 * T5)); [|lra|lra]. apply (apx_mul e He); [lra|lra|exact X2|exact A5|].
        apply (szr_sr (1 + (-251 + -250 + -250)) (1 + (249 + 250 + 250))); [lra|lia|lia|]. apply sr_mul; [right; rewrite Rabs_pos_eq by lra; change (pow2 1) with 2; lra|].
        apply tsz_sr; [now apply plain_half|exact Pgx|exact Pgy].
    - destruct (Hx Dx Dy) as (Eg & Eh & _ & ->). apply (apx_weaken e He (K + 13) _ _ _ (T1 + T2 + T3 + T4 + 2 * T5)); [|lra|lra].
      eapply apx_eq; [| |exact SX]; unfold T3, T4, T5, tsz; rewrite Eg, Eh, Z0, ?Rabs_R0; ring.
    - destruct (Hy Dx Dy) as (Eg & Eh & _ & ->). apply (apx_weaken e He (K + 17) _ _ _ (T1 + T2 + T3 + T4 + 2 * T5)); [|lra|lra].
      assert (SS := SY d0 0 0 ltac:(apply (apx_weaken e He 0 _ _ _ 0); [apply apx_0; lra|lra|lra]) ltac:(lra)).
      eapply apx_eq; [| |exact SS]; unfold T1, T2, T5, tsz; rewrite Eg, Eh, Z0, ?Rabs_R0; ring.
    - destruct (Hn Dx Dy) as (E1 & E2 & E3 & E4 & _ & ->). apply (apx_weaken e He 0 _ _ _ (T1 + T2 + T3 + T4 + 2 * T5)); [|lra|lra].
      eapply apx_eq; [| |apply apx_0 with (s := 0); lra]; unfold T1, T2, T3, T4, T5, tsz; rewrite E1, E2, E3, E4, Z0, ?Rabs_R0; ring.
  Qed.

  Lemma terms_grad :
     finite (grad_at z i) /\
     Rabs (real_of (grad_at z i) - (dx * real_of gx + dy * real_of gy)) <= (K + 6) * e * (Rabs (dx * real_of gx) + Rabs (dy * real_of gy)).
  Proof. destruct apx_grad as (F1 & _ & C1). rewrite !Rabs_mult. split; [exact F1|exact C1]. Qed.
  Lemma terms_hess :
     finite (hess_at z i i) /\
     Rabs (real_of (hess_at z i i) - (dx * real_of hx + dy * real_of hy + dxx / 2 * (real_of gx * real_of gx) + dyy / 2 * (real_of gy * real_of gy) + dxy * (real_of gx * real_of gy))) <=
       (K + 19) * e * (Rabs (dx * real_of hx) + Rabs (dy * real_of hy) + sxx / 2 * (real_of gx * real_of gx) + syy / 2 * (real_of gy * real_of gy) + sxy * Rabs (real_of gx * real_of gy)).
  Proof.
    destruct apx_hess as (F2 & _ & C2). rewrite !Rabs_mult. split; [exact F2|].
    replace (dx * real_of hx + dy * real_of hy + dxx / 2 * (real_of gx * real_of gx) + dyy / 2 * (real_of gy * real_of gy) + dxy * (real_of gx * real_of gy))
      with (dxx / 2 * real_of gx * real_of gx + dx * real_of hx + dyy / 2 * real_of gy * real_of gy + dy * real_of hy + 2 * (dxy / 2 * real_of gx * real_of gy)) by field.
    assert (SQ : forall t, t * t = Rabs t * Rabs t) by (intro t; rewrite <- Rabs_mult, Rabs_pos_eq; [reflexivity|nra]).
    rewrite (SQ (real_of gx)), (SQ (real_of gy)).
    eapply Rle_trans; [exact C2|]. right. f_equal. unfold T1, T2, T3, T4, T5, tsz. field.
  Qed.
End Terms.

(** ** From the coefficients to the result *)
Lemma accurate2_2nd_intro (m : cmath DN -> ureal2 DN -> ureal2 DN -> outcome (ureal2 DN)) (dom : R -> R -> R -> Prop) (F : R -> R -> R)
  (sxx syy sxy : R -> R -> R) (k0 K1 K : R) (fm fx fy fxx fyy fxy : cmath DN -> double -> double -> double) :
  0 <= K1 <= K -> K <= 300 ->
  (forall M x y, let X := u2mu x in let Y := u2mu y in m M x y = u2_binary x y (fm M X Y : DN) (fx M X Y : DN) (fy M X Y : DN) (fxx M X Y : DN) (fyy M X Y : DN) (fxy M X Y : DN)) ->
  (forall M e, ur <= e <= pow2 (-20) -> accurate M e -> forall X Y : double, finite X -> finite Y ->
   let a := real_of X in let b := real_of Y in dom e a b -> regular (F a b) ->
   close (k0 * e) (fm M X Y) (F a b) /\
   exists dx dy dxx dyy dxy, twice_differentiable F a b dx dy dxx dyy dxy /\
   (plain dx -> plain dy -> plain (sxx a b) -> plain (syy a b) -> plain (sxy a b) ->
     apx e K1 (fx M X Y) dx (Rabs dx) /\ apx e K1 (fy M X Y) dy (Rabs dy) /\
     apx e K (fxx M X Y) dxx (sxx a b) /\ apx e K (fyy M X Y) dyy (syy a b) /\ apx e K (fxy M X Y) dxy (sxy a b))) ->
  accurate2_2nd m dom F sxx syy sxy k0 (K1 + 6) (K + 19).
Proof.
  intros HK1 HK Em H M e He Acc eig w Hw u v x y a b Fx Fy Hd Hr.
  destruct (reachable2_wf dn_lt00 eig w Hw) as (env & [_ W] & HL). assert (Wx := W u). assert (Wy := W v). fold x in Wx. fold y in Wy.
  destruct (H M e He Acc (u2mu x) (u2mu y) Fx Fy Hd Hr) as (Hm & dx & dy & dxx & dyy & dxy & TD & HA). cbv zeta in *.
  destruct (binary_at x y (fm M (u2mu x) (u2mu y)) (fx M (u2mu x) (u2mu y)) (fy M (u2mu x) (u2mu y)) (fxx M (u2mu x) (u2mu y)) (fyy M (u2mu x) (u2mu y)) (fxy M (u2mu x) (u2mu y))
    (proj1 Wx) (proj1 Wy) (wf2_below _ _ _ Wx (proj2 HL)) (wf2_below _ _ _ Wy (proj2 HL))) as (z & Ez & Mz & Dz & Hz).
  exists z, dx, dy, dxx, dyy, dxy. rewrite Em. split; [exact Ez|]. split; [exact TD|]. split; [unfold u2_first_order_n; rewrite Mz; exact Hm|]. split; [exact Dz|].
  intros P1 P2 P3 P4 P5 i Pxi Pyi. destruct (HA P1 P2 P3 P4 P5) as (A1 & A2 & A3 & A4 & A5). destruct (Hz i) as (H1 & H2 & H3 & H4).
  destruct (terms_grad e He K1 ltac:(lra) x y z i _ _ _ _ _ dx dy A1 A2 P1 P2 Pxi Pyi H1 H2 H3 H4) as [G1 G2].
  assert (A1' := apx_weaken e He _ K _ _ _ _ A1 ltac:(lra) (Rle_refl _)). assert (A2' := apx_weaken e He _ K _ _ _ _ A2 ltac:(lra) (Rle_refl _)).
  split; [exact G1|]. split; [exact G2|].
  exact (terms_hess e He K ltac:(lra) x y z i _ _ _ _ _ dx dy dxx dyy dxy _ _ _ A1' A2' A3 A4 A5 P1 P2 P3 P4 P5 Pxi Pyi H1 H2 H3 H4).
Qed.
