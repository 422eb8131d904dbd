(** * DensProb: the probability space of a distribution with a density; moments of the
    normal, chi-square and uniform distributions *)

From Coq Require Import Reals Lra Lia List.
From Coquelicot Require Import Coquelicot.
From Verif Require Import SpecProb SpecDistr Integrals.
Local Open Scope R_scope.

Lemma div_mul (a t : R) : 0 < t -> a = a / t * t.
Proof. intro. field. lra. Qed.

Section Density.
  Context {Fa Fb : (R -> Prop) -> Prop} {FFa : ProperFilter Fa} {FFb : ProperFilter Fb}.
  Variable f : R -> R.
  Variable total : R.
  Hypothesis Hpos : 0 < total.
  Hypothesis Htot : is_RInt_gen f Fa Fb total.
  Hypothesis Hord : filter_prod Fa Fb (fun ab => fst ab <= snd ab /\ forall x, fst ab < x < snd ab -> 0 <= f x).

  Let dint (g : R -> R) : Prop := ex_RInt_gen (fun x => g x * f x) Fa Fb.
  Let dex (g : R -> R) : R := RInt_gen (fun x => g x * f x) Fa Fb / total.

  Lemma dex_is g (l : R) : is_RInt_gen (fun x => g x * f x) Fa Fb (l * total) -> dint g /\ dex g = l.
  Proof.
    intro H. split; [now exists (l * total)|]. unfold dex.
    rewrite (is_RInt_gen_unique _ _ H). field. lra.
  Qed.
  Lemma dint_is g : dint g -> is_RInt_gen (fun x => g x * f x) Fa Fb (dex g * total).
  Proof.
    intro H. unfold dex. apply (rint_ext (fun x => g x * f x) _ (RInt_gen (fun x => g x * f x) Fa Fb)); [reflexivity|exact (div_mul _ _ Hpos)|].
    exact (@RInt_gen_correct R_CompleteNormedModule Fa Fb _ _ _ H).
  Qed.

  Lemma dens_ext g h : (forall o, g o = h o) -> dint g -> dint h /\ dex g = dex h.
  Proof.
    intros E H. assert (A := dint_is g H). assert (B := dex_is h (dex g)). destruct B as [B1 B2]; [|auto].
    revert A. apply rint_ext; [|reflexivity]. intro x. now rewrite E.
  Qed.
  Lemma dens_const c : dint (fun _ => c) /\ dex (fun _ => c) = c.
  Proof. apply dex_is. now apply rint_scal. Qed.
  Lemma dens_plus g h : dint g -> dint h -> dint (fun o => g o + h o) /\ dex (fun o => g o + h o) = dex g + dex h.
  Proof.
    intros G H. apply dex_is. assert (A := rint_plus _ _ _ _ (dint_is g G) (dint_is h H)).
    revert A. apply rint_ext; [intro x; ring|ring].
  Qed.
  Lemma dens_scal c g : dint g -> dint (fun o => c * g o) /\ dex (fun o => c * g o) = c * dex g.
  Proof.
    intros G. apply dex_is. assert (A := rint_scal c _ _ (dint_is g G)).
    revert A. apply rint_ext; [intro x; ring|ring].
  Qed.
  Lemma dens_pos g : dint g -> (forall o, 0 <= g o) -> 0 <= dex g.
  Proof.
    intros G P. assert (A := dint_is g G). assert (0 <= dex g * total).
    { apply Rnot_lt_le. intro C. set (l := dex g * total) in *.
      assert (L : locally l (fun y => y < 0)) by (apply (open_lt 0); exact C).
      assert (F1 := A _ L). unfold filtermapi in F1. assert (F2 := filter_and _ _ F1 Hord).
      destruct (filter_ex _ F2) as [[a b] [(y & Hy & Hneg) [Hab Hnn]]]. cbn in *.
      assert (0 <= y). { apply (is_RInt_ge_0 _ _ _ _ Hab Hy). intros x Hx. apply Rmult_le_pos; [apply P|apply Hnn; lra]. }
      lra. }
    apply Rnot_lt_le. intro C. assert (0 < - dex g * total) by (apply Rmult_lt_0_compat; lra). lra.
  Qed.

  Definition dens_expect : expect := mkExpect R dint dex dens_ext dens_const dens_plus dens_scal.
  Definition dens_prob : prob := mkProb dens_expect dens_pos.

  Lemma dens_average g m : average f Fa Fb g m <-> int dens_prob g /\ Ex dens_prob g = m.
  Proof.
    split.
    - intros (t & _ & Ht & H). assert (t = total) as -> by (apply (rint_unique _ _ _ Ht Htot)). apply (dex_is g m H).
    - intros [H E]. exists total. split; [exact Hpos|]. split; [exact Htot|].
      assert (A := dint_is g H). change (dex g) with (Ex dens_prob g) in A. rewrite E in A. exact A.
  Qed.
End Density.

(** Change of variable. *)
Lemma rint_lin (Fa Fb Ga Gb : (R -> Prop) -> Prop) (f : R -> R) u v (l : R) :
  filterlim (fun x => u * x + v) Fa Ga -> filterlim (fun x => u * x + v) Fb Gb ->
  is_RInt_gen f Ga Gb l -> is_RInt_gen (fun y => u * f (u * y + v)) Fa Fb l.
Proof.
  intros Ha Hb H P HP. specialize (H P HP). unfold filtermapi in *. destruct H as [Qa Qb Ka Kb H].
  exists (fun x => Qa (u * x + v)) (fun x => Qb (u * x + v)); [apply (Ha _ Ka)|apply (Hb _ Kb)|].
  intros x y Hx Hy. destruct (H _ _ Hx Hy) as (z & Hz & Pz). cbn in *. exists z. split; [|exact Pz].
  exact (is_RInt_comp_lin f u v x y z Hz).
Qed.

(** A primitive vanishing at both ends. *)
Lemma rint_primitive (Fa Fb : (R -> Prop) -> Prop) {FFa : ProperFilter Fa} {FFb : ProperFilter Fb}
  (D : R -> Prop) (G g : R -> R) :
  (forall a b x, D a -> D b -> a <= x <= b -> D x) -> Fa D -> Fb D ->
  (forall x, D x -> is_derive G x (g x)) -> (forall x, D x -> continuous g x) ->
  filterlim G Fa (locally 0) -> filterlim G Fb (locally 0) -> is_RInt_gen g Fa Fb 0.
Proof.
  intros Dint Da Db HG Hg La Lb P HP.
  assert (A : filter_prod Fa Fb (fun ab => P (G (snd ab) - G (fst ab)))).
  { destruct HP as [eps HP]. assert (He : 0 < eps / 2) by (destruct eps; cbn; lra).
    assert (K : @locally R_UniformSpace 0 (fun y : R => Rabs y < eps / 2)).
    { exists (mkposreal _ He). intros y Hy. unfold ball in Hy; cbn in Hy. unfold AbsRing_ball, abs, minus, plus, opp in Hy; cbn in Hy.
      now rewrite Ropp_0, Rplus_0_r in Hy. }
    exists (fun x => Rabs (G x) < eps / 2) (fun x => Rabs (G x) < eps / 2); [exact (La _ K)|exact (Lb _ K)|].
    intros x y Hx Hy. cbn. apply HP. unfold ball; cbn. unfold AbsRing_ball, abs, minus, plus, opp; cbn.
    apply Rabs_lt_between in Hx. apply Rabs_lt_between in Hy. apply Rabs_lt_between. lra. }
  unfold filtermapi.
  assert (B : filter_prod Fa Fb (fun ab => D (fst ab) /\ D (snd ab))) by (exists D D; auto).
  generalize (filter_and _ _ A B). apply filter_imp. intros [a b] [Pab [Ha Hb]]. cbn in *.
  exists (G b - G a). split; [|exact Pab].
  assert (In : forall x, Rmin a b <= x <= Rmax a b -> D x).
  { intros x Hx. destruct (Rle_or_lt a b); [rewrite Rmin_left, Rmax_right in Hx by lra; now apply (Dint a b)|
    rewrite Rmin_right, Rmax_left in Hx by lra; now apply (Dint b a)]. }
  apply (is_RInt_derive G g a b); auto.
Qed.

(** Vanishing at infinity. *)
Lemma lim_exp_p c C : 0 < c -> filterlim (fun x => C * exp (- (c * x))) (Rbar_locally p_infty) (locally 0).
Proof.
  intro Hc. replace 0 with (C * 0) by ring.
  assert (H : is_lim (fun x => C * exp (- (c * x))) p_infty (Rbar_mult C 0)).
  { apply is_lim_scal_l. apply (is_lim_comp exp (fun x => - (c * x)) p_infty 0 m_infty); [exact is_lim_exp_m| |exists 0; discriminate].
    intros P [m HP]. exists (- m / c). intros x Hx. apply HP.
    assert (- m < c * x); [|lra]. apply (Rmult_lt_compat_l c) in Hx; [|exact Hc]. replace (c * (- m / c)) with (- m) in Hx by (field; lra). exact Hx. }
  exact H.
Qed.
Lemma squeeze0 (F : (R -> Prop) -> Prop) {FF : Filter F} (g h : R -> R) :
  F (fun x => Rabs (g x) <= h x) -> filterlim h F (locally 0) -> filterlim g F (locally 0).
Proof.
  intros H L P [eps HP]. assert (A := L (fun y => Rabs y < eps)). unfold filtermap in *.
  assert (B : F (fun x => Rabs (h x) < eps)).
  { apply A. exists eps. intros y Hy. unfold ball in Hy; cbn in Hy. unfold AbsRing_ball, abs, minus, plus, opp in Hy; cbn in Hy.
    now rewrite Ropp_0, Rplus_0_r in Hy. }
  generalize (filter_and _ _ H B). apply filter_imp. intros x [Hx1 Hx2]. apply HP.
  unfold ball; cbn. unfold AbsRing_ball, abs, minus, plus, opp; cbn. rewrite Ropp_0, Rplus_0_r.
  apply Rabs_lt_between in Hx2. lra.
Qed.
Lemma pow_exp_bound n c x : 0 < c -> 0 <= x -> x ^ n <= ((INR n + 1) / c) ^ n * exp (c * x).
Proof.
  intros Hc Hx. assert (Hn := pos_INR n). set (q := (INR n + 1) / c).
  assert (Hq : 0 < q) by (apply Rdiv_lt_0_compat; lra).
  assert (A : x <= q * exp (x / q)).
  { assert (B := exp_ineq1_le (x / q)). assert (q * (1 + x / q) <= q * exp (x / q)) by (apply Rmult_le_compat_l; lra).
    replace (q * (1 + x / q)) with (q + x) in H by (field; lra). lra. }
  apply Rle_trans with ((q * exp (x / q)) ^ n); [now apply pow_incr|].
  rewrite Rpow_mult_distr. apply Rmult_le_compat_l; [apply pow_le; lra|].
  replace (exp (x / q) ^ n) with (exp (INR n * (x / q))).
  2:{ generalize (x / q). clear. intro t. induction n as [|n IH]; [cbn; now rewrite Rmult_0_l, exp_0|]. rewrite S_INR. cbn [pow]. rewrite <- IH, <- exp_plus. f_equal. ring. }
  assert (INR n * (x / q) <= c * x).
  { unfold q. replace (INR n * (x / ((INR n + 1) / c))) with (c * x * (INR n / (INR n + 1))) by (field; lra).
    rewrite <- (Rmult_1_r (c * x)) at 2. apply Rmult_le_compat_l; [nra|].
    apply (Rmult_le_reg_r (INR n + 1)); [lra|]. unfold Rdiv. rewrite Rmult_assoc, Rinv_l by lra. lra. }
  destruct H as [H | ->]; [left; now apply exp_increasing|right; reflexivity].
Qed.

(** ** The normal distribution *)
Definition phi (x : R) : R := exp (- x ^ 2 / 2).
Lemma phi_pos x : 0 < phi x.
Proof. apply exp_pos. Qed.
Lemma phi_derive x : is_derive phi x (- x * phi x).
Proof. unfold phi. auto_derive; [exact I|]. change (- (x * (x * 1)) * / 2) with (- x ^ 2 / 2). field. Qed.
Lemma phi_cont x : continuous phi x.
Proof. apply (ex_derive_continuous phi). eexists. apply phi_derive. Qed.
Lemma phi_le x y : y <= x ^ 2 / 2 -> phi x <= exp (- y).
Proof.
  intro H. unfold phi. replace (- x ^ 2 / 2) with (- (x ^ 2 / 2)) by field.
  destruct (Req_dec (x ^ 2 / 2) y) as [->|E]; [right; reflexivity|left; apply exp_increasing; lra].
Qed.

Lemma phi_total : exists t : R, 0 < t /\ is_RInt_gen phi minus_infinity plus_infinity t.
Proof.
  destruct (half_right phi 0 (exp (/ 2))) as (L & HL & BL).
  { intros x _. split; [apply phi_cont|left; apply phi_pos]. }
  { intros x Hx. apply Rle_trans with (- exp (/ 2 - x) - - exp (/ 2 - 0)).
    - apply (RInt_dominated phi (fun x => - exp (/ 2 - x)) (fun x => exp (/ 2 - x))); auto.
      + intros y _. apply phi_cont.
      + intros y _. auto_derive; [exact I|]. unfold Rminus. ring.
      + intros y _. apply (ex_derive_continuous (fun x => exp (/ 2 - x))). auto_derive. exact I.
      + intros y _. replace (/ 2 - y) with (- (y - / 2)) by ring. apply phi_le. assert (0 <= (y - 1) ^ 2) by apply pow2_ge_0. lra.
    - rewrite Rminus_0_r. assert (0 < exp (/ 2 - x)) by apply exp_pos. lra. }
  destruct (half_left (Rbar_locally m_infty) (fun x => x <= 0) phi 0 (exp (/ 2))) as (M & HM & BM).
  { lra. } { auto. } { intros; lra. }
  { intros x _. split; [apply phi_cont|left; apply phi_pos]. }
  { intros a0 H. now apply filter_left_infty. }
  { intros x Hx. apply Rle_trans with (exp (/ 2 + 0) - exp (/ 2 + x)).
    - apply (RInt_dominated phi (fun x => exp (/ 2 + x)) (fun x => exp (/ 2 + x))); auto.
      + intros y _. apply phi_cont.
      + intros y _. auto_derive; [exact I|]. unfold Rminus. ring.
      + intros y _. apply (ex_derive_continuous (fun x => exp (/ 2 + x))). auto_derive. exact I.
      + intros y _. replace (/ 2 + y) with (- (- y - / 2)) by ring. apply phi_le. assert (0 <= (y + 1) ^ 2) by apply pow2_ge_0. lra.
    - rewrite Rplus_0_r. assert (0 < exp (/ 2 + x)) by apply exp_pos. lra. }
  exists (M + L). split.
  - assert (0 < RInt phi 0 1) by (apply (RInt_positive phi 0 1 (/ 2)); [lra|intros; split; [apply phi_cont|apply phi_pos]]).
    assert (RInt phi 0 1 <= L) by (apply BL; lra).
    assert (RInt phi 0 0 <= M) by (apply BM; lra). rewrite RInt_point in H1. change zero with 0 in H1. lra.
  - exact (is_RInt_gen_Chasles phi 0 M L HM HL).
Qed.

Lemma pow_phi_bound n x : Rabs (x ^ n * phi x) <= ((INR n + 1) * 2) ^ n * exp (/ 2) * exp (- (/ 2 * Rabs x)).
Proof.
  assert (H := pow_exp_bound n (/ 2) (Rabs x) ltac:(lra) (Rabs_pos x)).
  replace ((INR n + 1) / / 2) with ((INR n + 1) * 2) in H by field.
  rewrite Rabs_mult, <- RPow_abs, (Rabs_right (phi x)) by (left; apply phi_pos).
  assert (P : phi x <= exp (- (Rabs x - / 2))).
  { apply phi_le. rewrite <- (Rabs_sqr_eq x) || idtac. assert (0 <= (Rabs x - 1) ^ 2) by apply pow2_ge_0.
    replace (x ^ 2) with (Rabs x ^ 2) by (rewrite RPow_abs; apply Rabs_pos_eq, pow2_ge_0). lra. }
  assert (Q : 0 <= Rabs x ^ n) by (apply pow_le, Rabs_pos).
  assert (Q2 := phi_pos x).
  apply Rle_trans with (((INR n + 1) * 2) ^ n * exp (/ 2 * Rabs x) * exp (- (Rabs x - / 2))).
  - apply Rmult_le_compat; lra.
  - right. rewrite !Rmult_assoc. f_equal. rewrite <- !exp_plus. f_equal. field.
Qed.
Lemma pow_phi_lim n : filterlim (fun x => x ^ n * phi x) plus_infinity (locally 0) /\ filterlim (fun x => x ^ n * phi x) minus_infinity (locally 0).
Proof.
  set (C := ((INR n + 1) * 2) ^ n * exp (/ 2)).
  assert (L := lim_exp_p (/ 2) C ltac:(lra)). split.
  - apply (squeeze0 _ _ (fun x => C * exp (- (/ 2 * x)))); [|exact L].
    exists 0. intros x Hx. assert (H := pow_phi_bound n x). rewrite (Rabs_right x) in H by lra. exact H.
  - apply (squeeze0 _ _ (fun x => C * exp (- (/ 2 * - x)))).
    + exists 0. intros x Hx. assert (H := pow_phi_bound n x). rewrite (Rabs_left x) in H by lra. exact H.
    + apply (filterlim_comp _ _ _ (fun x => - x) (fun x => C * exp (- (/ 2 * x))) _ (Rbar_locally p_infty)); [|exact L].
      exact (filterlim_Rbar_opp m_infty).
Qed.

(** Moments of the standard normal distribution: 1, 0, 1, 0, 3, 0, 15, 0, 105, ... *)
Fixpoint normal_mom (n : nat) : R :=
  match n with
  | 0%nat => 1
  | 1%nat => 0
  | S (S m) => INR (S m) * normal_mom m
  end.
Ltac rr := match goal with |- @eq _ ?a ?b => change (@eq R a b) end.
Lemma phi_moments (t : R) : is_RInt_gen phi minus_infinity plus_infinity t ->
  forall n, is_RInt_gen (fun x => x ^ n * phi x) minus_infinity plus_infinity (normal_mom n * t) /\
            is_RInt_gen (fun x => x ^ S n * phi x) minus_infinity plus_infinity (normal_mom (S n) * t).
Proof.
  intro Ht. induction n as [|n [IH1 IH2]].
  - split; [revert Ht; apply rint_ext; [intro x; rr; cbn; ring|rr; cbn; ring]|].
    assert (A : is_RInt_gen (fun x => - x * phi x) minus_infinity plus_infinity 0).
    { apply (rint_primitive _ _ (fun _ => True) phi); auto; try apply filter_true.
      - intros x _. apply phi_derive.
      - intros x _. apply (continuous_mult (K := R_AbsRing) (fun x => - x) phi); [|apply phi_cont].
        apply (continuous_opp (V := R_NormedModule)), continuous_id.
      - generalize (proj2 (pow_phi_lim 0)). apply filterlim_ext. intro x. rr. cbn. ring.
      - generalize (proj1 (pow_phi_lim 0)). apply filterlim_ext. intro x. rr. cbn. ring. }
    assert (B := rint_scal (-1) _ _ A). revert B. apply rint_ext; [intro x; rr; cbn; ring|rr; cbn; ring].
  - split; [exact IH2|].
    assert (A : is_RInt_gen (fun x => INR (S n) * x ^ n * phi x + x ^ S n * (- x * phi x)) minus_infinity plus_infinity 0).
    { apply (rint_primitive _ _ (fun _ => True) (fun x => x ^ S n * phi x)); auto; try apply filter_true.
      - intros x _. apply (is_derive_mult (fun x => x ^ S n) phi x (INR (S n) * x ^ n) (- x * phi x)); [|apply phi_derive|intros; apply Rmult_comm].
        auto_derive; [exact I|]. rewrite Rmult_1_l. reflexivity.
      - intros x _. apply (ex_derive_continuous (fun x => INR (S n) * x ^ n * phi x + x ^ S n * (- x * phi x))).
        unfold phi. auto_derive. repeat split.
      - apply (proj2 (pow_phi_lim (S n))).
      - apply (proj1 (pow_phi_lim (S n))). }
    assert (B := rint_plus _ _ _ _ (rint_scal (INR (S n)) _ _ IH1) (rint_scal (-1) _ _ A)).
    revert B. apply rint_ext; [intro x; rr; cbn [pow]; ring|rr; cbn [normal_mom]; ring].
Qed.

Lemma normal_average mu sigma n : 0 < sigma ->
  average (normal_density mu sigma) minus_infinity plus_infinity (fun x => ((x - mu) / sigma) ^ n) (normal_mom n).
Proof.
  intro Hs. destruct phi_total as (t & Ht & It). assert (M := proj1 (phi_moments t It n)).
  assert (Lp : filterlim (fun x => / sigma * x + - mu / sigma) (Rbar_locally p_infty) (Rbar_locally p_infty)).
  { intros P [m HP]. exists (sigma * m + mu). intros x Hx. apply HP. apply (Rmult_lt_reg_l sigma); [exact Hs|].
    replace (sigma * (/ sigma * x + - mu / sigma)) with (x - mu) by (field; lra). lra. }
  assert (Lm : filterlim (fun x => / sigma * x + - mu / sigma) (Rbar_locally m_infty) (Rbar_locally m_infty)).
  { intros P [m HP]. exists (sigma * m + mu). intros x Hx. apply HP. apply (Rmult_lt_reg_l sigma); [exact Hs|].
    replace (sigma * (/ sigma * x + - mu / sigma)) with (x - mu) by (field; lra). lra. }
  assert (E : forall x, / sigma * x + - mu / sigma = (x - mu) / sigma) by (intro x; field; lra).
  exists (sigma * t). split; [now apply Rmult_lt_0_compat|].
  assert (I0 := rint_scal sigma _ _ (rint_lin _ _ _ _ phi (/ sigma) (- mu / sigma) t Lm Lp It)).
  assert (I1 := rint_scal sigma _ _ (rint_lin _ _ _ _ _ (/ sigma) (- mu / sigma) _ Lm Lp M)).
  split.
  - revert I0. apply rint_ext; [|reflexivity]. intro x. rewrite E. unfold phi, normal_density. field. lra.
  - revert I1. apply rint_ext; [|rr; ring]. intro x. rewrite E. unfold phi, normal_density. field. lra.
Qed.

(** ** The chi-square distribution *)
Lemma rpow_derive b x : 0 < x -> is_derive (fun x => Rpower x b) x (b * Rpower x (b - 1)).
Proof. intro H. apply is_derive_Reals. now apply derivable_pt_lim_power. Qed.
Lemma rpow_cont b x : 0 < x -> continuous (fun x => Rpower x b) x.
Proof. intro H. apply (ex_derive_continuous (fun x => Rpower x b)). eexists. now apply rpow_derive. Qed.
Lemma rpow_pos b x : 0 < Rpower x b.
Proof. apply exp_pos. Qed.
Lemma rpow_minus1 b x : 0 < x -> Rpower x (b - 1) = Rpower x b / x.
Proof. intro H. unfold Rminus. rewrite Rpower_plus, Rpower_Ropp, Rpower_1 by exact H. reflexivity. Qed.
Lemma expm_derive x : is_derive (fun x => exp (- x / 2)) x (- exp (- x / 2) / 2).
Proof. auto_derive; [exact I|]. change (- x * / 2) with (- x / 2). field. Qed.

Section Chi.
  Variable c : R.
  Hypothesis Hc : 0 < c.
  Let f := chisquare_density c.

  Lemma chi_pos x : 0 < f x.
  Proof. unfold f, chisquare_density. apply Rmult_lt_0_compat; [apply rpow_pos|apply exp_pos]. Qed.
  Lemma chi_derive x : 0 < x -> is_derive f x ((c / 2 - 1) / x * f x - f x / 2).
  Proof.
    intro H. unfold f, chisquare_density.
    assert (D := is_derive_mult (fun x => Rpower x (c / 2 - 1)) (fun x => exp (- x / 2)) x _ _ (rpow_derive (c / 2 - 1) x H) (expm_derive x) Rmult_comm).
    unfold plus, mult in D; cbn in D. rewrite rpow_minus1 in D by exact H.
    replace ((c / 2 - 1) / x * (Rpower x (c / 2 - 1) * exp (- x / 2)) - Rpower x (c / 2 - 1) * exp (- x / 2) / 2)
      with ((c / 2 - 1) * (Rpower x (c / 2 - 1) / x) * exp (- x / 2) + Rpower x (c / 2 - 1) * (- exp (- x / 2) / 2)) by (field; lra).
    exact D.
  Qed.
  Lemma chi_cont x : 0 < x -> continuous f x.
  Proof. intro H. apply (ex_derive_continuous f). eexists. now apply chi_derive. Qed.

  (** Decay at infinity. *)
  Lemma chi_bound n : exists C, forall x, 1 <= x -> x ^ n * f x <= C * exp (- (/ 4 * x)).
  Proof.
    destruct (nfloor_ex (c / 2)) as [m Hm]; [lra|].
    exists (((INR (n + m) + 1) / / 4) ^ (n + m)). intros x Hx.
    assert (H := pow_exp_bound (n + m) (/ 4) x ltac:(lra) ltac:(lra)).
    unfold f, chisquare_density.
    assert (A : Rpower x (c / 2 - 1) <= x ^ m).
    { rewrite <- Rpower_pow by lra. apply Rle_Rpower; lra. }
    assert (P : 0 <= x ^ n) by (apply pow_le; lra).
    assert (Q := exp_pos (- x / 2)).
    apply Rle_trans with (x ^ (n + m) * exp (- x / 2)).
    { rewrite pow_add, <- Rmult_assoc. apply Rmult_le_compat_r; [lra|]. now apply Rmult_le_compat_l. }
    apply Rle_trans with (((INR (n + m) + 1) / / 4) ^ (n + m) * exp (/ 4 * x) * exp (- x / 2)); [apply Rmult_le_compat_r; lra|].
    right. rewrite Rmult_assoc, <- exp_plus. do 2 f_equal. field.
  Qed.

  Lemma chi_total : exists t : R, 0 < t /\ is_RInt_gen f zero_plus plus_infinity t.
  Proof.
    destruct (chi_bound 0) as [C HC].
    destruct (half_right f 1 (4 * C * exp (- (/ 4 * 1)))) as (L & HL & BL).
    { intros x Hx. split; [apply chi_cont; lra|left; apply chi_pos]. }
    { intros x Hx. apply Rle_trans with (- 4 * C * exp (- (/ 4 * x)) - - 4 * C * exp (- (/ 4 * 1))).
      - apply (RInt_dominated f (fun x => - 4 * C * exp (- (/ 4 * x))) (fun x => C * exp (- (/ 4 * x)))); auto.
        + intros y Hy. apply chi_cont. lra.
        + intros y _. auto_derive; [exact I|]. field.
        + intros y _. apply (ex_derive_continuous (fun x => C * exp (- (/ 4 * x)))). auto_derive. exact I.
        + intros y Hy. specialize (HC y (proj1 Hy)). cbn [pow] in HC. lra.
      - assert (0 < C).
        { specialize (HC 1 (Rle_refl 1)). rewrite pow1, Rmult_1_l in HC. assert (A := chi_pos 1). assert (B := exp_pos (- (/ 4 * 1))).
          apply Rnot_le_lt. intro N. nra. }
        assert (0 < C * exp (- (/ 4 * x))) by (apply Rmult_lt_0_compat; [assumption|apply exp_pos]). lra. }
    destruct (half_left (at_right 0) (fun x => 0 < x <= 1) f 1 (/ (c / 2))) as (M & HM & BM).
    { lra. } { intros; lra. } { intros; lra. }
    { intros x Hx. split; [apply chi_cont; lra|left; apply chi_pos]. }
    { intros a0 H. generalize (filter_right_zero a0 (proj1 H)). apply filter_imp. intros x Hx. lra. }
    { intros x Hx. apply Rle_trans with (Rpower 1 (c / 2) / (c / 2) - Rpower x (c / 2) / (c / 2)).
      - apply (RInt_dominated f (fun x => Rpower x (c / 2) / (c / 2)) (fun x => Rpower x (c / 2 - 1))); [lra| | | |].
        + intros y Hy. apply chi_cont. lra.
        + intros y Hy. assert (D := is_derive_scal (fun x => Rpower x (c / 2)) y (/ (c / 2)) _ (rpow_derive (c / 2) y ltac:(lra))).
          replace (Rpower y (c / 2 - 1)) with (/ (c / 2) * (c / 2 * Rpower y (c / 2 - 1))) by (field; lra).
          revert D. apply is_derive_ext. intro z. unfold Rdiv. apply Rmult_comm.
        + intros y Hy. apply rpow_cont. lra.
        + intros y Hy. unfold f, chisquare_density. rewrite <- (Rmult_1_r (Rpower y (c / 2 - 1))) at 2.
          apply Rmult_le_compat_l; [left; apply rpow_pos|]. rewrite <- exp_0. left. apply exp_increasing. lra.
      - replace (Rpower 1 (c / 2)) with 1 by (unfold Rpower; now rewrite ln_1, Rmult_0_r, exp_0).
        assert (0 < Rpower x (c / 2) / (c / 2)) by (apply Rdiv_lt_0_compat; [apply rpow_pos|lra]). lra. }
    exists (M + L). split.
    - assert (0 < RInt f 1 2) by (apply (RInt_positive f 1 2 (3 / 2)); [lra|intros; split; [apply chi_cont; lra|apply chi_pos]]).
      assert (RInt f 1 2 <= L) by (apply BL; lra).
      assert (RInt f 1 1 <= M) by (apply BM; lra). rewrite RInt_point in H1. change zero with 0 in H1. lra.
    - exact (is_RInt_gen_Chasles f 1 M L HM HL).
  Qed.

  Lemma chi_lim_p n : filterlim (fun x => x ^ n * f x) plus_infinity (locally 0).
  Proof.
    destruct (chi_bound n) as [C HC]. apply (squeeze0 _ _ (fun x => C * exp (- (/ 4 * x)))); [|apply lim_exp_p; lra].
    exists 1. intros x Hx. rewrite Rabs_right; [apply HC; lra|]. apply Rle_ge, Rmult_le_pos; [apply pow_le; lra|left; apply chi_pos].
  Qed.
  Lemma chi_lim_0 n : filterlim (fun x => x ^ S n * f x) zero_plus (locally 0).
  Proof.
    apply (squeeze0 _ _ (fun x => Rpower x (c / 2))).
    - generalize (filter_right_zero 1 ltac:(lra)). apply filter_imp. intros x Hx.
      rewrite Rabs_right by (apply Rle_ge, Rmult_le_pos; [apply pow_le; lra|left; apply chi_pos]).
      unfold f, chisquare_density. rewrite rpow_minus1 by lra.
      assert (x ^ n <= 1) by (rewrite <- (pow1 n); apply pow_incr; lra).
      assert (0 <= x ^ n) by (apply pow_le; lra).
      assert (exp (- x / 2) <= 1) by (rewrite <- exp_0; left; apply exp_increasing; lra).
      assert (0 < exp (- x / 2)) by apply exp_pos. assert (0 < Rpower x (c / 2)) by apply rpow_pos.
      cbn [pow]. replace (x * x ^ n * (Rpower x (c / 2) / x * exp (- x / 2))) with (Rpower x (c / 2) * (x ^ n * exp (- x / 2))) by (field; lra).
      rewrite <- (Rmult_1_r (Rpower x (c / 2))) at 2. apply Rmult_le_compat_l; [lra|]. rewrite <- (Rmult_1_r 1). apply Rmult_le_compat; lra.
    - intros P [eps HP]. set (d := Rpower eps (/ (c / 2))).
      assert (F := filter_right_zero (d / 2)). assert (Hd : 0 < d) by apply rpow_pos. specialize (F ltac:(lra)).
      unfold filtermap. revert F. apply filter_imp. intros x Hx. apply HP.
      unfold ball; cbn. unfold AbsRing_ball, abs, minus, plus, opp; cbn. rewrite Ropp_0, Rplus_0_r, Rabs_right by (left; apply rpow_pos).
      replace (pos eps) with (Rpower d (c / 2)).
      2:{ unfold d. rewrite Rpower_mult. rewrite Rinv_l by lra. apply Rpower_1. apply cond_pos. }
      unfold Rpower. apply exp_increasing. apply Rmult_lt_compat_l; [lra|]. apply ln_increasing; lra.
  Qed.

  (** Moments: 1, c, c (c + 2), ... *)
  Fixpoint chi_mom (n : nat) : R :=
    match n with
    | 0%nat => 1
    | S m => (c + 2 * INR m) * chi_mom m
    end.
  Lemma chi_moments (t : R) : is_RInt_gen f zero_plus plus_infinity t ->
    forall n, is_RInt_gen (fun x => x ^ n * f x) zero_plus plus_infinity (chi_mom n * t).
  Proof.
    intro Ht. induction n as [|n IH]; [revert Ht; apply rint_ext; [intro x; rr; cbn; ring|rr; cbn; ring]|].
    assert (A : is_RInt_gen (fun x => (INR n + c / 2) * (x ^ n * f x) - / 2 * (x ^ S n * f x)) zero_plus plus_infinity 0).
    { apply (rint_primitive _ _ (fun x => 0 < x) (fun x => x ^ S n * f x)).
      - intros; lra.
      - generalize (filter_right_zero 1 ltac:(lra)). apply filter_imp. intros x Hx. lra.
      - exists 0. auto.
      - intros x Hx.
        assert (D1 : is_derive (fun x => x ^ S n) x (INR (S n) * x ^ n)) by (auto_derive; [exact I|]; now rewrite Rmult_1_l).
        assert (D := is_derive_mult (fun x => x ^ S n) f x _ _ D1 (chi_derive x Hx) Rmult_comm).
        unfold plus, mult in D; cbn [AbsRing.Ring Ring.AbelianGroup R_AbsRing R_Ring AbelianGroup.sort] in D; cbn in D.
        match type of D with is_derive _ _ ?v => replace ((INR n + c / 2) * (x ^ n * f x) - / 2 * (x ^ S n * f x)) with v end; [exact D|].
        change (match n with 0%nat => 1 | S _ => INR n + 1 end) with (INR (S n)). rewrite S_INR. cbn [pow]. generalize (x ^ n) (f x). clear - Hx. intros u v. field. lra.
      - intros x Hx. apply (continuous_minus (V := R_NormedModule) (fun x => (INR n + c / 2) * (x ^ n * f x)) (fun x => / 2 * (x ^ S n * f x))).
        + apply (continuous_scal_r (K := R_AbsRing) (V := R_NormedModule) (INR n + c / 2) (fun x => x ^ n * f x)).
          apply (continuous_mult (K := R_AbsRing) (fun x => x ^ n) f); [|now apply chi_cont].
          apply (ex_derive_continuous (fun x => x ^ n)). auto_derive. exact I.
        + apply (continuous_scal_r (K := R_AbsRing) (V := R_NormedModule) (/ 2) (fun x => x ^ S n * f x)).
          apply (continuous_mult (K := R_AbsRing) (fun x => x ^ S n) f); [|now apply chi_cont].
          apply (ex_derive_continuous (fun x => x ^ S n)). auto_derive. exact I.
      - apply chi_lim_0.
      - apply chi_lim_p. }
    assert (B := rint_plus _ _ _ _ (rint_scal (c + 2 * INR n) _ _ IH) (rint_scal (-2) _ _ A)).
    revert B. apply rint_ext; [intro x; rr; field|rr; cbn [chi_mom]; ring].
  Qed.
End Chi.
