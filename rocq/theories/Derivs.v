(** * Derivs: first and second derivatives of the elementary functions *)

From Coq Require Import Reals Lra Lia.
From Coquelicot Require Import Coquelicot.
From Flocq Require Import Core.
From Verif Require Import Base Num Nan Math.
Local Open Scope R_scope.

(** [f1] and [f2] are the first and second derivative of [f] on the open set [dom] *)
Definition derivs2 (dom : R -> Prop) (f f1 f2 : R -> R) : Prop :=
  (forall x, dom x -> locally x dom) /\
  (forall x, dom x -> is_derive f x (f1 x)) /\
  (forall x, dom x -> is_derive f1 x (f2 x)).

Ltac side :=
  repeat match goal with |- _ /\ _ => split | |- True => exact I end; try lra; try nra; auto.
Ltac derv H :=
  match type of H with is_derive ?f ?x ?v =>
    match goal with |- context [Derive ?g x] =>
      replace (Derive g x) with v by (symmetry; exact (is_derive_unique f x v H)) end
  end.

Lemma loc_all (x : R) : locally x (fun _ : R => True).
Proof. exists (mkposreal 1 Rlt_0_1). auto. Qed.
Lemma loc_gt a x : a < x -> locally x (fun t : R => a < t).
Proof. apply open_gt. Qed.
Lemma loc_lt a x : x < a -> locally x (fun t : R => t < a).
Proof. apply open_lt. Qed.
Lemma loc_between a b x : a < x < b -> locally x (fun t : R => a < t < b).
Proof. intros [H1 H2]. apply filter_and; [now apply loc_gt|now apply loc_lt]. Qed.
Lemma loc_neq a x : x <> a -> locally x (fun t : R => t <> a).
Proof. apply open_neq. Qed.

Lemma D_exp : derivs2 (fun _ => True) exp exp exp.
Proof.
  split; [intros; apply loc_all|]. split; intros x _; auto_derive; auto; ring.
Qed.
Lemma D_exp2 : derivs2 (fun _ => True) (Rpower 2) (fun x => ln 2 * Rpower 2 x) (fun x => ln 2 * (ln 2 * Rpower 2 x)).
Proof.
  split; [intros; apply loc_all|]. split; intros x _; unfold Rpower; auto_derive; auto; ring.
Qed.
Lemma D_expm1 : derivs2 (fun _ => True) (fun x => exp x - 1) exp exp.
Proof. split; [intros; apply loc_all|]. split; intros x _; auto_derive; auto; ring. Qed.
Lemma D_ln : derivs2 (fun x => 0 < x) ln (fun x => / x) (fun x => - / (x * x)).
Proof.
  split; [intros; now apply loc_gt|]. split; intros x H; auto_derive; auto; try lra; field; lra.
Qed.
Lemma ln_gt1 b : 1 < b -> 0 < ln b.
Proof. intro H. rewrite <- ln_1. apply ln_increasing; lra. Qed.
Lemma D_logb b : 1 < b -> derivs2 (fun x => 0 < x) (fun x => ln x / ln b) (fun x => / (x * ln b)) (fun x => - / (x * x * ln b)).
Proof.
  intro Hb. assert (K := ln_gt1 b Hb).
  split; [intros; now apply loc_gt|]. split; intros x H; auto_derive.
  - lra.
  - field; lra.
  - apply Rmult_integral_contrapositive_currified; lra.
  - field; lra.
Qed.
Lemma D_log1p : derivs2 (fun x => -1 < x) (fun x => ln (1 + x)) (fun x => / (1 + x)) (fun x => - / ((1 + x) * (1 + x))).
Proof.
  split; [intros; now apply loc_gt|]. split; intros x H; auto_derive; auto; try lra; field; lra.
Qed.
Lemma D_sqrt : derivs2 (fun x => 0 < x) sqrt (fun x => / (2 * sqrt x)) (fun x => - / (4 * x * sqrt x)).
Proof.
  split; [intros; now apply loc_gt|]. split; intros x H; assert (K := sqrt_lt_R0 x H); auto_derive; try lra.
  replace (4 * x * sqrt x) with (4 * (sqrt x * sqrt x) * sqrt x) by (rewrite sqrt_sqrt; lra).
  field; lra.
Qed.
Lemma D_sin : derivs2 (fun _ => True) sin cos (fun x => - sin x).
Proof. split; [intros; apply loc_all|]. split; intros x _; auto_derive; auto; ring. Qed.
Lemma D_cos : derivs2 (fun _ => True) cos (fun x => - sin x) (fun x => - cos x).
Proof. split; [intros; apply loc_all|]. split; intros x _; auto_derive; auto; ring. Qed.

Lemma cos_loc x : cos x <> 0 -> locally x (fun t : R => cos t <> 0).
Proof.
  intro H. apply (continuous_cos x (fun y => y <> 0)). apply (open_neq 0); exact H.
Qed.
Lemma D_tan : derivs2 (fun x => cos x <> 0) tan (fun x => 1 + tan x * tan x) (fun x => 2 * tan x * (1 + tan x * tan x)).
Proof.
  assert (K : forall x, cos x <> 0 -> is_derive tan x (1 + tan x * tan x)).
  { intros x H. replace (1 + tan x * tan x) with (tan x ^ 2 + 1) by ring. now apply is_derive_tan. }
  split; [intros; now apply cos_loc|]. split; [exact K|]. intros x H.
  auto_derive.
  - repeat split; eexists; now apply K.
  - derv (K x H). ring.
Qed.

Lemma one_minus_sq x : -1 < x < 1 -> 0 < 1 - x * x.
Proof. intros. nra. Qed.

Lemma D_asin : derivs2 (fun x => -1 < x < 1) asin (fun x => / sqrt (1 - x * x)) (fun x => x / ((1 - x * x) * sqrt (1 - x * x))).
Proof.
  split; [intros; now apply loc_between|]. split; intros x H; assert (K := one_minus_sq x H).
  - apply is_derive_Reals. assert (D := derive_pt_asin x H).
    replace (/ sqrt (1 - x * x)) with (derive_pt asin x (derivable_pt_asin x H)).
    + apply derive_pt_eq_1 with (derivable_pt_asin x H). reflexivity.
    + rewrite D. unfold Rsqr, Rdiv. ring.
  - assert (Q := sqrt_lt_R0 _ K). auto_derive.
    + unfold Rminus in *. side.
    + assert (E := sqrt_sqrt (1 - x * x)). unfold Rminus in *.
      set (q := sqrt (1 + - (x * x))) in *. rewrite <- E by lra. field; lra.
Qed.
Lemma D_acos : derivs2 (fun x => -1 < x < 1) acos (fun x => - / sqrt (1 - x * x)) (fun x => - (x / ((1 - x * x) * sqrt (1 - x * x)))).
Proof.
  split; [intros; now apply loc_between|]. split; intros x H.
  - apply is_derive_Reals. assert (D := derive_pt_acos x H).
    replace (- / sqrt (1 - x * x)) with (derive_pt acos x (derivable_pt_acos x H)).
    + apply derive_pt_eq_1 with (derivable_pt_acos x H). reflexivity.
    + rewrite D. unfold Rsqr, Rdiv. ring.
  - apply (is_derive_opp (fun x => / sqrt (1 - x * x)) x). now apply D_asin.
Qed.
Lemma sq1_pos x : 0 < 1 + x * x.
Proof. nra. Qed.
Lemma D_atan : derivs2 (fun _ => True) atan (fun x => / (1 + x * x)) (fun x => -2 * x / ((1 + x * x) * (1 + x * x))).
Proof.
  split; [intros; apply loc_all|]. split; intros x _; assert (K := sq1_pos x).
  - assert (D := is_derive_atan x). unfold Rsqr in D. exact D.
  - auto_derive; [lra|]. field. lra.
Qed.
Lemma D_sinh : derivs2 (fun _ => True) sinh cosh sinh.
Proof. split; [intros; apply loc_all|]. split; intros x _; unfold sinh, cosh; auto_derive; auto; field. Qed.
Lemma D_cosh : derivs2 (fun _ => True) cosh sinh cosh.
Proof. split; [intros; apply loc_all|]. split; intros x _; unfold sinh, cosh; auto_derive; auto; field. Qed.
Lemma cosh_pos x : 0 < cosh x.
Proof. unfold cosh. assert (K := exp_pos x). assert (L := exp_pos (- x)). lra. Qed.
Lemma cosh_sinh x : cosh x * cosh x - sinh x * sinh x = 1.
Proof.
  unfold cosh, sinh.
  assert (K : exp x * exp (- x) = 1) by (rewrite <- exp_plus; replace (x + - x) with 0 by ring; apply exp_0).
  transitivity (exp x * exp (- x)); [field|exact K].
Qed.
Lemma is_derive_tanh x : is_derive tanh x (1 - tanh x * tanh x).
Proof.
  unfold tanh at 1. assert (K := cosh_pos x).
  assert (D := is_derive_div sinh cosh x _ _ (proj1 (proj2 D_sinh) x I) (proj1 (proj2 D_cosh) x I) ltac:(lra)).
  match type of D with is_derive _ _ ?d => replace (1 - tanh x * tanh x) with d; [exact D|] end.
  unfold tanh, minus, plus, opp, mult, scal; cbn; unfold mult; cbn. unfold Rdiv. field_simplify; try lra.
Qed.
Lemma D_tanh : derivs2 (fun _ => True) tanh (fun x => 1 - tanh x * tanh x) (fun x => -2 * tanh x * (1 - tanh x * tanh x)).
Proof.
  split; [intros; apply loc_all|]. split; intros x _; [apply is_derive_tanh|].
  auto_derive.
  - repeat split; eexists; apply is_derive_tanh.
  - derv (is_derive_tanh x). ring.
Qed.
Lemma asinh_arg x : 0 < x + sqrt (x * x + 1).
Proof.
  destruct (Rlt_dec 0 x).
  - assert (K := sqrt_pos (x * x + 1)). lra.
  - assert (sqrt (x * x) < sqrt (x * x + 1)) by (apply sqrt_lt_1_alt; nra).
    replace (x * x) with (Rsqr x) in H at 1 by reflexivity. rewrite sqrt_Rsqr_abs in H.
    rewrite Rabs_left1 in H; lra.
Qed.
Lemma D_asinh : derivs2 (fun _ => True) R_asinh (fun x => / sqrt (x * x + 1)) (fun x => - x / ((x * x + 1) * sqrt (x * x + 1))).
Proof.
  split; [intros; apply loc_all|]. split; intros x _; assert (K := sq1_pos x);
    assert (Q : 0 < sqrt (x * x + 1)) by (apply sqrt_lt_R0; lra); assert (P := asinh_arg x).
  - unfold R_asinh. auto_derive.
    + side.
    + set (q := sqrt (x * x + 1)) in *. field. lra.
  - auto_derive.
    + side.
    + assert (E := sqrt_sqrt (x * x + 1)). set (q := sqrt (x * x + 1)) in *. rewrite <- E by lra.
      field; lra.
Qed.
Lemma D_acosh : derivs2 (fun x => 1 < x) R_acosh (fun x => / sqrt (x * x - 1)) (fun x => - x / ((x * x - 1) * sqrt (x * x - 1))).
Proof.
  split; [intros; now apply loc_gt|]. split; intros x H; assert (K : 0 < x * x - 1) by nra;
    assert (Q : 0 < sqrt (x * x - 1)) by (apply sqrt_lt_R0; lra).
  - unfold R_acosh. auto_derive.
    + unfold Rminus in *. side.
    + unfold Rminus in *. set (q := sqrt (x * x + - (1))) in *. field. lra.
  - auto_derive.
    + unfold Rminus in *. side.
    + assert (E := sqrt_sqrt (x * x - 1)). unfold Rminus in *. set (q := sqrt (x * x + - (1))) in *.
      rewrite <- E by lra. field; lra.
Qed.
Lemma D_atanh : derivs2 (fun x => -1 < x < 1) R_atanh (fun x => / (1 - x * x)) (fun x => 2 * x / ((1 - x * x) * (1 - x * x))).
Proof.
  split; [intros; now apply loc_between|]. split; intros x H; assert (K := one_minus_sq x H).
  - unfold R_atanh. auto_derive.
    + split; [lra|]. split; [|auto]. apply Rmult_lt_0_compat; [lra|]. apply Rinv_0_lt_compat. lra.
    + field. split; [lra|]. split; nra.
  - auto_derive; [lra|]. field. nra.
Qed.
Lemma erf_coeff_pos : 0 < 2 / sqrt PI.
Proof. apply Rdiv_lt_0_compat; [lra|]. apply sqrt_lt_R0, PI_RGT_0. Qed.
Lemma is_derive_erf (x : R) : is_derive R_erf x (2 / sqrt PI * exp (- (x * x))).
Proof.
  unfold R_erf. apply (is_derive_scal (fun x => RInt (fun t : R => exp (- (t * t))) 0 x)).
  assert (C : forall t : R, continuous (fun t : R => exp (- (t * t))) t).
  { intro t. apply (ex_derive_continuous (fun t : R => exp (- (t * t)))). auto_derive. auto. }
  apply (is_derive_RInt (fun t : R => exp (- (t * t))) _ 0 x).
  - exists (mkposreal 1 Rlt_0_1). intros y _.
    apply (RInt_correct (V := R_CompleteNormedModule)), (ex_RInt_continuous (V := R_CompleteNormedModule)). auto.
  - apply C.
Qed.
Lemma D_erf : derivs2 (fun _ => True) R_erf (fun x => 2 / sqrt PI * exp (- (x * x))) (fun x => -2 * x * (2 / sqrt PI * exp (- (x * x)))).
Proof.
  split; [intros; apply loc_all|]. split; intros x _; [apply is_derive_erf|].
  assert (K := sqrt_lt_R0 PI PI_RGT_0). auto_derive; [auto|]. ring.
Qed.
Lemma D_erfc : derivs2 (fun _ => True) (fun x => 1 - R_erf x) (fun x => - (2 / sqrt PI * exp (- (x * x)))) (fun x => 2 * x * (2 / sqrt PI * exp (- (x * x)))).
Proof.
  split; [intros; apply loc_all|]. split; intros x _.
  - auto_derive; [eexists; apply is_derive_erf|]. derv (is_derive_erf x). ring.
  - assert (K := sqrt_lt_R0 PI PI_RGT_0). auto_derive; [auto|]. ring.
Qed.

(** ** piecewise functions *)

Lemma D_abs : derivs2 (fun x => x <> 0) Rabs (fun x => if Rleb 0 x then 1 else -1) (fun _ => 0).
Proof.
  split; [intros; now apply loc_neq|]. split; intros x H.
  - destruct (Rleb_spec 0 x) as [L|L].
    + apply (is_derive_ext_loc (fun x => x)).
      * apply (filter_imp (fun t => 0 < t)); [|apply loc_gt; lra]. intros t Ht. rewrite Rabs_pos_eq; lra.
      * apply (is_derive_id (x : R_AbsRing)).
    + apply (is_derive_ext_loc (fun x => - x)).
      * apply (filter_imp (fun t => t < 0)); [|apply loc_lt; lra]. intros t Ht. rewrite Rabs_left; lra.
      * auto_derive; auto; ring.
  - destruct (Rleb_spec 0 x) as [L|L].
    + apply (is_derive_ext_loc (fun x => 1)).
      * apply (filter_imp (fun t => 0 < t)); [|apply loc_gt; lra]. intros t Ht.
        destruct (Rleb_spec 0 t); lra.
      * apply is_derive_Reals, derivable_pt_lim_const.
    + apply (is_derive_ext_loc (fun x => -1)).
      * apply (filter_imp (fun t => t < 0)); [|apply loc_lt; lra]. intros t Ht.
        destruct (Rleb_spec 0 t); lra.
      * apply is_derive_Reals, derivable_pt_lim_const.
Qed.

Lemma cbrt_pos x : 0 < x -> R_cbrt x = Rpower x (/ 3).
Proof. intro H. unfold R_cbrt. destruct (Rlt_dec 0 x); [reflexivity|lra]. Qed.
Lemma cbrt_neg x : x < 0 -> R_cbrt x = - Rpower (- x) (/ 3).
Proof.
  intro H. unfold R_cbrt. destruct (Rlt_dec 0 x); [lra|]. destruct (Rlt_dec x 0); [reflexivity|lra].
Qed.
Lemma Rpower_cube x : 0 < x -> Rpower x (/ 3) * Rpower x (/ 3) * Rpower x (/ 3) = x.
Proof.
  intro H. rewrite <- !Rpower_plus. replace (/ 3 + / 3 + / 3) with 1 by field. now apply Rpower_1.
Qed.
(** R_cbrt is the cube root *)
Lemma cbrt_cube x : R_cbrt x * R_cbrt x * R_cbrt x = x.
Proof.
  destruct (total_order_T x 0) as [[H| ->]|H].
  - rewrite cbrt_neg by assumption. assert (K := Rpower_cube (- x) ltac:(lra)).
    set (p := Rpower (- x) (/ 3)) in *. transitivity (- (p * p * p)); [ring|lra].
  - unfold R_cbrt. destruct (Rlt_dec 0 0); lra.
  - rewrite cbrt_pos by assumption. now apply Rpower_cube.
Qed.
Lemma cbrt_neq0 x : x <> 0 -> R_cbrt x <> 0.
Proof. intros H E. apply H. rewrite <- (cbrt_cube x), E. ring. Qed.

Lemma is_derive_cbrt x : x <> 0 -> is_derive R_cbrt x (/ (3 * (R_cbrt x * R_cbrt x))).
Proof.
  intro H. destruct (Rlt_dec 0 x) as [P|P].
  - apply (is_derive_ext_loc (fun x => exp (/ 3 * ln x))).
    + apply (filter_imp (fun t => 0 < t)); [|now apply loc_gt]. intros t Ht. now rewrite cbrt_pos.
    + auto_derive; [exact P|]. rewrite cbrt_pos by assumption.
      fold (Rpower x (/ 3)). assert (K := Rpower_cube x P).
      assert (Q : 0 < Rpower x (/ 3)) by apply exp_pos. set (p := Rpower x (/ 3)) in *. rewrite <- K.
      field. lra.
  - apply (is_derive_ext_loc (fun x => - exp (/ 3 * ln (- x)))).
    + apply (filter_imp (fun t => t < 0)); [|apply loc_lt; lra]. intros t Ht. now rewrite cbrt_neg.
    + auto_derive; [lra|]. rewrite cbrt_neg by lra.
      fold (Rpower (- x) (/ 3)). assert (K := Rpower_cube (- x) ltac:(lra)).
      assert (Q : 0 < Rpower (- x) (/ 3)) by apply exp_pos. set (p := Rpower (- x) (/ 3)) in *. rewrite <- K.
      field. lra.
Qed.
Lemma D_cbrt : derivs2 (fun x => x <> 0) R_cbrt (fun x => / (3 * (R_cbrt x * R_cbrt x)))
  (fun x => - 2 / (9 * x) * / (R_cbrt x * R_cbrt x)).
Proof.
  split; [intros; now apply loc_neq|]. split; [intros; now apply is_derive_cbrt|]. intros x H.
  assert (K := cbrt_neq0 x H). assert (C := cbrt_cube x). auto_derive.
  - split; [eexists; now apply is_derive_cbrt|]. split; [eexists; now apply is_derive_cbrt|]. split; [|auto].
    repeat apply Rmult_integral_contrapositive_currified; lra.
  - derv (is_derive_cbrt x H).
    set (p := R_cbrt x) in *. rewrite <- C. field. auto.
Qed.
