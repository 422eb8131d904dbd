(** * Math2Proofs: derivatives used by the UReal2 part of math.hpp (C23) *)

From Coq Require Import List ZArith Bool Reals Lra Lia.
From Coquelicot Require Import Coquelicot.
From Flocq Require Import Core.
From Verif Require Import Base Num Map UReal World Sums SpecLin SpecObs URealFacts URealR URealProofs.
From Verif Require Import Nan Math SpecMath Derivs Derivs2d ADProofs MathProofs.
From Verif Require Import HessGrad Moments CheckMoments UReal2 HessProofs U2Facts World2 U2World SpecU2 U2Values U2Ret SpecU2Run U2Proofs Demo Demo2.
From Verif Require Import Math2 HgMap SpecMath2.
Import ListNotations.
Local Open Scope R_scope.

Lemma run2_app eig cs1 : forall (w w1 : world2 RN) cs2, run2 eig w cs1 = Ret w1 -> run2 eig w (cs1 ++ cs2) = run2 eig w1 cs2.
Proof.
  induction cs1 as [|c cs1 IH]; intros w w1 cs2; cbn; [now intros [= ->]|].
  destruct (exec2 eig w c) as [w' [| | |]]; try congruence; apply IH.
Qed.
Lemma reachable2_snoc eig (w : world2 RN) c w' : reachable2 eig w ->
  nary_ok2 c -> thr_number c -> is_new2 c = false ->
  run2 eig w [c] = Ret w' -> reachable2 eig w'.
Proof.
  intros (cs & (L1 & L2 & L3) & E) Hn Ht Hi Er. exists (cs ++ [c]). split.
  - split; [apply Forall_app; split; [exact L1|now repeat constructor]|].
    split; [apply Forall_app; split; [exact L2|now repeat constructor]|].
    unfold count_new2 in *. rewrite filter_app. cbn. rewrite Hi, app_nil_r. exact L3.
  - now rewrite (run2_app eig cs w2_init w [c] E).
Qed.
Lemma reachable2_unary eig (w : world2 RN) v t (f f1 f2 : R) z : reachable2 eig w ->
  u2_unary (w2_var w v) (f : RN) (f1 : RN) (f2 : RN) = Ret z -> reachable2 eig (w2_set w t z).
Proof.
  intros H E. apply (reachable2_snoc eig w (EUnary t v (fun _ => f) (fun _ => f1) (fun _ => f2))); try easy.
  cbn. now rewrite E.
Qed.
Lemma reachable2_binary eig (w : world2 RN) u v t (f fx fy fxx fyy fxy : R) z : reachable2 eig w ->
  u2_binary (w2_var w u) (w2_var w v) (f : RN) (fx : RN) (fy : RN) (fxx : RN) (fyy : RN) (fxy : RN) = Ret z ->
  reachable2 eig (w2_set w t z).
Proof.
  intros H E. apply (reachable2_snoc eig w (EBinary t u v (fun _ _ => f) (fun _ _ => fx) (fun _ _ => fy)
    (fun _ _ => fxx) (fun _ _ => fyy) (fun _ _ => fxy))); try easy.
  cbn. now rewrite E.
Qed.

Lemma computes1_2nd_intro m (dom : R -> Prop) (f f1 f2 : R -> R) : derivs2 dom f f1 f2 ->
  (forall (x : ureal2 FN) (a : R), u2_first_order_n x = (Some a : FN) -> dom a ->
     m x = u2_unary x (Some (f a) : FN) (Some (f1 a) : FN) (Some (f2 a) : FN)) ->
  computes1_2nd m dom f.
Proof.
  intros (L & D1 & D2) M eig w v R x a Ha.
  destruct (C27_second_order_chain_rule_partial_proof eig w R v v) as [U _].
  destruct (U (f a) (f1 a) (f2 a)) as (z & E & J1 & J2). clear U.
  exists z, (f1 a), (f2 a). split.
  { rewrite (M (lift2 x) a eq_refl Ha), lift_u2_unary. unfold x. rewrite E. reflexivity. }
  split.
  { exists f1. split; [|split; [reflexivity|now apply D2]].
    apply (filter_imp dom); [exact D1|now apply L]. }
  split; [exact E|]. split; [exact J1|]. split; [exact J2|].
  intro t. exact (reachable2_unary eig w v t _ _ _ z R E).
Qed.
Lemma computes2_2nd_intro m (dom : R -> R -> Prop) (f fx fy fxx fyy fxy : R -> R -> R) :
  derivs2d dom f fx fy fxx fyy fxy ->
  (forall (x y : ureal2 FN) (a b : R), u2_first_order_n x = (Some a : FN) -> u2_first_order_n y = (Some b : FN) -> dom a b ->
     m x y = u2_binary x y (Some (f a b) : FN) (Some (fx a b) : FN) (Some (fy a b) : FN)
                 (Some (fxx a b) : FN) (Some (fyy a b) : FN) (Some (fxy a b) : FN)) ->
  computes2_2nd m dom f.
Proof.
  intros (L & D1 & D2 & D3) M eig w u v R x y a b Ha.
  destruct (C27_second_order_chain_rule_partial_proof eig w R u v) as [_ U].
  destruct (U (f a b) (fx a b) (fy a b) (fxx a b) (fyy a b) (fxy a b)) as (z & E & J1 & J2). clear U.
  exists z, (fx a b), (fy a b), (fxx a b), (fyy a b), (fxy a b). split.
  { rewrite (M (lift2 x) (lift2 y) a b eq_refl eq_refl Ha), lift_u2_binary. unfold x, y. rewrite E. reflexivity. }
  split.
  { exists fx, fy. split; [|split; [reflexivity|split; [reflexivity|split; [now apply D2|now apply D3]]]].
    destruct (L a b Ha) as [e He]. exists e. intros p q Hp Hq. apply D1. now apply He. }
  split; [exact E|]. split; [exact J1|]. split; [exact J2|].
  intro t. exact (reachable2_binary eig w u v t _ _ _ _ _ _ z R E).
Qed.

Lemma std21 x' (m m' d d' e e' : FN) : m = m' -> d = d' -> e = e' ->
  u2_unary (N := FN) x' m d e = u2_unary (N := FN) x' m' d' e'.
Proof. now intros -> -> ->. Qed.
Lemma std22 x' y' (m m' a a' b b' c c' d d' e e' : FN) : m = m' -> a = a' -> b = b' -> c = c' -> d = d' -> e = e' ->
  u2_binary (N := FN) x' y' m a b c d e = u2_binary (N := FN) x' y' m' a' b' c' d' e'.
Proof. now intros -> -> -> -> -> ->. Qed.
Ltac std_instance2 :=
  cbv beta delta [g2_abs g2_fmod g2_remainder g2_fmax g2_fmin g2_exp g2_exp2 g2_expm1 g2_log g2_log10 g2_log2 g2_log1p g2_pow g2_sqrt g2_cbrt g2_hypot g2_sin g2_cos g2_tan g2_asin g2_acos g2_atan g2_atan2 g2_sinh g2_cosh g2_tanh g2_asinh g2_acosh g2_atanh g2_erf g2_erfc]; std_instance.
Ltac p1 D :=
  eapply computes1_2nd_intro; [exact D|]; intros x x0 N0 H; cbn beta in *;
  match goal with |- ?m x = _ => unfold m end; std_instance2; cbv zeta; rewrite N0; clear N0;
  apply std21; unfold lit; cbn [nofZ FN].
Ltac p2 D :=
  eapply computes2_2nd_intro; [exact D|]; intros x y x0 y0 N0 N1 H; cbn beta in *;
  match goal with |- ?m x y = _ => unfold m end; std_instance2; cbv zeta; rewrite N0, N1; clear N0 N1;
  apply std22; unfold lit; cbn [nofZ FN].
(** normalise: division by a provably nonzero number *)
Ltac fd tac := repeat first [progress fpn | rewrite some_div by tac | rewrite std_sqrt_pos by tac].

Lemma P_abs : computes1_2nd m2_abs (fun x => x <> 0) Rabs.
Proof. p1 D_abs; [reflexivity| |reflexivity]. cbn. destruct (Rleb_spec 0 x0); reflexivity. Qed.
Lemma P_exp : computes1_2nd m2_exp (fun _ => True) exp.
Proof. p1 D_exp; reflexivity. Qed.
Lemma P_exp2 : computes1_2nd m2_exp2 (fun _ => True) (Rpower 2).
Proof.
  p1 D_exp2; [reflexivity| |]; rewrite std_log_pos by lra; [reflexivity|]. cbn. f_equal. ring.
Qed.
Lemma P_expm1 : computes1_2nd m2_expm1 (fun _ => True) (fun x => exp x - 1).
Proof. p1 D_expm1; reflexivity. Qed.
Lemma P_log : computes1_2nd m2_log (fun x => 0 < x) ln.
Proof.
  p1 D_ln; [now apply std_log_pos| |].
  - fd lra. f_equal. field. lra.
  - assert (0 < x0 * x0) by nra. fd lra. f_equal. field. lra.
Qed.
Lemma P_logb (b : R) (m : ureal2 FN -> outcome (ureal2 FN)) : 1 < b ->
  (forall x, m x = u2_unary x (fp_dom (fun x => Rltb 0 x) (fun x => ln x / ln b) (u2_first_order_n x) : FN)
     (ndiv (ndiv (Some 1 : FN) (std_log (Some b))) (u2_first_order_n x))
     (ndiv (nopp (ndiv (Some 1 : FN) (std_log (Some b)))) (nmul (u2_first_order_n x) (u2_first_order_n x)))) ->
  computes1_2nd m (fun x => 0 < x) (fun x => ln x / ln b).
Proof.
  intros Hb M. eapply computes1_2nd_intro; [exact (D_logb b Hb)|]. intros x x0 N0 H. rewrite M, N0.
  assert (K := ln_gt1 b Hb). assert (0 < x0 * x0) by nra. rewrite std_log_pos by lra.
  apply std21; [etransitivity; [apply some_dom; now apply Rltb_true|reflexivity]| |]; fd lra; f_equal; field; lra.
Qed.
Lemma P_log10 : computes1_2nd m2_log10 (fun x => 0 < x) (fun x => ln x / ln 10).
Proof. apply P_logb; [lra|]. reflexivity. Qed.
Lemma P_log2 : computes1_2nd m2_log2 (fun x => 0 < x) (fun x => ln x / ln 2).
Proof. apply P_logb; [lra|]. reflexivity. Qed.
Lemma P_log1p : computes1_2nd m2_log1p (fun x => -1 < x) (fun x => ln (1 + x)).
Proof.
  p1 D_log1p; [etransitivity; [apply some_dom; now apply Rltb_true|reflexivity]| |];
    fd lra; f_equal; field; lra.
Qed.
Lemma P_sqrt : computes1_2nd m2_sqrt (fun x => 0 < x) sqrt.
Proof.
  p1 D_sqrt; rewrite std_sqrt_pos by lra; [reflexivity| |]; assert (K := sqrt_lt_R0 _ H).
  - fd lra. f_equal. field. lra.
  - assert (0 < 4 * x0 * sqrt x0) by nra. fd lra. f_equal. field. lra.
Qed.
Lemma P_sin : computes1_2nd m2_sin (fun _ => True) sin.
Proof. p1 D_sin; reflexivity. Qed.
Lemma P_cos : computes1_2nd m2_cos (fun _ => True) cos.
Proof. p1 D_cos; reflexivity. Qed.
Lemma P_tan : computes1_2nd m2_tan (fun x => cos x <> 0) tan.
Proof. p1 D_tan; rewrite std_tan_dom by assumption; reflexivity. Qed.
Lemma sqrt_inv' a : 0 < a -> sqrt (1 / a) = / sqrt a.
Proof. intro H. unfold Rdiv. rewrite Rmult_1_l. apply sqrt_inv. Qed.
Lemma inv_nonneg a : 0 < a -> 0 <= 1 / a.
Proof. intro H. apply Rlt_le, Rdiv_lt_0_compat; lra. Qed.
Ltac sq K := fpn; rewrite some_div by lra; rewrite ?(std_sqrt_pos _ (inv_nonneg _ K)), ?(sqrt_inv' _ K);
  fpn; f_equal; try (field; lra).
Lemma P_asin : computes1_2nd m2_asin (fun x => -1 < x < 1) asin.
Proof.
  p1 D_asin.
  - apply some_dom. apply andb_true_intro; split; apply Rleb_true; lra.
  - assert (K := one_minus_sq x0 H). assert (Q := sqrt_lt_R0 _ K). sq K.
  - assert (K := one_minus_sq x0 H). assert (Q := sqrt_lt_R0 _ K). sq K.
Qed.
Lemma P_acos : computes1_2nd m2_acos (fun x => -1 < x < 1) acos.
Proof.
  p1 D_acos.
  - apply some_dom. apply andb_true_intro; split; apply Rleb_true; lra.
  - assert (K := one_minus_sq x0 H). assert (Q := sqrt_lt_R0 _ K). sq K.
  - assert (K := one_minus_sq x0 H). assert (Q := sqrt_lt_R0 _ K). sq K.
Qed.
Lemma P_atan : computes1_2nd m2_atan (fun _ => True) atan.
Proof.
  p1 D_atan; [reflexivity| |]; assert (K := sq1_pos x0); fd lra; f_equal; field; lra.
Qed.
Lemma P_sinh : computes1_2nd m2_sinh (fun _ => True) sinh.
Proof. p1 D_sinh; reflexivity. Qed.
Lemma P_cosh : computes1_2nd m2_cosh (fun _ => True) cosh.
Proof. p1 D_cosh; reflexivity. Qed.
Lemma P_tanh : computes1_2nd m2_tanh (fun _ => True) tanh.
Proof. p1 D_tanh; reflexivity. Qed.
Lemma P_asinh : computes1_2nd m2_asinh (fun _ => True) R_asinh.
Proof.
  p1 D_asinh; [reflexivity| |]; assert (K0 := sq1_pos x0); assert (K : 0 < 1 + x0 * x0) by lra;
    assert (Q := sqrt_lt_R0 _ K); rewrite (Rplus_comm (x0 * x0) 1); sq K.
Qed.
Lemma P_acosh : computes1_2nd m2_acosh (fun x => 1 < x) R_acosh.
Proof.
  p1 D_acosh; [apply some_dom; apply Rleb_true; lra| |];
    assert (K : 0 < x0 * x0 - 1) by nra; assert (Q := sqrt_lt_R0 _ K); sq K.
Qed.
Lemma P_atanh : computes1_2nd m2_atanh (fun x => -1 < x < 1) R_atanh.
Proof.
  p1 D_atanh.
  - apply some_dom. apply andb_true_intro; split; apply Rltb_true; lra.
  - assert (K := one_minus_sq x0 H). fd lra. f_equal. field. lra.
  - assert (K := one_minus_sq x0 H). fd lra. f_equal. field. lra.
Qed.
Lemma P_erf : computes1_2nd m2_erf (fun _ => True) R_erf.
Proof.
  p1 D_erf; [reflexivity| |]; rewrite erf_coeff_val; cbn; replace (- x0 * x0) with (- (x0 * x0)) by ring; f_equal; ring.
Qed.
Lemma P_erfc : computes1_2nd m2_erfc (fun _ => True) (fun x => 1 - R_erf x).
Proof.
  p1 D_erfc; [reflexivity| |]; rewrite erf_coeff_val; cbn; replace (- x0 * x0) with (- (x0 * x0)) by ring; f_equal; ring.
Qed.
Lemma P_cbrt : computes1_2nd m2_cbrt (fun x => x <> 0) R_cbrt.
Proof.
  p1 D_cbrt; [reflexivity| |]; change (std_cbrt (Some x0)) with (Some (R_cbrt x0)); assert (K := cbrt_neq0 x0 H).
  - assert (R_cbrt x0 * R_cbrt x0 <> 0) by (now apply Rmult_integral_contrapositive_currified).
    fd ltac:(first [assumption|lra]). f_equal. field. assumption.
  - assert (R_cbrt x0 * R_cbrt x0 <> 0) by (now apply Rmult_integral_contrapositive_currified).
    fd ltac:(first [assumption|lra]). f_equal. field. split; assumption.
Qed.

(** ** functions of two variables *)

Lemma P_fmod : computes2_2nd m2_fmod fmod_dom R_fmod.
Proof.
  p2 D2_fmod; try reflexivity; destruct H as [Hy H].
  - cbn. destruct (Req_EM_T y0 0); [contradiction|reflexivity].
  - rewrite some_div by assumption. reflexivity.
Qed.
Lemma P_remainder : computes2_2nd m2_remainder remainder_dom R_remainder.
Proof.
  p2 D2_remainder; try reflexivity; destruct H as [Hy H].
  - cbn. destruct (Req_EM_T y0 0); [contradiction|reflexivity].
  - rewrite some_div by assumption. cbn. do 3 f_equal. now apply nearestA_E.
Qed.
Lemma P_fmax : computes2_2nd m2_fmax (fun x y => x <> y) Rmax.
Proof.
  p2 D2_fmax; try reflexivity;
    cbn; destruct (Rltb_spec x0 y0); destruct (Reqb_spec (Rmax x0 y0) x0) as [E|E]; try reflexivity; exfalso;
    first [rewrite Rmax_left in E by lra; lra|rewrite Rmax_right in E by lra; lra].
Qed.
Lemma P_fmin : computes2_2nd m2_fmin (fun x y => x <> y) Rmin.
Proof.
  p2 D2_fmin; try reflexivity;
    cbn; destruct (Rltb_spec x0 y0); destruct (Reqb_spec (Rmin x0 y0) x0) as [E|E]; try reflexivity; exfalso;
    first [rewrite Rmin_left in E by lra; lra|rewrite Rmin_right in E by lra; lra].
Qed.
Lemma P_pow : computes2_2nd m2_pow (fun x y => 0 < x) Rpower.
Proof.
  p2 D2_pow; rewrite ?std_pow_pos, ?std_log_pos by assumption; fd lra; f_equal; field; lra.
Qed.
Lemma P_hypot : computes2_2nd m2_hypot (fun x y => x <> 0 \/ y <> 0) (fun x y => sqrt (x * x + y * y)).
Proof.
  p2 D2_hypot; change (std_hypot (Some x0) (Some y0)) with (Some (R_hypot x0 y0)); 
    assert (K : 0 < R_hypot x0 y0) by (apply sqrt_lt_R0, sumsq_pos, H); fd lra;
    f_equal; try reflexivity; field; lra.
Qed.
Lemma atan2_pos x y : atan2_dom x y -> 0 < x * x + y * y.
Proof. intros [H|H]; apply sumsq_pos; [now left|right; lra]. Qed.
Lemma P_atan2 : computes2_2nd m2_atan2 atan2_dom R_atan2.
Proof.
  p2 D2_atan2; assert (K := atan2_pos _ _ H); fd lra; try reflexivity; f_equal; field; lra.
Qed.

Lemma C23_unary_functions_proof :
  computes1_2nd m2_abs (fun x => x <> 0) Rabs /\
  computes1_2nd m2_exp (fun _ => True) exp /\
  computes1_2nd m2_exp2 (fun _ => True) (fun x => Rpower 2 x) /\
  computes1_2nd m2_expm1 (fun _ => True) (fun x => exp x - 1) /\
  computes1_2nd m2_log (fun x => 0 < x) ln /\
  computes1_2nd m2_log10 (fun x => 0 < x) (fun x => ln x / ln 10) /\
  computes1_2nd m2_log2 (fun x => 0 < x) (fun x => ln x / ln 2) /\
  computes1_2nd m2_log1p (fun x => -1 < x) (fun x => ln (1 + x)) /\
  computes1_2nd m2_sqrt (fun x => 0 < x) sqrt /\
  computes1_2nd m2_sin (fun _ => True) sin /\
  computes1_2nd m2_cos (fun _ => True) cos /\
  computes1_2nd m2_tan (fun x => cos x <> 0) tan /\
  computes1_2nd m2_asin (fun x => -1 < x < 1) asin /\
  computes1_2nd m2_acos (fun x => -1 < x < 1) acos /\
  computes1_2nd m2_atan (fun _ => True) atan /\
  computes1_2nd m2_sinh (fun _ => True) sinh /\
  computes1_2nd m2_cosh (fun _ => True) cosh /\
  computes1_2nd m2_tanh (fun _ => True) tanh /\
  computes1_2nd m2_asinh (fun _ => True) (fun x => ln (x + sqrt (x * x + 1))) /\
  computes1_2nd m2_acosh (fun x => 1 < x) (fun x => ln (x + sqrt (x * x - 1))) /\
  computes1_2nd m2_atanh (fun x => -1 < x < 1) (fun x => ln ((1 + x) / (1 - x)) / 2) /\
  computes1_2nd m2_erf (fun _ => True) (fun x => 2 / sqrt PI * RInt (fun t => exp (- (t * t))) 0 x) /\
  computes1_2nd m2_erfc (fun _ => True) (fun x => 1 - 2 / sqrt PI * RInt (fun t => exp (- (t * t))) 0 x).
Proof.
  split; [exact P_abs|]. split; [exact P_exp|]. split; [exact P_exp2|]. split; [exact P_expm1|].
  split; [exact P_log|]. split; [exact P_log10|]. split; [exact P_log2|]. split; [exact P_log1p|].
  split; [exact P_sqrt|]. split; [exact P_sin|]. split; [exact P_cos|]. split; [exact P_tan|].
  split; [exact P_asin|]. split; [exact P_acos|]. split; [exact P_atan|]. split; [exact P_sinh|].
  split; [exact P_cosh|]. split; [exact P_tanh|]. split; [exact P_asinh|]. split; [exact P_acosh|].
  split; [exact P_atanh|]. split; [exact P_erf|]. exact P_erfc.
Qed.
Lemma C23_cbrt_proof : exists cbrt : R -> R, (forall x, cbrt x * cbrt x * cbrt x = x) /\
  computes1_2nd m2_cbrt (fun x => x <> 0) cbrt.
Proof. exists R_cbrt. split; [exact cbrt_cube|exact P_cbrt]. Qed.

Lemma C23_binary_functions_proof :
  computes2_2nd m2_fmod (fun x y => y <> 0 /\ forall k, k <> 0%Z -> x / y <> IZR k)
    (fun x y => x - IZR (Ztrunc (x / y)) * y) /\
  computes2_2nd m2_remainder (fun x y => y <> 0 /\ forall k, x / y <> IZR k + / 2)
    (fun x y => x - IZR (ZnearestE (x / y)) * y) /\
  computes2_2nd m2_fmax (fun x y => x <> y) Rmax /\
  computes2_2nd m2_fmin (fun x y => x <> y) Rmin /\
  computes2_2nd m2_pow (fun x y => 0 < x) Rpower /\
  computes2_2nd m2_hypot (fun x y => x <> 0 \/ y <> 0) (fun x y => sqrt (x * x + y * y)).
Proof.
  split; [exact P_fmod|]. split; [exact P_remainder|]. split; [exact P_fmax|]. split; [exact P_fmin|].
  split; [exact P_pow|exact P_hypot].
Qed.
Lemma hyp_scale x y : y <> 0 -> sqrt (x * x + y * y) = Rabs y * sqrt (1 + Rsqr (x / y)).
Proof.
  intro H. rewrite <- sqrt_Rsqr_abs, <- sqrt_mult_alt by apply Rle_0_sqr. f_equal. unfold Rsqr. field. exact H.
Qed.
Lemma hyp_pos t : 0 < sqrt (1 + Rsqr t).
Proof. apply sqrt_lt_R0. assert (H := Rle_0_sqr t). lra. Qed.
Lemma atan_neg t : t < 0 -> - PI / 2 < atan t < 0.
Proof. intro H. assert (B := atan_bound t). rewrite <- atan_0. split; [lra|now apply atan_increasing]. Qed.
Lemma atan_pos t : 0 < t -> 0 < atan t < PI / 2.
Proof. intro H. assert (B := atan_bound t). split; [|lra]. rewrite <- atan_0. now apply atan_increasing. Qed.
Lemma atan2_polar x y : x <> 0 \/ y <> 0 ->
  - PI < R_atan2 x y <= PI /\ y = sqrt (x * x + y * y) * cos (R_atan2 x y) /\ x = sqrt (x * x + y * y) * sin (R_atan2 x y).
Proof.
  intro H. unfold R_atan2. assert (PP := PI_RGT_0). assert (B := atan_bound (x / y)).
  assert (S := hyp_pos (x / y)).
  destruct (Rlt_dec 0 y) as [Hy|Hy].
  - rewrite hyp_scale, Rabs_pos_eq, cos_atan, sin_atan by lra. split; [lra|]. split; field; lra.
  - destruct (Rlt_dec y 0) as [Hy'|Hy'].
    + rewrite hyp_scale, Rabs_left by lra.
      destruct (Rlt_dec x 0) as [Hx|Hx].
      * assert (P : 0 < x / y) by (replace (x / y) with (- x * / - y) by (field; lra);
          apply Rmult_lt_0_compat; [lra|apply Rinv_0_lt_compat; lra]).
        apply atan_pos in P. rewrite cos_minus, sin_minus, cos_PI, sin_PI, cos_atan, sin_atan.
        split; [lra|]. split; field; lra.
      * assert (P : atan (x / y) <= 0).
        { destruct (Req_dec x 0) as [->|Nx]; [unfold Rdiv; rewrite Rmult_0_l, atan_0; lra|].
          apply Rlt_le, atan_neg. replace (x / y) with (- (x * / - y)) by (field; lra).
          assert (0 < x * / - y) by (apply Rmult_lt_0_compat; [lra|apply Rinv_0_lt_compat; lra]). lra. }
        rewrite cos_plus, sin_plus, cos_PI, sin_PI, cos_atan, sin_atan.
        split; [lra|]. split; field; lra.
    + assert (y = 0) as -> by lra. replace (x * x + 0 * 0) with (Rsqr x) by (unfold Rsqr; ring). rewrite sqrt_Rsqr_abs.
      destruct (Rlt_dec 0 x) as [Hx|Hx].
      * rewrite Rabs_pos_eq, cos_PI2, sin_PI2 by lra. split; [lra|]. split; ring.
      * destruct (Rlt_dec x 0) as [Hx'|Hx'].
        -- rewrite Rabs_left, cos_neg, sin_neg, cos_PI2, sin_PI2 by lra. split; [lra|]. split; ring.
        -- exfalso. destruct H; lra.
Qed.
(** the angle of the point (y, x), on the plane without the half axis where it jumps *)
Lemma C23_atan2_proof : exists angle : R -> R -> R,
  (forall x y, x <> 0 \/ y <> 0 ->
     - PI < angle x y <= PI /\ y = sqrt (x * x + y * y) * cos (angle x y) /\ x = sqrt (x * x + y * y) * sin (angle x y)) /\
  computes2_2nd m2_atan2 (fun x y => x <> 0 \/ 0 < y) angle.
Proof. exists R_atan2. split; [exact atan2_polar|exact P_atan2]. Qed.

(** pow with a number as exponent *)

Lemma bin_merge_nil {N : Num} (dx dy dy' hx hy hy' : N) xs : forall r,
  bin_merge dx dy hx hy xs [] r = bin_merge dx dy' hx hy' xs [] r.
Proof.
  induction xs as [|v xs IH]; intro r; [reflexivity|]. cbn [bin_merge].
  destruct (pleb _ _); [|reflexivity]. unfold bin_x. destruct (unary_step dx hx r v); cbn [bind]; try reflexivity.
  destruct (pleb _ _); [reflexivity|]. apply IH.
Qed.
Lemma cross_nil {N : Num} (h : N) dx : forall r, cross h dx [] r = Ret r.
Proof. unfold cross. induction dx as [|p dx IH]; intro r; [reflexivity|]. cbn. apply IH. Qed.
Lemma binary_number {N : Num} (x : ureal2 N) (c f fx fy fy' fxx fyy fyy' fxy fxy' : N) :
  u2_binary x (u2_const c) f fx fy fxx fyy fxy = u2_binary x (u2_const c) f fx fy' fxx fyy' fxy'.
Proof.
  unfold u2_binary. cbv zeta. destruct (hess_visits (u2hg x) _) as [xs| | |]; cbn [bind]; try reflexivity.
  assert (V : forall s, hess_visits (u2hg (u2_const c)) s = Ret []) by reflexivity. rewrite !V. cbn [bind].
  rewrite (bin_merge_nil _ _ fy' _ _ (ndiv fyy' (nofZ 2))).
  destruct (bin_merge _ _ _ _ xs [] hg_empty) as [r| | |]; cbn [bind]; try reflexivity.
  change (diagmap (u2hg (u2_const c))) with (@nil (Z * diag N)). rewrite !cross_nil.
  destruct (negb _), (negb _); reflexivity.
Qed.

Lemma pow_neg (x : ureal2 FN) (a : R) k : u2_first_order_n x = (Some a : FN) -> a < 0 ->
  let mu := powerRZ a k in let d1 := mu * (1 / a) * IZR k in let d2 := d1 * (1 / a) * (IZR k - 1) in
  m2_pow x (lift2 (u2_const (IZR k))) =
  u2_binary x (lift2 (u2_const (IZR k))) (Some mu : FN) (Some d1 : FN) (Some 0 : FN) (Some d2 : FN) (Some 0 : FN) (Some 0 : FN).
Proof.
  intros Nx Ha mu d1 d2. change (lift2 (u2_const (IZR k))) with (u2_const (Some (IZR k) : FN)).
  unfold m2_pow. std_instance2. cbv zeta. rewrite Nx.
  assert (Ny : u2_first_order_n (u2_const (Some (IZR k) : FN)) = Some (IZR k)) by reflexivity. rewrite Ny.
  assert (P : std_pow (Some a) (Some (IZR k)) = Some mu).
  { unfold std_pow. destruct (Rltb_spec 0 a); [lra|]. rewrite Ztrunc_IZR.
    destruct (Req_EM_T (IZR k) (IZR k)); [|congruence].
    destruct (Reqb_spec a 0); [lra|]. reflexivity. }
  rewrite P. unfold lit. cbn [nofZ FN]. rewrite (some_div 1 a) by lra.
  rewrite (some_mul mu (1 / a)), (some_mul (mu * (1 / a)) (IZR k)), (some_mul (mu * (1 / a) * IZR k) (1 / a)).
  fold d1. rewrite (some_sub (IZR k) 1), (some_mul (d1 * (1 / a)) (IZR k - 1)). fold d2.
  apply binary_number.
Qed.

Lemma powerRZ_twice (a : R) k : a <> 0 ->
  twice_derivable (fun t => powerRZ t k) a (powerRZ a k * (1 / a) * IZR k)
    (powerRZ a k * (1 / a) * IZR k * (1 / a) * (IZR k - 1)).
Proof.
  intro Ha. exists (fun t => IZR k * powerRZ t (k - 1)).
  assert (P : forall t, t <> 0 -> powerRZ t (k - 1) = powerRZ t k / t).
  { intros t Ht. unfold Z.sub. rewrite powerRZ_add by exact Ht. replace (powerRZ t (- (1))) with (/ t); [reflexivity|]. change (powerRZ t (- (1))) with (/ (t ^ 1)). now rewrite pow_1. }
  split; [|split].
  - apply (filter_imp (fun t : R => t <> 0)); [|apply (loc_neq 0); exact Ha].
    intros t Ht. rewrite P by exact Ht. replace (IZR k * (powerRZ t k / t)) with (powerRZ t k * IZR k / t) by (field; exact Ht).
    now apply is_derive_powerRZ.
  - rewrite P by exact Ha. field. exact Ha.
  - assert (D := is_derive_powerRZ (k - 1) a Ha). apply (is_derive_scal _ _ (IZR k)) in D.
    rewrite (P a Ha), minus_IZR in D.
    replace (powerRZ a k * (1 / a) * IZR k * (1 / a) * (IZR k - 1)) with (IZR k * (powerRZ a k / a * (IZR k - 1) / a)) by (field; exact Ha).
    exact D.
Qed.

Lemma C23_pow_integer_exponent_proof : forall eig w u v k, reachable2 eig w ->
  let x := w2_var w u in let y := w2_var w v in let a := u2_first_order_n x in
  a < 0 -> y = u2_const (IZR k) ->
  exists z d1 d2, m2_pow (lift2 x) (lift2 y) = Ret (lift2 z) /\
    twice_derivable (fun t => powerRZ t k) a d1 d2 /\
    jet_eq_diag (jet_of z) (jet_unary (jet_of x) (powerRZ a k) d1 d2) /\
    (d2 = 0 \/ single (jet_of x) -> jet_eq (jet_of z) (jet_unary (jet_of x) (powerRZ a k) d1 d2)) /\
    (forall t, reachable2 eig (w2_set w t z)).
Proof.
  intros eig w u v k RR x y a Ha Hy.
  set (mu := powerRZ a k).
  set (d1 := mu * (1 / a) * IZR k). set (d2 := d1 * (1 / a) * (IZR k - 1)).
  destruct (C27_second_order_chain_rule_partial_proof eig w RR u v) as [_ U]. cbv zeta in U. fold x y in U.
  destruct (U mu d1 0 d2 0 0) as (z & E & J1 & J2). clear U.
  exists z, d1, d2. split.
  { rewrite Hy. rewrite (pow_neg (lift2 x) a k eq_refl Ha). fold mu. fold d1. fold d2.
    etransitivity; [exact (lift_u2_binary x (u2_const (IZR k)) mu d1 0 d2 0 0)|].
    rewrite <- Hy. exact (f_equal (omap lift2) E). }
  assert (JE : jet_eq (jet_binary (jet_of x) (jet_of y) mu d1 0 d2 0 0) (jet_unary (jet_of x) mu d1 d2)).
  { rewrite Hy. split; [reflexivity|]. split; [intro i; cbn; tauto|]. split.
    - intro i. cbn. lra.
    - intros i j. cbn. destruct (i =? j)%Z; lra. }
  split.
  { apply powerRZ_twice. exact (Rlt_not_eq _ _ Ha). }
  destruct JE as (M & D & G & H). split; [|split].
  - destruct J1 as (A1 & A2 & A3 & A4). split; [exact A1|]. split; [intro i; rewrite A2; apply D|].
    split; [intro i; rewrite A3; apply G|intro i; rewrite A4; apply H].
  - intro C. apply (jet_eq_trans _ (jet_binary (jet_of x) (jet_of y) mu d1 0 d2 0 0)).
    + apply J2; [exact C|now left].
    + split; [exact M|]. split; [exact D|]. split; [exact G|exact H].
  - intro t. exact (reachable2_binary eig w u v t _ _ _ _ _ _ z RR E).
Qed.

(** two independent variables and a number *)
Lemma reach2_3 (a sa b sb c : R) : 0 <= sa -> 0 <= sb -> exists w, reachable2 no_eig w /\
  w2_var w 0%nat = mkU2 (mkHG [(1%Z, mkD (sa : RN) (0 : RN) (Some gauss))] []) (a : RN) /\
  w2_var w 1%nat = mkU2 (mkHG [(2%Z, mkD (sb : RN) (0 : RN) (Some gauss))] []) (b : RN) /\
  w2_var w 2%nat = u2_const (c : RN).
Proof.
  intros Ha Hb.
  set (cs := [ENewStd 0%nat (a : RN) (sa : RN) gauss (-1); ENewStd 1%nat (b : RN) (sb : RN) gauss (-1); EConst 2%nat (c : RN)]).
  assert (E : exists w, run2 no_eig w2_init cs = Ret w /\
    w2_var w 0%nat = mkU2 (mkHG [(1%Z, mkD (sa : RN) (0 : RN) (Some gauss))] []) (a : RN) /\
    w2_var w 1%nat = mkU2 (mkHG [(2%Z, mkD (sb : RN) (0 : RN) (Some gauss))] []) (b : RN) /\
    w2_var w 2%nat = u2_const (c : RN)).
  { unfold cs. cbn [run2 exec2]. rewrite new_std_free by lra.
    cbn [assign2 run2 exec2 w2_last set_last w2_w w_last w2_init w_init w2_var]. rewrite wrap1.
    rewrite new_std_free by lra.
    cbn [assign2 run2 exec2 w2_last set_last w2_w w_last w2_init w_init w2_var]. rewrite wrap2.
    unfold upd2. eexists. split; [reflexivity|]. cbn [w2_var Nat.eqb]. auto. }
  destruct E as (w & E & V). exists w. split; [|exact V]. exists cs. split; [|exact E].
  split; [repeat constructor|]. split; [|apply max_new_ge; cbn; lia].
  repeat constructor; cbn; intro H; apply Rltb_false in H; exfalso; lra.
Qed.

(** x^2 at mean zero: twice differentiable, but the result is not a number. *)
Lemma C23_pow_zero_base_refuted_proof : exists eig w, reachable2 eig w /\
  let x := w2_var w 0%nat in let y := w2_var w 2%nat in
  u2_first_order_n x = 0 /\ j_g (jet_of x) 1%Z = 1 /\ y = u2_const (2 : RN) /\
  twice_derivable (fun t => powerRZ t 2) 0 0 2 /\
  exists z, m2_pow (lift2 x) (lift2 y) = Ret z /\ ~ all_numbers2 z.
Proof.
  destruct (reach2_3 0 1 0 0 2) as (w & Hw & E0 & _ & E2); [lra|lra|].
  exists no_eig, w. split; [exact Hw|]. cbv zeta. rewrite E0, E2.
  split; [reflexivity|]. split; [reflexivity|]. split; [reflexivity|]. split.
  - exists (fun t => 2 * t). split; [|split; [ring|]].
    + apply filter_forall. intro t. cbn. auto_derive; [auto|]. ring.
    + auto_derive; [auto|]. ring.
  - unfold m2_pow. std_instance2. cbv zeta.
    assert (Nx : u2_first_order_n (lift2 (mkU2 (mkHG [(1%Z, mkD (1 : RN) (0 : RN) (Some gauss))] []) (0 : RN))) = Some 0) by reflexivity.
    assert (Ny : u2_first_order_n (lift2 (u2_const (2 : RN))) = Some 2) by reflexivity.
    rewrite Nx, Ny. clear Nx Ny.
    assert (Ly : lift2 (u2_const (2 : RN)) = u2_const (Some 2 : FN)) by reflexivity. rewrite Ly.
    assert (D : forall a : FN, ndiv a (Some 0 : FN) = None).
    { intros [a|]; [|reflexivity]. cbn. destruct (Req_EM_T 0 0); [reflexivity|congruence]. }
    assert (M : forall a : FN, nmul a (None : FN) = None) by (now intros [a|]).
    rewrite D, M. rewrite (binary_number _ _ _ _ _ (Some 0 : FN) _ _ (Some 0 : FN) _ (Some 0 : FN)).
    unfold u2_binary; cbv zeta. match goal with |- context [negb ?b] => destruct (negb b) end; eexists; (split; [reflexivity|]); intros [x' E];
    apply (f_equal (fun u => diagmap (u2hg u))) in E; cbn in E;
    destruct (diagmap (u2hg x')) as [|[k v] l]; discriminate E.
Qed.
