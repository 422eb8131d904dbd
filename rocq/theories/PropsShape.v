(** * PropsShape: deviation, skewness, kurtosis and correlation of UReal2 on doubles (C82)

    Generated from tools/PropsShape.in. *)

From Coq Require Import List ZArith Bool Reals Lra Lia.
From Flocq Require Import Core BinarySingleNaN.
From Verif Require Import Base Num Map UReal World HessGrad Moments CheckMoments UReal2 World2 SpecObs SpecU2 SpecU2Run SpecCast SpecProb SpecMom
  Ieee SpecIeee SpecAcc2 SpecShape ShapeAcc ShapeAcc2 DemoAcc2 DemoShape.
Import ListNotations.
Local Open Scope R_scope.

(** ** C82 *)
Theorem C82_moments_exist : forall eig (cs : list (call2 DN)) w, legal2 cs -> run2 eig w2_init cs = Ret w ->
  forall v, let x := w2_var w v in ordinary x -> forall n, (1 <= n <= 4)%nat ->
  exists r e, exact_moment x n r e /\ gives (u2_m x (Z.of_nat n)) r e /\ forall r' e', exact_moment x n r' e' -> r' = r /\ e' = e.
Proof. exact C82_moments_exist_proof. Qed.
Print Assumptions C82_moments_exist.
Theorem C82_deviation_partial : forall eig (cs : list (call2 DN)) w, legal2 cs -> run2 eig w2_init cs = Ret w ->
  forall v, let x := w2_var w v in ordinary x -> forall r2 e2, exact_moment x 2 r2 e2 -> conditioned r2 e2 ->
  gives (u2_s x) (sqrt r2) (dev_err r2 e2 * sqrt r2) /\
  (forall r3 e3, exact_moment x 3 r3 e3 -> Rabs r3 + e3 <= pow2 1000 * (sqrt r2 * r2) ->
     gives (u2_skew x) (r3 / (sqrt r2 * r2)) ((3 * e3 + 7 * dev_err r2 e2 * Rabs r3) / (sqrt r2 * r2) + pow2 (-1075))) /\
  (forall r4 e4, exact_moment x 4 r4 e4 -> Rabs r4 + e4 <= pow2 1000 * (r2 * r2) ->
     gives (u2_kurt x) (r4 / (r2 * r2)) ((3 * e4 + 7 * dev_err r2 e2 * Rabs r4) / (r2 * r2) + pow2 (-1075))).
Proof. exact C82_deviation_partial_proof. Qed.
Print Assumptions C82_deviation_partial.
Theorem C82_correlation_partial : forall eig (cs : list (call2 DN)) w, legal2 cs -> run2 eig w2_init cs = Ret w ->
  forall v v', let x := w2_var w v in let y := w2_var w v' in ordinary x -> ordinary y ->
  forall rx ex ry ey c a, exact_moment x 2 rx ex -> conditioned rx ex -> exact_moment y 2 ry ey -> conditioned ry ey ->
  u2_cov (exactly x) (exactly y) = Ret c -> u2_cov (sized 0 x) (sized 0 y) = Ret a ->
  let e := 4 * INR (depth_cov (n_ids x) (n_ids y)) * uround * a in Rabs c + e <= pow2 1000 * (sqrt rx * sqrt ry) ->
  let dl := Rmax (dev_err rx ex) (dev_err ry ey) in
  gives (u2_corr x y) (c / (sqrt rx * sqrt ry)) ((3 * e + 7 * dl * Rabs c) / (sqrt rx * sqrt ry) + pow2 (-1075)).
Proof. exact C82_correlation_partial_proof. Qed.
Print Assumptions C82_correlation_partial.
Theorem C82_linear : forall eig (cs : list (call2 DN)) w, legal2 cs -> run2 eig w2_init cs = Ret w ->
  forall v, let x := w2_var w v in ordinary x -> (forall i j, j_h (jet_of (exactly x)) i j = 0) ->
  let r := fold_right (fun (kd : Z * diag DN) s => real_of (dgrad (snd kd)) ^ 2 + s) 0 (diagmap (u2hg x)) in r <> 0 ->
  let k := 4 * INR (depth 2 (n_ids x)) * uround in
  exact_moment x 2 r (k * r) /\ conditioned r (k * r) /\ gives (u2_s x) (sqrt r) ((k + 2 * uround) * sqrt r).
Proof. exact C82_linear_proof. Qed.
Print Assumptions C82_linear.
Theorem C82_deviation_refuted : exists eig (cs : list (call2 DN)) w, legal2 cs /\ run2 eig w2_init cs = Ret w /\
  (forall v mu s m t, In (ENewStd v mu s m t) cs -> realizable (moms_convert (N := DN) (M := RN) real_of m)) /\
  exists v, let x := w2_var w v in ordinary x /\
  exists m s k, u2_m x 2 = Ret m /\ finite m /\ real_of m < 0 /\ u2_s x = Ret s /\ is_nan s = true /\ u2_skew x = Ret k /\ is_nan k = true /\ u2_m (exactly x) 2 = Ret 0.
Proof. exact C82_deviation_refuted_proof. Qed.
Print Assumptions C82_deviation_refuted.
(** x = 3 +- 2, y = 5 +- 1 with the moments of exponential variables; z = x y x. *)
Example C82_case : let x := w2_var acc_world 3%nat in legal2 acc_demo /\ run2 no_eig w2_init acc_demo = Ret acc_world /\ ordinary x /\
  exact_moment x 2 11825 (merr x 2 12625) /\ exact_moment x 3 7161906 (merr x 3 8644906) /\ exact_moment x 4 8809708905 (merr x 4 10133253865) /\
  conditioned 11825 (merr x 2 12625) /\
  Rabs 7161906 + merr x 3 8644906 <= pow2 1000 * (sqrt 11825 * 11825) /\ Rabs 8809708905 + merr x 4 10133253865 <= pow2 1000 * (11825 * 11825).
Proof.
  cbv zeta. split; [exact acc_demo_legal|]. split; [exact acc_demo_run|]. split; [exact z_ordinary|].
  destruct z_moments as (A & B & C). destruct z_case as (D & E & F). auto 10.
Qed.
