(** * FunProofs2: what the function factories propagate (C24) *)

From Coq Require Import List ZArith Bool Reals Lra Lia.
From Coquelicot Require Import Coquelicot.
From Verif Require Import Base Num Map UReal World Sums SpecLin SpecObs URealFacts URealR URealProofs.
From Verif Require Import SpecMath Derivs Derivs2d ADProofs MathProofs.
From Verif Require Import HessGrad Moments CheckMoments UReal2 HessProofs U2Facts World2 U2World SpecU2 U2Values U2Ret SpecU2Run U2Proofs.
From Verif Require Import Functions SpecMath2 SpecFun Math2Proofs FunProofs.
Import ListNotations.
Local Open Scope R_scope.

Lemma follows1_unary (w : world RN) v (m d : R) : reachable w -> follows1 w (w_var w v) (u_unary (w_var w v) (m : RN) (d : RN)) m d.
Proof.
  intro Hw. destruct (reachable_rep w Hw) as (last & g & B & H). set (x := w_var w v).
  assert (Ru : rep last (u_unary x (m : RN) (d : RN)) (lin_unary (g v) m d))
    by (apply rep_unary; [apply H|reflexivity|reflexivity]).
  split; [exact (rep_mean _ _ _ Ru)|]. split; [|split].
  - rewrite (rep_s last _ _ Ru), (rep_s last x _ (H v)). unfold lin_sdev, lin_var. rewrite lin_cov_unary.
    replace (lin_cov last (g v) (lin_unary (g v) m d)) with (d * lin_cov last (g v) (g v)).
    + rewrite <- Rmult_assoc. rewrite sqrt_mult_alt by (apply Rle_0_sqr). now rewrite <- sqrt_Rsqr_abs.
    + unfold lin_cov, sum_ids. rewrite <- rsum_scal. apply rsum_ext. intros; cbn; ring.
  - intro t. rewrite (rep_cov last _ _ _ _ Ru (H t)), (rep_cov last x _ _ _ (H v) (H t)). apply lin_cov_unary.
  - intro t. now apply reachable_unary.
Qed.
Lemma follows2_binary (w : world RN) u v (m dx dy : R) : reachable w -> exists z,
  u_binary (w_var w u) (w_var w v) (m : RN) (dx : RN) (dy : RN) = Ret z /\ follows2 w (w_var w u) (w_var w v) z m dx dy.
Proof.
  intro Hw. destruct (reachable_rep w Hw) as (last & g & B & H). set (x := w_var w u). set (y := w_var w v).
  destruct (rep_binary last x y (g u) (g v) m dx dy m dx dy (H u) (H v)) as (z & E & Rz); auto; [lia|].
  exists z. split; [exact E|]. split; [exact (rep_mean _ _ _ Rz)|]. split; [|split].
  - rewrite (rep_var last _ _ Rz), (rep_var last x _ (H u)), (rep_var last y _ (H v)),
      (rep_cov last x y _ _ (H u) (H v)).
    unfold lin_var, lin_cov, sum_ids. rewrite <- !rsum_scal, <- !rsum_plus. apply rsum_ext. intros; cbn; ring.
  - intro t. rewrite (rep_cov last _ _ _ _ Rz (H t)), (rep_cov last x _ _ _ (H u) (H t)), (rep_cov last y _ _ _ (H v) (H t)).
    apply lin_cov_binary.
  - intro t. exact (reachable_binary w u v t m dx dy z Hw E).
Qed.
Lemma follows1_2nd_unary eig (w : world2 RN) v (m d1 d2 : R) : reachable2 eig w -> exists z,
  u2_unary (w2_var w v) (m : RN) (d1 : RN) (d2 : RN) = Ret z /\ follows1_2nd eig w (w2_var w v) z m d1 d2.
Proof.
  intro R. destruct (C27_second_order_chain_rule_partial_proof eig w R v v) as [U _].
  destruct (U m d1 d2) as (z & E & J1 & J2). exists z. split; [exact E|]. split; [exact J1|]. split; [exact J2|].
  intro t. exact (reachable2_unary eig w v t _ _ _ z R E).
Qed.
Lemma follows2_2nd_binary eig (w : world2 RN) u v (m dx dy dxx dyy dxy : R) : reachable2 eig w -> exists z,
  u2_binary (w2_var w u) (w2_var w v) (m : RN) (dx : RN) (dy : RN) (dxx : RN) (dyy : RN) (dxy : RN) = Ret z /\
  follows2_2nd eig w (w2_var w u) (w2_var w v) z m dx dy dxx dyy dxy.
Proof.
  intro R. destruct (C27_second_order_chain_rule_partial_proof eig w R u v) as [_ U].
  destruct (U m dx dy dxx dyy dxy) as (z & E & J1 & J2). exists z. split; [exact E|]. split; [exact J1|]. split; [exact J2|].
  intro t. exact (reachable2_binary eig w u v t _ _ _ _ _ _ z R E).
Qed.

(** ** explicit derivatives *)
Lemma C24_explicit_derivatives_proof :
  (forall w v (f df : R -> R), reachable w -> let x := w_var w v in
   follows1 w x (uunary (N := RN) f df x) (f (u_n x)) (df (u_n x))) /\
  (forall w u v (f dfdx dfdy : R -> R -> R), reachable w -> let x := w_var w u in let y := w_var w v in
   exists z, ubinary (N := RN) f dfdx dfdy x y = Ret z /\
     follows2 w x y z (f (u_n x) (u_n y)) (dfdx (u_n x) (u_n y)) (dfdy (u_n x) (u_n y))) /\
  (forall eig w v (f df ddf : R -> R), reachable2 eig w -> let x := w2_var w v in let a := u2_first_order_n x in
   exists z, uunary2 (N := RN) f df ddf x = Ret z /\ follows1_2nd eig w x z (f a) (df a) (ddf a)) /\
  (forall eig w u v (f fx fy fxx fyy fxy : R -> R -> R), reachable2 eig w ->
   let x := w2_var w u in let y := w2_var w v in let a := u2_first_order_n x in let b := u2_first_order_n y in
   exists z, ubinary2 (N := RN) f fx fy fxx fyy fxy x y = Ret z /\
     follows2_2nd eig w x y z (f a b) (fx a b) (fy a b) (fxx a b) (fyy a b) (fxy a b)).
Proof.
  split; [|split; [|split]].
  - intros w v f df Hw x. now apply follows1_unary.
  - intros w u v f fx fy Hw x y. now apply follows2_binary.
  - intros eig w v f df ddf Hw x a. now apply follows1_2nd_unary.
  - intros eig w u v f fx fy fxx fyy fxy Hw x y a b. now apply follows2_2nd_binary.
Qed.

(** ** forward differences *)
Lemma C24_forward_error_proof :
  (forall w v (f f1 f2 : R -> R) step M, reachable w -> step <> 0 ->
   let x := w_var w v in let a := u_n x in
   derivs_on (near a step) f [f1; f2] -> bounded_on (near a step) f2 M ->
   exists d, follows1 w x (uunary_step (N := RN) f step x) (f a) d /\ Rabs (d - f1 a) <= M * Rabs step / 2) /\
  (forall w u v (f : R -> R -> R) (x1 x2 y1 y2 : R -> R) step M, reachable w -> step <> 0 ->
   let x := w_var w u in let y := w_var w v in let a := u_n x in let b := u_n y in
   derivs_on (near a step) (fun t => f t b) [x1; x2] -> bounded_on (near a step) x2 M ->
   derivs_on (near b step) (fun t => f a t) [y1; y2] -> bounded_on (near b step) y2 M ->
   exists z dx dy, ubinary_step (N := RN) f step x y = Ret z /\ follows2 w x y z (f a b) dx dy /\
     Rabs (dx - x1 a) <= M * Rabs step / 2 /\ Rabs (dy - y1 b) <= M * Rabs step / 2).
Proof.
  split.
  - intros w v f f1 f2 step M Hw Hs x a D B. eexists. split; [unfold uunary_step; now apply follows1_unary|].
    exact (forward_error f f1 f2 a step M Hs D B).
  - intros w u v f x1 x2 y1 y2 step M Hw Hs x y a b Dx Bx Dy By.
    destruct (follows2_binary w u v (f a b) ((f (a + step) b - f a b) / step) ((f a (b + step) - f a b) / step) Hw) as (z & E & F).
    exists z. do 2 eexists. split; [exact E|]. split; [exact F|]. split.
    + exact (forward_error _ x1 x2 a step M Hs Dx Bx).
    + exact (forward_error _ y1 y2 b step M Hs Dy By).
Qed.
Lemma C24_forward_second_error_proof :
  (forall eig w v (f df f2 f3 : R -> R) step M, reachable2 eig w -> step <> 0 ->
   let x := w2_var w v in let a := u2_first_order_n x in
   derivs_on (near a step) df [f2; f3] -> bounded_on (near a step) f3 M ->
   exists z d2, uunary2_deriv (N := RN) f df step x = Ret z /\ follows1_2nd eig w x z (f a) (df a) d2 /\
     Rabs (d2 - f2 a) <= M * Rabs step / 2) /\
  (forall eig w u v (f dfdx dfdy : R -> R -> R) (x2 x3 y2 y3 z2 z3 : R -> R) step M, reachable2 eig w -> step <> 0 ->
   let x := w2_var w u in let y := w2_var w v in let a := u2_first_order_n x in let b := u2_first_order_n y in
   derivs_on (near a step) (fun t => dfdx t b) [x2; x3] -> bounded_on (near a step) x3 M ->
   derivs_on (near b step) (fun t => dfdy a t) [y2; y3] -> bounded_on (near b step) y3 M ->
   derivs_on (near b step) (fun t => dfdx a t) [z2; z3] -> bounded_on (near b step) z3 M ->
   exists z dxx dyy dxy, ubinary2_deriv (N := RN) f dfdx dfdy step x y = Ret z /\
     follows2_2nd eig w x y z (f a b) (dfdx a b) (dfdy a b) dxx dyy dxy /\
     Rabs (dxx - x2 a) <= M * Rabs step / 2 /\ Rabs (dyy - y2 b) <= M * Rabs step / 2 /\
     Rabs (dxy - z2 b) <= M * Rabs step / 2).
Proof.
  split.
  - intros eig w v f df f2 f3 step M Hw Hs x a D B.
    destruct (follows1_2nd_unary eig w v (f a) (df a) ((df (a + step) - df a) / step) Hw) as (z & E & F).
    exists z. eexists. split; [exact E|]. split; [exact F|]. exact (forward_error df f2 f3 a step M Hs D B).
  - intros eig w u v f dfdx dfdy x2 x3 y2 y3 z2 z3 step M Hw Hs x y a b Dx Bx Dy By Dz Bz.
    destruct (follows2_2nd_binary eig w u v (f a b) (dfdx a b) (dfdy a b) ((dfdx (a + step) b - dfdx a b) / step)
      ((dfdy a (b + step) - dfdy a b) / step) ((dfdx a (b + step) - dfdx a b) / step) Hw) as (z & E & F).
    exists z. do 3 eexists. split; [exact E|]. split; [exact F|]. split; [|split].
    + exact (forward_error _ x2 x3 a step M Hs Dx Bx).
    + exact (forward_error _ y2 y3 b step M Hs Dy By).
    + exact (forward_error _ z2 z3 b step M Hs Dz Bz).
Qed.

(** ** central differences *)
Lemma central_unary eig w v (f : R -> R) step : reachable2 eig w ->
  let x := w2_var w v in let a := u2_first_order_n x in
  exists z, uunary2_step (N := RN) f step x = Ret z /\
  follows1_2nd eig w x z (f a) ((f (a + step) - f (a - step)) / (2 * step)) ((f (a + step) + f (a - step) - 2 * f a) / (step * step)).
Proof. intros Hw x a. now apply follows1_2nd_unary. Qed.
Lemma central_binary eig w u v (f : R -> R -> R) step : reachable2 eig w ->
  let x := w2_var w u in let y := w2_var w v in let a := u2_first_order_n x in let b := u2_first_order_n y in
  exists z, ubinary2_step (N := RN) f step x y = Ret z /\
  follows2_2nd eig w x y z (f a b) ((f (a + step) b - f (a - step) b) / (2 * step)) ((f a (b + step) - f a (b - step)) / (2 * step))
    ((f (a + step) b + f (a - step) b - 2 * f a b) / (step * step)) ((f a (b + step) + f a (b - step) - 2 * f a b) / (step * step))
    (mixed_diff f a b step).
Proof. intros Hw x y a b. now apply follows2_2nd_binary. Qed.

Lemma C24_central_error_proof :
  (forall eig w v (f f1 f2 f3 f4 : R -> R) step M3 M4, reachable2 eig w -> step <> 0 ->
   let x := w2_var w v in let a := u2_first_order_n x in
   derivs_on (near a step) f [f1; f2; f3; f4] -> bounded_on (near a step) f3 M3 -> bounded_on (near a step) f4 M4 ->
   exists z d1 d2, uunary2_step (N := RN) f step x = Ret z /\ follows1_2nd eig w x z (f a) d1 d2 /\
     Rabs (d1 - f1 a) <= M3 * step ^ 2 / 6 /\ Rabs (d2 - f2 a) <= M4 * step ^ 2 / 12) /\
  (forall eig w u v (f : R -> R -> R) fx fy fxx fyy fxy (x1 x2 x3 x4 y1 y2 y3 y4 z1 z2 z3 z4 : R -> R) step M3 M4,
   reachable2 eig w -> step <> 0 ->
   let x := w2_var w u in let y := w2_var w v in let a := u2_first_order_n x in let b := u2_first_order_n y in
   twice_differentiable f a b fx fy fxx fyy fxy ->
   derivs_on (near a step) (fun t => f t b) [x1; x2; x3; x4] ->
   bounded_on (near a step) x3 M3 -> bounded_on (near a step) x4 M4 ->
   derivs_on (near b step) (fun t => f a t) [y1; y2; y3; y4] ->
   bounded_on (near b step) y3 M3 -> bounded_on (near b step) y4 M4 ->
   derivs_on (near 0 step) (fun t => f (a + t) (b + t)) [z1; z2; z3; z4] -> bounded_on (near 0 step) z4 M4 ->
   exists z dx dy dxx dyy dxy, ubinary2_step (N := RN) f step x y = Ret z /\
     follows2_2nd eig w x y z (f a b) dx dy dxx dyy dxy /\
     Rabs (dx - fx) <= M3 * step ^ 2 / 6 /\ Rabs (dy - fy) <= M3 * step ^ 2 / 6 /\
     Rabs (dxx - fxx) <= M4 * step ^ 2 / 12 /\ Rabs (dyy - fyy) <= M4 * step ^ 2 / 12 /\
     Rabs (dxy - fxy) <= M4 * step ^ 2 / 8).
Proof.
  split.
  - intros eig w v f f1 f2 f3 f4 step M3 M4 Hw Hs x a D B3 B4.
    destruct (central_unary eig w v f step Hw) as (z & E & F). exists z. do 2 eexists. split; [exact E|]. split; [exact F|]. split.
    + apply (central_first f f1 f2 f3); [exact Hs| |exact B3]. destruct D as (D1 & D2 & D3 & _). split; [exact D1|]. split; [exact D2|]. split; [exact D3|exact I].
    + now apply (central_second f f1 f2 f3 f4).
  - intros eig w u v f fx fy fxx fyy fxy x1 x2 x3 x4 y1 y2 y3 y4 z1 z2 z3 z4 step M3 M4 Hw Hs x y a b T Dx Bx3 Bx4 Dy By3 By4 Dz Bz4.
    destruct (central_binary eig w u v f step Hw) as (z & E & F). exists z. do 5 eexists. split; [exact E|]. split; [exact F|].
    destruct (mixed_error f a b fx fy fxx fyy fxy step M4 x1 x2 x3 x4 y1 y2 y3 y4 z1 z2 z3 z4 Hs T Dx Bx4 Dy By4 Dz Bz4) as (K1 & K2 & K3).
    destruct (twice_unique _ _ _ _ _ _ (derivs_twice _ _ _ _ _ _ Hs Dx) (slice_x _ _ _ _ _ _ _ _ T)) as [Ex _].
    destruct (twice_unique _ _ _ _ _ _ (derivs_twice _ _ _ _ _ _ Hs Dy) (slice_y _ _ _ _ _ _ _ _ T)) as [Ey _].
    split; [|split; [|split; [exact K1|split; [exact K2|exact K3]]]].
    + rewrite <- Ex. apply (central_first (fun t => f t b) x1 x2 x3); [exact Hs| |exact Bx3]. destruct Dx as (D1 & D2 & D3 & _). split; [exact D1|]. split; [exact D2|]. split; [exact D3|exact I].
    + rewrite <- Ey. apply (central_first (fun t => f a t) y1 y2 y3); [exact Hs| |exact By3]. destruct Dy as (D1 & D2 & D3 & _). split; [exact D1|]. split; [exact D2|]. split; [exact D3|exact I].
Qed.

(** ** exactness on polynomials *)
Lemma C24_exact_on_polynomials_proof :
  (forall w v p q step, reachable w -> step <> 0 -> let x := w_var w v in let a := u_n x in
   follows1 w x (uunary_step (N := RN) (fun t => p * t + q) step x) (p * a + q) p) /\
  (forall w u v p q r step, reachable w -> step <> 0 -> let x := w_var w u in let y := w_var w v in
   let a := u_n x in let b := u_n y in
   exists z, ubinary_step (N := RN) (fun s t => p * s + q * t + r) step x y = Ret z /\ follows2 w x y z (p * a + q * b + r) p q) /\
  (forall eig w v p q r step, reachable2 eig w -> step <> 0 -> let x := w2_var w v in let a := u2_first_order_n x in
   exists z, uunary2_deriv (N := RN) (fun t => p * t ^ 2 + q * t + r) (fun t => 2 * p * t + q) step x = Ret z /\
     follows1_2nd eig w x z (p * a ^ 2 + q * a + r) (2 * p * a + q) (2 * p)) /\
  (forall eig w u v pxx pyy pxy px py p0 step, reachable2 eig w -> step <> 0 ->
   let x := w2_var w u in let y := w2_var w v in let a := u2_first_order_n x in let b := u2_first_order_n y in
   let f := fun s t => pxx * s ^ 2 + pyy * t ^ 2 + pxy * s * t + px * s + py * t + p0 in
   let fx := fun s t => 2 * pxx * s + pxy * t + px in let fy := fun s t => 2 * pyy * t + pxy * s + py in
   exists z z', ubinary2_deriv (N := RN) f fx fy step x y = Ret z /\ ubinary2_step (N := RN) f step x y = Ret z' /\
     follows2_2nd eig w x y z (f a b) (fx a b) (fy a b) (2 * pxx) (2 * pyy) pxy /\
     follows2_2nd eig w x y z' (f a b) (fx a b) (fy a b) (2 * pxx) (2 * pyy) pxy) /\
  (forall eig w v p q r c step, reachable2 eig w -> step <> 0 -> let x := w2_var w v in let a := u2_first_order_n x in
   exists z d1, uunary2_step (N := RN) (fun t => c * t ^ 3 + p * t ^ 2 + q * t + r) step x = Ret z /\
     follows1_2nd eig w x z (c * a ^ 3 + p * a ^ 2 + q * a + r) d1 (6 * c * a + 2 * p) /\
     d1 = 3 * c * a ^ 2 + 2 * p * a + q + c * step ^ 2).
Proof.
  split; [|split; [|split; [|split]]].
  - intros w v p q step Hw Hs x a. assert (F := follows1_unary w v (p * a + q) ((p * (a + step) + q - (p * a + q)) / step) Hw).
    replace ((p * (a + step) + q - (p * a + q)) / step) with p in F at 2 by (field; exact Hs). exact F.
  - intros w u v p q r step Hw Hs x y a b.
    destruct (follows2_binary w u v (p * a + q * b + r) ((p * (a + step) + q * b + r - (p * a + q * b + r)) / step)
      ((p * a + q * (b + step) + r - (p * a + q * b + r)) / step) Hw) as (z & E & F).
    replace ((p * (a + step) + q * b + r - (p * a + q * b + r)) / step) with p in F by (field; exact Hs).
    replace ((p * a + q * (b + step) + r - (p * a + q * b + r)) / step) with q in F by (field; exact Hs).
    exists z. split; [exact E|exact F].
  - intros eig w v p q r step Hw Hs x a.
    destruct (follows1_2nd_unary eig w v (p * a ^ 2 + q * a + r) (2 * p * a + q) ((2 * p * (a + step) + q - (2 * p * a + q)) / step) Hw) as (z & E & F).
    replace ((2 * p * (a + step) + q - (2 * p * a + q)) / step) with (2 * p) in F by (field; exact Hs).
    exists z. split; [exact E|exact F].
  - intros eig w u v pxx pyy pxy px py p0 step Hw Hs x y a b f fx fy.
    destruct (follows2_2nd_binary eig w u v (f a b) (fx a b) (fy a b) ((fx (a + step) b - fx a b) / step)
      ((fy a (b + step) - fy a b) / step) ((fx a (b + step) - fx a b) / step) Hw) as (z & E & F).
    replace ((fx (a + step) b - fx a b) / step) with (2 * pxx) in F by (unfold fx; field; exact Hs).
    replace ((fy a (b + step) - fy a b) / step) with (2 * pyy) in F by (unfold fy; field; exact Hs).
    replace ((fx a (b + step) - fx a b) / step) with pxy in F by (unfold fx; field; exact Hs).
    destruct (central_binary eig w u v f step Hw) as (z' & E' & F').
    fold x y in F'. fold a b in F'.
    replace ((f (a + step) b - f (a - step) b) / (2 * step)) with (fx a b) in F' by (unfold f, fx; field; exact Hs).
    replace ((f a (b + step) - f a (b - step)) / (2 * step)) with (fy a b) in F' by (unfold f, fy; field; exact Hs).
    replace ((f (a + step) b + f (a - step) b - 2 * f a b) / (step * step)) with (2 * pxx) in F' by (unfold f; field; exact Hs).
    replace ((f a (b + step) + f a (b - step) - 2 * f a b) / (step * step)) with (2 * pyy) in F' by (unfold f; field; exact Hs).
    replace (mixed_diff f a b step) with pxy in F' by (unfold mixed_diff, f; field; exact Hs).
    exists z, z'. split; [exact E|]. split; [exact E'|]. split; [exact F|exact F'].
  - intros eig w v p q r c step Hw Hs x a.
    destruct (central_unary eig w v (fun t => c * t ^ 3 + p * t ^ 2 + q * t + r) step Hw) as (z & E & F). cbv beta in F.
    fold x in F. fold a in F.
    match type of F with follows1_2nd _ _ _ _ _ ?d1 ?d2 => exists z, d1; assert (E2 : d2 = 6 * c * a + 2 * p) by (field; exact Hs) end.
    rewrite E2 in F.
    split; [exact E|]. split; [exact F|]. field. exact Hs.
Qed.

(** ** convergence *)
Lemma C24_convergence_proof :
  (forall w v (f : R -> R) d, reachable w -> let x := w_var w v in let a := u_n x in is_derive f a d ->
   forall eps, 0 < eps -> exists delta, 0 < delta /\ forall step, step <> 0 -> Rabs step < delta ->
   exists d', follows1 w x (uunary_step (N := RN) f step x) (f a) d' /\ Rabs (d' - d) <= eps) /\
  (forall w u v (f : R -> R -> R) fx fy, reachable w -> let x := w_var w u in let y := w_var w v in
   let a := u_n x in let b := u_n y in is_derive (fun t : R => f t b) a fx -> is_derive (fun t : R => f a t) b fy ->
   forall eps, 0 < eps -> exists delta, 0 < delta /\ forall step, step <> 0 -> Rabs step < delta ->
   exists z dx dy, ubinary_step (N := RN) f step x y = Ret z /\ follows2 w x y z (f a b) dx dy /\
     Rabs (dx - fx) <= eps /\ Rabs (dy - fy) <= eps) /\
  (forall eig w v (f df : R -> R) f2, reachable2 eig w -> let x := w2_var w v in let a := u2_first_order_n x in
   is_derive df a f2 ->
   forall eps, 0 < eps -> exists delta, 0 < delta /\ forall step, step <> 0 -> Rabs step < delta ->
   exists z d2, uunary2_deriv (N := RN) f df step x = Ret z /\ follows1_2nd eig w x z (f a) (df a) d2 /\ Rabs (d2 - f2) <= eps) /\
  (forall eig w v (f : R -> R) f1 f2, reachable2 eig w -> let x := w2_var w v in let a := u2_first_order_n x in
   twice_derivable f a f1 f2 ->
   forall eps, 0 < eps -> exists delta, 0 < delta /\ forall step, step <> 0 -> Rabs step < delta ->
   exists z d1 d2, uunary2_step (N := RN) f step x = Ret z /\ follows1_2nd eig w x z (f a) d1 d2 /\
     Rabs (d1 - f1) <= eps /\ Rabs (d2 - f2) <= eps) /\
  (forall eig w u v (f dfdx dfdy : R -> R -> R) fxx fyy fxy, reachable2 eig w ->
   let x := w2_var w u in let y := w2_var w v in let a := u2_first_order_n x in let b := u2_first_order_n y in
   differentiable_pt_lim dfdx a b fxx fxy -> differentiable_pt_lim dfdy a b fxy fyy ->
   forall eps, 0 < eps -> exists delta, 0 < delta /\ forall step, step <> 0 -> Rabs step < delta ->
   exists z dxx dyy dxy, ubinary2_deriv (N := RN) f dfdx dfdy step x y = Ret z /\
     follows2_2nd eig w x y z (f a b) (dfdx a b) (dfdy a b) dxx dyy dxy /\
     Rabs (dxx - fxx) <= eps /\ Rabs (dyy - fyy) <= eps /\ Rabs (dxy - fxy) <= eps) /\
  (forall eig w u v (f : R -> R -> R) fx fy fxx fyy fxy, reachable2 eig w ->
   let x := w2_var w u in let y := w2_var w v in let a := u2_first_order_n x in let b := u2_first_order_n y in
   twice_differentiable f a b fx fy fxx fyy fxy ->
   forall eps, 0 < eps -> exists delta, 0 < delta /\ forall step, step <> 0 -> Rabs step < delta ->
   exists z dx dy dxx dyy dxy, ubinary2_step (N := RN) f step x y = Ret z /\
     follows2_2nd eig w x y z (f a b) dx dy dxx dyy dxy /\
     Rabs (dx - fx) <= eps /\ Rabs (dy - fy) <= eps /\ Rabs (dxx - fxx) <= eps /\ Rabs (dyy - fyy) <= eps /\
     Rabs (dxy - fxy) <= eps).
Proof.
  split; [|split; [|split; [|split; [|split]]]].
  - intros w v f d Hw x a D eps He. destruct (forward_limit f a d D eps He) as (delta & Hd & H).
    exists delta. split; [exact Hd|]. intros step H0 Hs. eexists. split; [unfold uunary_step; now apply follows1_unary|]. exact (H step H0 Hs).
  - intros w u v f fx fy Hw x y a b Dx Dy eps He.
    destruct (forward_limit _ a fx Dx eps He) as (d1 & Hd1 & H1). destruct (forward_limit _ b fy Dy eps He) as (d2 & Hd2 & H2).
    exists (Rmin d1 d2). split; [now apply Rmin_pos|]. intros step H0 Hs.
    assert (A1 := Rmin_l d1 d2). assert (A2 := Rmin_r d1 d2).
    destruct (follows2_binary w u v (f a b) ((f (a + step) b - f a b) / step) ((f a (b + step) - f a b) / step) Hw) as (z & E & F).
    exists z. do 2 eexists. split; [exact E|]. split; [exact F|]. split; [apply H1; [exact H0|lra]|apply H2; [exact H0|lra]].
  - intros eig w v f df f2 Hw x a D eps He. destruct (forward_limit df a f2 D eps He) as (delta & Hd & H).
    exists delta. split; [exact Hd|]. intros step H0 Hs.
    destruct (follows1_2nd_unary eig w v (f a) (df a) ((df (a + step) - df a) / step) Hw) as (z & E & F).
    exists z. eexists. split; [exact E|]. split; [exact F|]. exact (H step H0 Hs).
  - intros eig w v f f1 f2 Hw x a T eps He.
    destruct (central_first_limit f a f1 (twice_first _ _ _ _ T) eps He) as (d1 & Hd1 & H1).
    destruct (central_second_limit f a f1 f2 T eps He) as (d2 & Hd2 & H2).
    exists (Rmin d1 d2). split; [now apply Rmin_pos|]. intros step H0 Hs.
    assert (A1 := Rmin_l d1 d2). assert (A2 := Rmin_r d1 d2).
    destruct (central_unary eig w v f step Hw) as (z & E & F). exists z. do 2 eexists. split; [exact E|]. split; [exact F|].
    split; [apply H1; [exact H0|lra]|apply H2; [exact H0|lra]].
  - intros eig w u v f dfdx dfdy fxx fyy fxy Hw x y a b Dx Dy eps He.
    destruct (forward_limit (fun t => dfdx t b) a fxx) with (eps := eps) as (d1 & Hd1 & H1); [|exact He|].
    { apply is_derive_Reals. replace fxx with (fxx * 1 + fxy * 0) by ring.
      apply (derivable_pt_lim_comp_2d dfdx (fun t => t) (fun _ => b)); [exact Dx|apply derivable_pt_lim_id|apply derivable_pt_lim_const]. }
    destruct (forward_limit (fun t => dfdy a t) b fyy) with (eps := eps) as (d2 & Hd2 & H2); [|exact He|].
    { apply is_derive_Reals. replace fyy with (fxy * 0 + fyy * 1) by ring.
      apply (derivable_pt_lim_comp_2d dfdy (fun _ => a) (fun t => t)); [exact Dy|apply derivable_pt_lim_const|apply derivable_pt_lim_id]. }
    destruct (forward_limit (fun t => dfdx a t) b fxy) with (eps := eps) as (d3 & Hd3 & H3); [|exact He|].
    { apply is_derive_Reals. replace fxy with (fxx * 0 + fxy * 1) by ring.
      apply (derivable_pt_lim_comp_2d dfdx (fun _ => a) (fun t => t)); [exact Dx|apply derivable_pt_lim_const|apply derivable_pt_lim_id]. }
    exists (Rmin d1 (Rmin d2 d3)). split; [repeat apply Rmin_pos; assumption|]. intros step H0 Hs.
    assert (A1 := Rmin_l d1 (Rmin d2 d3)). assert (A2 := Rmin_r d1 (Rmin d2 d3)). assert (A3 := Rmin_l d2 d3). assert (A4 := Rmin_r d2 d3).
    destruct (follows2_2nd_binary eig w u v (f a b) (dfdx a b) (dfdy a b) ((dfdx (a + step) b - dfdx a b) / step)
      ((dfdy a (b + step) - dfdy a b) / step) ((dfdx a (b + step) - dfdx a b) / step) Hw) as (z & E & F).
    exists z. do 3 eexists. split; [exact E|]. split; [exact F|].
    split; [apply H1; [exact H0|lra]|]. split; [apply H2; [exact H0|lra]|apply H3; [exact H0|lra]].
  - intros eig w u v f fx fy fxx fyy fxy Hw x y a b T eps He.
    assert (Sx := slice_x _ _ _ _ _ _ _ _ T). assert (Sy := slice_y _ _ _ _ _ _ _ _ T).
    destruct (central_first_limit _ a fx (twice_first _ _ _ _ Sx) eps He) as (d1 & Hd1 & H1).
    destruct (central_first_limit _ b fy (twice_first _ _ _ _ Sy) eps He) as (d2 & Hd2 & H2).
    destruct (central_second_limit _ a fx fxx Sx eps He) as (d3 & Hd3 & H3).
    destruct (central_second_limit _ b fy fyy Sy eps He) as (d4 & Hd4 & H4).
    destruct (mixed_limit f a b fx fy fxx fyy fxy T eps He) as (d5 & Hd5 & H5).
    exists (Rmin d1 (Rmin d2 (Rmin d3 (Rmin d4 d5)))). split; [repeat apply Rmin_pos; assumption|]. intros step H0 Hs.
    assert (Hall : Rabs step < d1 /\ Rabs step < d2 /\ Rabs step < d3 /\ Rabs step < d4 /\ Rabs step < d5).
    { apply Rmin_Rgt_l in Hs. destruct Hs as [Q1 Hs]. apply Rmin_Rgt_l in Hs. destruct Hs as [Q2 Hs].
      apply Rmin_Rgt_l in Hs. destruct Hs as [Q3 Hs]. apply Rmin_Rgt_l in Hs. destruct Hs as [Q4 Q5]. auto. }
    destruct Hall as (Q1 & Q2 & Q3 & Q4 & Q5).
    destruct (central_binary eig w u v f step Hw) as (z & E & F). exists z. do 5 eexists. split; [exact E|]. split; [exact F|].
    split; [now apply H1|]. split; [now apply H2|]. split; [now apply H3|]. split; [now apply H4|now apply H5].
Qed.

(** ** default steps *)
Lemma C24_default_step_proof : forall eps n, 0 < eps ->
  0 < default_step (N := RN) eps n /\ default_step (N := RN) eps n ^ (2 ^ n) = eps.
Proof.
  intros eps n He. induction n as [|n [IH1 IH2]].
  - split; [exact He|]. cbn. apply Rmult_1_r.
  - change (default_step (N := RN) eps (S n)) with (sqrt (default_step (N := RN) eps n : R)). split.
    + now apply sqrt_lt_R0.
    + rewrite Nat.pow_succ_r', pow_mult. replace (sqrt (default_step eps n) ^ 2) with (default_step (N := RN) eps n : R); [exact IH2|].
      symmetry. apply pow2_sqrt. now left.
Qed.

(** ** a case: the exponential *)
Lemma exp_derivs P : derivs_on P exp [exp; exp; exp; exp].
Proof. unfold derivs_on; do 4 (split; [intros t _; auto_derive; auto; ring|]); exact I. Qed.
Lemma exp_bounded a s k : a + Rabs s <= k -> bounded_on (near a s) exp (exp k).
Proof.
  intros H t Ht. unfold near in Ht. apply Rabs_le_between in Ht. rewrite Rabs_pos_eq by (left; apply exp_pos).
  assert (t <= k) by lra. destruct (Req_dec t k) as [->|]; [lra|]. left. apply exp_increasing. lra.
Qed.
(** and of the sum of two numbers *)
Lemma exp2_case a b s : s <> 0 -> exists M3 M4 fx fy fxx fyy fxy x1 x2 x3 x4 y1 y2 y3 y4 z1 z2 z3 z4,
  let f := fun s t => exp (s + t) in
  fxy <> 0 /\ twice_differentiable f a b fx fy fxx fyy fxy /\
  derivs_on (near a s) (fun t => f t b) [x1; x2; x3; x4] /\ bounded_on (near a s) x3 M3 /\ bounded_on (near a s) x4 M4 /\
  derivs_on (near b s) (fun t => f a t) [y1; y2; y3; y4] /\ bounded_on (near b s) y3 M3 /\ bounded_on (near b s) y4 M4 /\
  derivs_on (near 0 s) (fun t => f (a + t) (b + t)) [z1; z2; z3; z4] /\ bounded_on (near 0 s) z4 M4.
Proof.
  intro Hs. set (k := exp (a + b + 2 * Rabs s)). set (e := exp (a + b)).
  exists k, (16 * k), e, e, e, e, e.
  exists (fun t => exp (t + b)), (fun t => exp (t + b)), (fun t => exp (t + b)), (fun t => exp (t + b)).
  exists (fun t => exp (a + t)), (fun t => exp (a + t)), (fun t => exp (a + t)), (fun t => exp (a + t)).
  exists (fun t => 2 * exp (a + t + (b + t))), (fun t => 4 * exp (a + t + (b + t))), (fun t => 8 * exp (a + t + (b + t))), (fun t => 16 * exp (a + t + (b + t))).
  assert (Ps := Rabs_pos s).
  assert (Le : forall u, u <= a + b + 2 * Rabs s -> Rabs (exp u) <= k).
  { intros u Hu. rewrite Rabs_pos_eq by (left; apply exp_pos). unfold k. destruct (Req_dec u (a + b + 2 * Rabs s)) as [->|]; [lra|].
    left. apply exp_increasing. lra. }
  assert (Pk := exp_pos (a + b + 2 * Rabs s)). fold k in Pk.
  assert (D : forall u v, differentiable_pt_lim (fun s t => exp (s + t)) u v (exp (u + v)) (exp (u + v))).
  { intros u v. replace (exp (u + v)) with (exp (u + v) * 1 + 0 * 0) by ring.
    apply (differentiable_pt_lim_comp (fun a _ => exp a) Rplus (fun _ _ => 0) u v (exp (u + v)) 0 1 1 0 0).
    - apply differentiable_pt_lim_proj1_0. apply is_derive_Reals. auto_derive; auto; ring.
    - apply diff_add.
    - apply dl_const. }
  intro f. split; [apply Rgt_not_eq, exp_pos|]. split.
  { exists (fun u v => exp (u + v)), (fun u v => exp (u + v)). split; [|split; [reflexivity|split; [reflexivity|split; apply D]]].
    exists (mkposreal 1 Rlt_0_1). intros; apply D. }
  unfold near. split; [unfold f, derivs_on; do 4 (split; [intros t _; auto_derive; auto; ring|]); exact I|].
  split; [intros t Ht; apply Le; apply Rabs_le_between in Ht; lra|].
  split; [intros t Ht; eapply Rle_trans; [apply Le; apply Rabs_le_between in Ht; lra|lra]|].
  split; [unfold f, derivs_on; do 4 (split; [intros t _; auto_derive; auto; ring|]); exact I|].
  split; [intros t Ht; apply Le; apply Rabs_le_between in Ht; lra|].
  split; [intros t Ht; eapply Rle_trans; [apply Le; apply Rabs_le_between in Ht; lra|lra]|].
  split; [unfold f, derivs_on; do 4 (split; [intros t _; auto_derive; auto; ring|]); exact I|].
  intros t Ht. rewrite Rabs_mult, (Rabs_pos_eq 16) by lra. apply Rmult_le_compat_l; [lra|]. apply Le. apply Rabs_le_between in Ht. lra.
Qed.
