(** * FunAcc5: proofs of C70 *)

From Coq Require Import List ZArith Bool Reals Lra Lia Psatz.
From Coquelicot Require Import Coquelicot.
From Flocq Require Import Core BinarySingleNaN.
From Verif Require Import Base Num Map UReal World SpecObs URealFacts URealProofs HessGrad UReal2 Ieee IeeeFacts SpecIeee IeeeProofs IeeeProofs2 IeeeProofs3 IeeeProofs4
  IeeeProofs5 IeeeCov Nan Math SpecMathIeee MathAcc MathAcc2 MathAcc5 SpecFun Derivs MathProofs FunProofs FunAcc SpecFunIeee FunAcc2 FunAcc3 FunAcc4 Functions.
Import ListNotations.
Local Open Scope R_scope.

Lemma C70_forward_proof : forall (f : double -> double) (F F1 F2 : R -> R) M del (step : double) (x : ureal DN),
  let a := real_of (u_n x) in let h := real_of step in let P := near a (2 * h) in
  finite (u_n x) -> good_step a step -> computes P del f F -> derivs_on P F [F1; F2] -> bounded_on P F2 M ->
  forward_size h (F1 a) M del ->
  let z := uunary_step (N := DN) f step x in
  finite (u_n z) /\ Rabs (real_of (u_n z) - F a) <= del /\
  exists d, finite d /\ Rabs (real_of d - F1 a) <= forward_err a h (F1 a) M del /\
    z = u_unary x (f (u_n x)) d /\ coefs z = map (fun c => dmul c d) (coefs x).
Proof.
  intros f F F1 F2 M del step x a h P Fm G C D B L z.
  destruct (forward_diff f F F1 F2 M del (u_n x) step Fm G C D B L) as [Fd Ed].
  assert (Na : P a). { unfold P, near. rewrite Rminus_eq_0, Rabs_R0. apply Rabs_pos. }
  destruct (C (u_n x) Fm Na) as [Ff Ef]. unfold z, uunary_step. cbv zeta. rewrite mean_unary. split; [exact Ff|]. split; [exact Ef|].
  eexists. split; [exact Fd|]. split; [exact Ed|]. split; [reflexivity|]. apply coefs_unary.
Qed.

Lemma C70_deviation_proof : forall (f : double -> double) (F F1 F2 : R -> R) M del (step : double),
  forall cs w, dlegal cs -> List.Forall (fun c => self_assign c = false) cs -> run w_init cs = Ret w ->
  forall v, let x := w_var w v in let n := List.length (coefs x) in
  let a := real_of (u_n x) in let h := real_of step in let P := near a (2 * h) in let err := forward_err a h (F1 a) M del in
  finite (u_n x) -> good_step a step -> computes P del f F -> derivs_on P F [F1; F2] -> bounded_on P F2 M ->
  forward_size h (F1 a) M del -> err <= / 3 * Rabs (F1 a) ->
  List.Forall (fun c => finite c /\ (real_of c = 0 \/ pow2 (-500) <= Rabs (F1 a * real_of c))) (coefs x) ->
  F1 a * F1 a * sum_sq (coefs x) <= pow2 1000 ->
  let z := uunary_step (N := DN) f step x in let S := sqrt (sum_sq (coefs x)) in
  finite (u_s z) /\ Rabs (real_of (u_s z) - Rabs (F1 a) * S) <= (err + (INR n + 5) * uround * Rabs (F1 a)) * S.
Proof.
  intros f F F1 F2 M del step cs w L NS E v x n a h P err Fm G C D B Lz He Hc Hs z S.
  destruct (C70_forward_proof f F F1 F2 M del step x Fm G C D B Lz) as (_ & _ & d & Fd & Ed & Ez & _). fold a h err in Ed. fold z in Ez. rewrite Ez.
  assert (U := ur_small). assert (D0 : 0 < Rabs (F1 a)).
  { assert (E0 : 0 < err); [|lra]. unfold err, forward_err. assert (P0 := pow2_pos (-1074)).
    destruct (good_step_facts _ _ G) as (H & R & _). fold a h in H, R.
    assert (Na : P a). { unfold P, near. rewrite Rminus_eq_0, Rabs_R0. apply Rabs_pos. }
    assert (M0 : 0 <= M) by (eapply Rle_trans; [apply Rabs_pos|exact (B a Na)]).
    assert (D0 : 0 <= del) by (eapply Rle_trans; [apply Rabs_pos|exact (proj2 (C (u_n x) Fm Na))]).
    assert (0 <= (step_err a h + 3 * ur) * Rabs (F1 a)) by (apply Rmult_le_pos; [lra|apply Rabs_pos]).
    assert (0 <= M * h) by (apply Rmult_le_pos; lra).
    assert (0 <= 3 * del / h) by (apply Rmult_le_pos; [lra|left; now apply Rinv_0_lt_compat]). lra. }
  assert (Ep : 0 <= err) by (eapply Rle_trans; [apply Rabs_pos|exact Ed]).
  set (K := err / (Rabs (F1 a) * ur)). assert (KE : K * ur = err / Rabs (F1 a)) by (unfold K; field; lra).
  assert (K1 : 0 <= K * ur <= / 3).
  { rewrite KE. split; [apply Rmult_le_pos; [exact Ep|left; now apply Rinv_0_lt_compat]|]. apply Rmult_le_reg_r with (Rabs (F1 a)); [exact D0|].
    unfold Rdiv. rewrite Rmult_assoc, Rinv_l by lra. lra. }
  assert (K0 : 0 <= K) by (apply Rmult_le_reg_r with ur; lra).
  assert (He20 : ur <= ur <= pow2 (-20)) by (split; [lra|apply pow2_le; lia]).
  assert (Cl : close (K * ur) d (F1 a)).
  { split; [exact Fd|]. rewrite KE. unfold Rdiv. rewrite Rmult_assoc, Rinv_l, Rmult_1_r by lra. exact Ed. }
  assert (HC := coef_close ur K (F1 a) d He20 K0 ltac:(lra) Cl).
  destruct (unary_deviation rounded_cmath ur (K + 2) (F1 a) (f (u_n x)) d He20 rounded_accurate ltac:(lra) ltac:(lra) HC cs w L NS E v Hc Hs) as [Fs Es].
  split; [exact Fs|]. eapply Rle_trans; [exact Es|]. fold x n S. rewrite Rabs_mult, Rabs_Rabsolu, (Rabs_pos_eq S) by apply sqrt_pos.
  right. replace ((K + 2 + INR n + 3) * ur) with (K * ur + (INR n + 5) * ur) by ring. rewrite KE. field. lra.
Qed.

Lemma C70_forward_two_proof : forall (f : double -> double -> double) (F Fx Fxx Fy Fyy : R -> R -> R) M del (step : double) (x y : ureal DN),
  let a := real_of (u_n x) in let b := real_of (u_n y) in let h := real_of step in
  finite (u_n x) -> finite (u_n y) -> good_step a step -> good_step b step ->
  computes_x (near a (2 * h)) del f F (u_n y) -> computes_y (near b (2 * h)) del f F (u_n x) ->
  derivs_on (near a (2 * h)) (fun t => F t b) [fun t => Fx t b; fun t => Fxx t b] -> bounded_on (near a (2 * h)) (fun t => Fxx t b) M ->
  derivs_on (near b (2 * h)) (fun t => F a t) [fun t => Fy a t; fun t => Fyy a t] -> bounded_on (near b (2 * h)) (fun t => Fyy a t) M ->
  forward_size h (Fx a b) M del -> forward_size h (Fy a b) M del ->
  let m := f (u_n x) (u_n y) in finite m /\ Rabs (real_of m - F a b) <= del /\
  exists dx dy, finite dx /\ Rabs (real_of dx - Fx a b) <= forward_err a h (Fx a b) M del /\
    finite dy /\ Rabs (real_of dy - Fy a b) <= forward_err b h (Fy a b) M del /\
    ubinary_step (N := DN) f step x y = u_binary x y m dx dy.
Proof.
  intros f F Fx Fxx Fy Fyy M del step x y a b h Fa Fb Ga Gb Cx Cy Dx Bx Dy By Lx Ly m.
  destruct (forward_diff (fun t => f t (u_n y)) (fun t => F t b) (fun t => Fx t b) (fun t => Fxx t b) M del (u_n x) step Fa Ga Cx Dx Bx Lx) as [Fd Ed].
  destruct (forward_diff (fun t => f (u_n x) t) (fun t => F a t) (fun t => Fy a t) (fun t => Fyy a t) M del (u_n y) step Fb Gb Cy Dy By Ly) as [Fe Ee].
  assert (Na : near a (2 * h) a). { unfold near. rewrite Rminus_eq_0, Rabs_R0. apply Rabs_pos. }
  destruct (Cx (u_n x) Fa Na) as [Ff Ef]. split; [exact Ff|]. split; [exact Ef|].
  eexists. eexists. split; [exact Fd|]. split; [exact Ed|]. split; [exact Fe|]. split; [exact Ee|]. reflexivity.
Qed.

Lemma C70_second_forward_proof : forall (f f1 : double -> double) (F1 F2 F3 : R -> R) M del (step : double) (x : ureal2 DN),
  let mu := u2_first_order_n x in let a := real_of mu in let h := real_of step in let P := near a (2 * h) in
  finite mu -> good_step a step -> computes P del f1 F1 -> derivs_on P F1 [F2; F3] -> bounded_on P F3 M -> forward_size h (F2 a) M del ->
  finite (f1 mu) /\ Rabs (real_of (f1 mu) - F1 a) <= del /\
  exists d, finite d /\ Rabs (real_of d - F2 a) <= forward_err a h (F2 a) M del /\
    uunary2_deriv (N := DN) f f1 step x = u2_unary x (f mu) (f1 mu) d.
Proof.
  intros f f1 F1 F2 F3 M del step x mu a h P Fm G C D B L.
  destruct (forward_diff f1 F1 F2 F3 M del mu step Fm G C D B L) as [Fd Ed].
  assert (Na : P a). { unfold P, near. rewrite Rminus_eq_0, Rabs_R0. apply Rabs_pos. }
  destruct (C mu Fm Na) as [Ff Ef]. split; [exact Ff|]. split; [exact Ef|]. eexists. split; [exact Fd|]. split; [exact Ed|]. reflexivity.
Qed.

Lemma C70_second_forward_two_proof : forall (f fx fy : double -> double -> double) (Fx Fxx Fxxx Fy Fyy Fyyy Fxy Fxyy : R -> R -> R) M del (step : double) (x y : ureal2 DN),
  let mx := u2_first_order_n x in let my := u2_first_order_n y in let a := real_of mx in let b := real_of my in let h := real_of step in
  finite mx -> finite my -> good_step a step -> good_step b step ->
  computes_x (near a (2 * h)) del fx Fx my -> computes_y (near b (2 * h)) del fx Fx mx -> computes_y (near b (2 * h)) del fy Fy mx ->
  derivs_on (near a (2 * h)) (fun t => Fx t b) [fun t => Fxx t b; fun t => Fxxx t b] -> bounded_on (near a (2 * h)) (fun t => Fxxx t b) M ->
  derivs_on (near b (2 * h)) (fun t => Fy a t) [fun t => Fyy a t; fun t => Fyyy a t] -> bounded_on (near b (2 * h)) (fun t => Fyyy a t) M ->
  derivs_on (near b (2 * h)) (fun t => Fx a t) [fun t => Fxy a t; fun t => Fxyy a t] -> bounded_on (near b (2 * h)) (fun t => Fxyy a t) M ->
  forward_size h (Fxx a b) M del -> forward_size h (Fyy a b) M del -> forward_size h (Fxy a b) M del ->
  exists dxx dyy dxy, finite dxx /\ Rabs (real_of dxx - Fxx a b) <= forward_err a h (Fxx a b) M del /\
    finite dyy /\ Rabs (real_of dyy - Fyy a b) <= forward_err b h (Fyy a b) M del /\
    finite dxy /\ Rabs (real_of dxy - Fxy a b) <= forward_err b h (Fxy a b) M del /\
    ubinary2_deriv (N := DN) f fx fy step x y = u2_binary x y (f mx my) (fx mx my) (fy mx my) dxx dyy dxy.
Proof.
  intros f fx fy Fx Fxx Fxxx Fy Fyy Fyyy Fxy Fxyy M del step x y mx my a b h Fa Fb Ga Gb Cx Cxy Cy Dx Bx Dy By Dxy Bxy Lx Ly Lxy.
  destruct (forward_diff (fun t => fx t my) (fun t => Fx t b) (fun t => Fxx t b) (fun t => Fxxx t b) M del mx step Fa Ga Cx Dx Bx Lx) as [Fd Ed].
  destruct (forward_diff (fun t => fy mx t) (fun t => Fy a t) (fun t => Fyy a t) (fun t => Fyyy a t) M del my step Fb Gb Cy Dy By Ly) as [Fe Ee].
  destruct (forward_diff (fun t => fx mx t) (fun t => Fx a t) (fun t => Fxy a t) (fun t => Fxyy a t) M del my step Fb Gb Cxy Dxy Bxy Lxy) as [Fg Eg].
  do 3 eexists. split; [exact Fd|]. split; [exact Ed|]. split; [exact Fe|]. split; [exact Ee|]. split; [exact Fg|]. split; [exact Eg|]. reflexivity.
Qed.

Lemma C70_central_proof : forall (f : double -> double) (F F1 F2 F3 F4 : R -> R) M3 M4 del (step : double) (x : ureal2 DN),
  let mu := u2_first_order_n x in let a := real_of mu in let h := real_of step in let P := near a (2 * h) in
  finite mu -> good_step a step -> computes P del f F -> derivs_on P F [F1; F2; F3; F4] -> bounded_on P F3 M3 -> bounded_on P F4 M4 ->
  central_size1 h (F1 a) (F2 a) M3 del -> central_size2 h (F a) (F1 a) (F2 a) (F3 a) M4 del ->
  finite (f mu) /\ Rabs (real_of (f mu) - F a) <= del /\
  exists d1 d2, finite d1 /\ Rabs (real_of d1 - F1 a) <= central_err1 a h (F1 a) (F2 a) M3 del /\
    finite d2 /\ Rabs (real_of d2 - F2 a) <= central_err2 a h (F a) (F1 a) (F2 a) (F3 a) M4 del /\
    uunary2_step (N := DN) f step x = u2_unary x (f mu) d1 d2.
Proof.
  intros f F F1 F2 F3 F4 M3 M4 del step x mu a h P Fm G C D B3 B4 L1 L2.
  assert (D3 : derivs_on P F [F1; F2; F3]). { destruct D as (A1 & A2 & A3 & _). split; [exact A1|]. split; [exact A2|]. split; [exact A3|exact I]. }
  destruct (central_diff1 f F F1 F2 F3 M3 del mu step Fm G C D3 B3 L1) as [Fd Ed].
  destruct (central_diff2 f F F1 F2 F3 F4 M4 del mu step Fm G C D B4 L2) as [Fe Ee].
  assert (Na : P a). { unfold P, near. rewrite Rminus_eq_0, Rabs_R0. apply Rabs_pos. }
  destruct (C mu Fm Na) as [Ff Ef]. split; [exact Ff|]. split; [exact Ef|]. do 2 eexists. split; [exact Fd|]. split; [exact Ed|]. split; [exact Fe|]. split; [exact Ee|]. reflexivity.
Qed.

Lemma C70_central_two_proof : forall (f : double -> double -> double) (F Fx Fxx F3x F4x Fy Fyy F3y F4y Fxy : R -> R -> R) M3 M4 V L del (step : double) (x y : ureal2 DN),
  let mx := u2_first_order_n x in let my := u2_first_order_n y in let a := real_of mx in let b := real_of my in let h := real_of step in
  let P := near a (2 * h) in let Q := near b (2 * h) in
  finite mx -> finite my -> good_step a step -> good_step b step ->
  computes2 P Q del f F ->
  derivs_on P (fun t => F t b) [fun t => Fx t b; fun t => Fxx t b; fun t => F3x t b; fun t => F4x t b] ->
  bounded_on P (fun t => F3x t b) M3 -> bounded_on P (fun t => F4x t b) M4 ->
  derivs_on Q (fun t => F a t) [fun t => Fy a t; fun t => Fyy a t; fun t => F3y a t; fun t => F4y a t] ->
  bounded_on Q (fun t => F3y a t) M3 -> bounded_on Q (fun t => F4y a t) M4 ->
  (forall s t, P s -> Q t -> is_derive (fun s => F s t) s (Fx s t)) ->
  (forall s t, P s -> Q t -> is_derive (fun t => Fx s t) t (Fxy s t)) ->
  (forall s t, P s -> Q t -> Rabs (Fxy s t - Fxy a b) <= L) -> (forall s t, P s -> Q t -> Rabs (F s t) <= V) ->
  central_size1 h (Fx a b) (Fxx a b) M3 del -> central_size2 h (F a b) (Fx a b) (Fxx a b) (F3x a b) M4 del ->
  central_size1 h (Fy a b) (Fyy a b) M3 del -> central_size2 h (F a b) (Fy a b) (Fyy a b) (F3y a b) M4 del ->
  mixed_size h V (Fxy a b) L del ->
  let m := f mx my in finite m /\ Rabs (real_of m - F a b) <= del /\
  exists dx dy dxx dyy dxy, List.Forall finite [dx; dy; dxx; dyy; dxy] /\
    Rabs (real_of dx - Fx a b) <= central_err1 a h (Fx a b) (Fxx a b) M3 del /\
    Rabs (real_of dy - Fy a b) <= central_err1 b h (Fy a b) (Fyy a b) M3 del /\
    Rabs (real_of dxx - Fxx a b) <= central_err2 a h (F a b) (Fx a b) (Fxx a b) (F3x a b) M4 del /\
    Rabs (real_of dyy - Fyy a b) <= central_err2 b h (F a b) (Fy a b) (Fyy a b) (F3y a b) M4 del /\
    Rabs (real_of dxy - Fxy a b) <= mixed_err a b h V (Fxy a b) L del /\
    ubinary2_step (N := DN) f step x y = u2_binary x y m dx dy dxx dyy dxy.
Proof.
  intros f F Fx Fxx F3x F4x Fy Fyy F3y F4y Fxy M3 M4 V L del step x y mx my a b h P Q Fa Fb Ga Gb C Dx B3x B4x Dy B3y B4y Ex Exy BL BV L1 L2 L3 L4 L5 m.
  assert (Na : P a). { unfold P, near. rewrite Rminus_eq_0, Rabs_R0. apply Rabs_pos. }
  assert (Nb : Q b). { unfold Q, near. rewrite Rminus_eq_0, Rabs_R0. apply Rabs_pos. }
  assert (Cx : computes P del (fun t => f t my) (fun t => F t b)) by (intros t Ft Pt; exact (C t my Ft Fb Pt Nb)).
  assert (Cy : computes Q del (fun t => f mx t) (fun t => F a t)) by (intros t Ft Pt; exact (C mx t Fa Ft Na Pt)).
  assert (D3 : derivs_on P (fun t => F t b) [fun t => Fx t b; fun t => Fxx t b; fun t => F3x t b]). { destruct Dx as (A1 & A2 & A3 & _). split; [exact A1|]. split; [exact A2|]. split; [exact A3|exact I]. }
  assert (D3' : derivs_on Q (fun t => F a t) [fun t => Fy a t; fun t => Fyy a t; fun t => F3y a t]). { destruct Dy as (A1 & A2 & A3 & _). split; [exact A1|]. split; [exact A2|]. split; [exact A3|exact I]. }
  destruct (central_diff1 _ _ _ _ _ M3 del mx step Fa Ga Cx D3 B3x L1) as [F1 E1].
  destruct (central_diff2 _ _ _ _ _ _ M4 del mx step Fa Ga Cx Dx B4x L2) as [F2 E2].
  destruct (central_diff1 _ _ _ _ _ M3 del my step Fb Gb Cy D3' B3y L3) as [F3 E3].
  destruct (central_diff2 _ _ _ _ _ _ M4 del my step Fb Gb Cy Dy B4y L4) as [F4 E4].
  destruct (mixed_central f F Fx Fxy L V del mx my step Fa Fb Ga Gb C Ex Exy BL BV L5) as [F5 E5].
  destruct (C mx my Fa Fb Na Nb) as [Ff Ef]. split; [exact Ff|]. split; [exact Ef|].
  do 5 eexists. split; [|split; [exact E1|]; split; [exact E3|]; split; [exact E2|]; split; [exact E4|]; split; [exact E5|reflexivity]].
  repeat (apply List.Forall_cons; [assumption|]). apply List.Forall_nil.
Qed.

(** ** a lost step *)
Lemma zero_times (c : double) : finite c -> is_zero (dmul c dzero).
Proof. destruct c as [[|]|s| |[|] m e H]; intro F; try discriminate F; cbn; ((now left) || now right). Qed.
Lemma zeros_fold (l : list (Z * double)) : List.Forall (fun kv => is_zero (snd kv)) l ->
  fold_left (fun (acc : double) (kv : Z * double) => dadd acc (dmul (snd kv) (snd kv))) l dzero = dzero.
Proof. induction 1 as [|[k c] l Hc Hl IH]; [reflexivity|]. cbn [fold_left snd] in *. replace (dadd dzero (dmul c c)) with dzero; [exact IH|]. destruct Hc as [->| ->]; reflexivity. Qed.
Lemma zero_unary_s (x : ureal DN) mu : List.Forall finite (coefs x) -> u_s (u_unary x mu dzero) = n0.
Proof.
  intro F. unfold u_unary, u_s, coefs in *. destruct (Z.ltb_spec 0 (uid x)) as [Hx|Hx].
  - cbn [uid usdev]. assert (T : (0 <=? uid x)%Z = true) by (apply Z.leb_le; lia). rewrite T. inversion F as [|? ? Fc _]; subst. 
    destruct (zero_times _ Fc) as [E|E]; cbn [nmul DN nabs]; rewrite E; reflexivity.
  - destruct (Z.ltb_spec (uid x) 0) as [Hy|Hy].
    + cbn [uid usdev]. assert (T : (0 <=? uid x)%Z = false) by (apply Z.leb_gt; lia). rewrite T. change (nleb n0 (nopp n1 : DN)) with false.
      match goal with |- context [u_s2 ?y] => assert (Z2 : u_s2 y = (dzero : DN)) end; [|rewrite Z2; reflexivity].
      unfold u_s2. cbn [usigma]. apply (zeros_fold (mmap (fun v : DN => dmul v dzero) (usigma x))).
      unfold mmap. rewrite Forall_map. rewrite Forall_map in F. eapply List.Forall_impl; [|exact F]. intros [k c] Fc. cbn [snd] in *. now apply zero_times.
    + cbn [uid usdev]. assert (T : (0 <=? uid x)%Z = true) by (apply Z.leb_le; lia). rewrite T. reflexivity.
Qed.
Lemma zero_div (s : double) : finite s -> 0 < real_of s -> ddiv dzero s = dzero.
Proof.
  intros F P. destruct s as [?|?| |[|] m e H]; try discriminate F; try reflexivity; unfold real_of in P.
  - cbn in P. lra.
  - assert (N : B2R (B754_finite true m e H : double) < 0) by (apply F2R_lt_0; reflexivity). lra.
Qed.
Lemma C70_step_lost_proof : forall (f : double -> double) (step : double) (x : ureal DN),
  finite (u_n x) -> finite step -> 0 < real_of step -> pow2 55 * real_of step <= Rabs (real_of (u_n x)) -> finite (f (u_n x)) -> List.Forall finite (coefs x) ->
  let z := uunary_step (N := DN) f step x in u_n z = f (u_n x) /\ u_s z = n0.
Proof.
  intros f step x Fm Fs S0 B Ff Fc z.
  destruct (add_absorbs (u_n x) step Fm Fs) as [E _]; [rewrite (Rabs_pos_eq (real_of step)) by lra; exact B| |].
  { intro Z. rewrite Z, Rabs_R0 in B. assert (P := pow2_pos 55). assert (0 < pow2 55 * real_of step) by (now apply Rmult_lt_0_compat). lra. }
  unfold z, uunary_step. cbv zeta. cbn [nadd nsub ndiv DN]. rewrite E, (dsub_self _ Ff), (zero_div _ Fs S0). split; [apply mean_unary|]. now apply zero_unary_s.
Qed.
Lemma C70_default_step_proof : forall eps : double, finite eps -> real_of eps = pow2 (-52) ->
  finite (default_step (N := DN) eps 1) /\ real_of (default_step (N := DN) eps 1) = pow2 (-26) /\
  finite (default_step (N := DN) eps 2) /\ real_of (default_step (N := DN) eps 2) = pow2 (-13).
Proof.
  intros eps F E. assert (X : forall (s : double) k, (-1000 <= k)%Z -> finite s -> real_of s = pow2 (k + k) -> finite (dsqrt s) /\ real_of (dsqrt s) = pow2 k).
  { intros s k Hk Fs Es. assert (P := pow2_pos (k + k)). destruct (sqrt_d s Fs ltac:(lra)) as [F1 E1]. split; [exact F1|]. rewrite E1, Es, pow2_add, sqrt_square by (left; apply pow2_pos).
    unfold nearest. apply round_generic; [apply valid_rnd_N|]. apply generic_format_bpow. unfold FLT_exp. lia. }
  destruct (X eps (-26)%Z ltac:(lia) F E) as [F1 E1]. destruct (X (dsqrt eps) (-13)%Z ltac:(lia) F1 E1) as [F2 E2].
  split; [exact F1|]. split; [exact E1|]. split; [exact F2|exact E2].
Qed.
Definition eps64 : double := half 1 52.
Lemma eps64_val : finite eps64 /\ real_of eps64 = pow2 (-52).
Proof. split; [vm_compute; reflexivity|]. realval. unfold pow2. cbn. lra. Qed.
Lemma C70_large_mean_refuted_proof : exists cs w, dlegal cs /\ run w_init cs = Ret w /\ let x := w_var w 0%nat in
  finite (u_n x) /\ real_of (u_n x) = pow2 29 /\ u_s x = n1 /\
  exists step, step = default_step (N := DN) eps64 1 /\ real_of eps64 = pow2 (-52) /\
    u_n (uunary_step (N := DN) (fun t => t) step x) = u_n x /\ u_s (uunary_step (N := DN) (fun t => t) step x) = n0.
Proof.
  set (cs := [CNew 0%nat (dofZ 536870912 : DN) (dofZ 1 : DN)]). exists cs, (after cs).
  split; [apply dlegal_small; [repeat constructor|cbn; lia]|]. split; [reflexivity|]. cbv zeta.
  assert (V : real_of (u_n (w_var (after cs) 0%nat)) = pow2 29) by (change (real_of (dofZ 536870912) = pow2 29); realval; unfold pow2; cbn; lra).
  assert (F : finite (u_n (w_var (after cs) 0%nat))) by (vm_compute; reflexivity).
  split; [exact F|]. split; [exact V|]. split; [reflexivity|].
  exists (default_step (N := DN) eps64 1). split; [reflexivity|]. destruct eps64_val as [Fe Ee]. split; [exact Ee|].
  destruct (C70_default_step_proof eps64 Fe Ee) as (Fs & Es & _).
  apply C70_step_lost_proof; try assumption.
  - rewrite Es. apply pow2_pos.
  - rewrite Es, V, Rabs_pos_eq by (left; apply pow2_pos). rewrite <- pow2_add. apply Rle_refl.
  - change (List.Forall finite [dofZ 1]). constructor; [reflexivity|constructor].
Qed.

(** ** the square of a number close to 1, with the default step *)
Lemma one_good : good_step 1 (default_step (N := DN) eps64 1) /\ good_step 1 (default_step (N := DN) eps64 2).
Proof.
  destruct eps64_val as [Fe Ee]. destruct (C70_default_step_proof eps64 Fe Ee) as (F1 & E1 & F2 & E2).
  split; (split; [assumption|]); rewrite ?E1, ?E2, Rabs_R1; split; try (split; apply pow2_le; lia); rewrite <- pow2_add; change 1 with (pow2 0); apply pow2_le; lia.
Qed.
Lemma square_case : forall h, 0 < h <= / 8 -> let P := near 1 (2 * h) in
  computes P (2 * ur) (fun t => dmul t t) (fun t => t * t) /\
  derivs_on P (fun t => t * t) [fun t => 2 * t; fun _ => 2; fun _ => 0; fun _ => 0] /\
  bounded_on P (fun _ => 2) 2 /\ bounded_on P (fun _ => 0) 0.
Proof.
  intros h Hh P.
  assert (B : forall t, P t -> 0 <= t * t <= 8 / 5).
  { intros t Ht. unfold P, near in Ht. rewrite (Rabs_pos_eq (2 * h)) in Ht by lra. apply abs_bound in Ht. nra. }
  split; [|split; [|split]].
  - intros t Ft Pt. specialize (B _ Pt). set (r := real_of t * real_of t) in *. assert (U := ur_small).
    destruct (dmul_round t t Ft Ft) as [F V].
    { apply fits. fold r. rewrite Rabs_pos_eq by lra. apply Rle_trans with (pow2 1); [unfold pow2; cbn; lra|apply pow2_le; lia]. }
    split; [exact F|]. rewrite V. fold r. destruct (nearest_pm r) as (e & k & He & Hk & E). rewrite E. apply abs_bound in He, Hk.
    assert (PK : pow2 (-1075) <= / 10 * ur). { unfold uround. apply Rle_trans with (pow2 (-4) * pow2 (-53)); [rewrite <- pow2_add; apply pow2_le; lia|]. apply Rmult_le_compat_r; [left; apply pow2_pos|unfold pow2; cbn; lra]. }
    apply Rabs_le. nra.
  - split; [|split; [|split; [|split; [|exact I]]]]; intros t _; auto_derive; auto; ring.
  - intros t _. rewrite Rabs_pos_eq; lra.
  - intros t _. rewrite Rabs_R0. lra.
Qed.
