(** * ShapeAcc: deviation, skewness, kurtosis and correlation of UReal2 on doubles (C82) *)

From Coq Require Import List ZArith Bool Reals Lra Lia Psatz.
From Coq Require Import SpecFloat.
From Flocq Require Import Core BinarySingleNaN.
From Verif Require Import Base Num Map UReal World HessGrad Moments CheckMoments UReal2 World2 SpecObs SpecU2 SpecU2Run SpecProb SpecMom
  Ieee IeeeFacts IoAcc1 SpecIeee IeeeProofs2 IeeeProofs3 IeeeProofs4 IeeeProofs5 IeeeCov SpecAcc2 SpecCast AccFinal DemoAcc2 Demo Demo3 SpecShape.
Import ListNotations.
Local Open Scope R_scope.

Lemma div_nonneg a b : 0 <= a -> 0 < b -> 0 <= a / b.
Proof. intros Ha Hb. unfold Rdiv. apply Rmult_le_pos; [exact Ha|]. apply Rlt_le, Rinv_0_lt_compat, Hb. Qed.
Lemma sqrt_between r d e : 0 < r -> Rabs (d - r) <= e -> e <= r / 8 -> 0 <= d /\ Rabs (sqrt d - sqrt r) <= e / r * sqrt r.
Proof.
  intros Hr He H8. apply Rabs_le_inv in He. split; [lra|]. assert (Hs : 0 < sqrt r) by now apply sqrt_lt_R0.
  set (al := e / r). assert (Ee : e = al * r) by (unfold al; field; lra).
  assert (A0 : 0 <= al) by nra. assert (A1 : al <= / 8) by nra.
  assert (Q : sqrt r * sqrt r = r) by (apply sqrt_sqrt; lra).
  assert (U : sqrt d <= (1 + al) * sqrt r).
  { rewrite <- (sqrt_Rsqr ((1 + al) * sqrt r)) by nra. apply sqrt_le_1_alt. unfold Rsqr. replace ((1 + al) * sqrt r * ((1 + al) * sqrt r)) with ((1 + al) * (1 + al) * (sqrt r * sqrt r)) by ring. rewrite Q. nra. }
  assert (L : (1 - al) * sqrt r <= sqrt d).
  { rewrite <- (sqrt_Rsqr ((1 - al) * sqrt r)) by nra. apply sqrt_le_1_alt. unfold Rsqr. replace ((1 - al) * sqrt r * ((1 - al) * sqrt r)) with ((1 - al) * (1 - al) * (sqrt r * sqrt r)) by ring. rewrite Q. nra. }
  apply Rabs_le. lra.
Qed.

Lemma nearest_rel x : pow2 (-1022) <= x -> exists c, Rabs c <= ur /\ nearest x = x * (1 + c).
Proof.
  intro H. assert (P := pow2_pos (-1022)). assert (Q := rel_pos x H). exists (nearest x / x - 1). split; [|field; lra].
  apply Rabs_le. assert (Ev : nearest x = nearest x / x * x) by (field; lra). revert Q Ev. generalize (nearest x / x). intros q Q Ev. split; nra.
Qed.

Lemma pow_sqrt k : sqrt (pow2 (2 * k)) = pow2 k.
Proof.
  replace (2 * k)%Z with (k + k)%Z by lia. rewrite pow2_add. apply sqrt_square. apply Rlt_le, pow2_pos.
Qed.

Lemma dev_ok r e (m : double) : conditioned r e -> finite m -> Rabs (real_of m - r) <= e ->
  0 <= real_of m /\ finite (dsqrt m) /\ Rabs (real_of (dsqrt m) - sqrt r) <= dev_err r e * sqrt r /\ pow2 (-170) <= sqrt r <= pow2 170 /\ 2 * ur <= dev_err r e <= / 7.
Proof.
  intros [[R1 R2] H8] F E. assert (P := pow2_pos (-340)). assert (U := ur_small). assert (Ue : ur = / 9007199254740992) by reflexivity.
  destruct (sqrt_between r (real_of m) e ltac:(lra) E H8) as [N0 B].
  assert (E0 : 0 <= e) by (eapply Rle_trans; [apply Rabs_pos|exact E]).
  assert (A0 : 0 <= e / r) by (apply div_nonneg; lra). assert (A1 : e / r <= / 8) by (apply Rmult_le_reg_r with r; [lra|]; replace (e / r * r) with e by (field; lra); lra).
  split; [exact N0|]. destruct (sqrt_d m F N0) as [Fs Es]. split; [exact Fs|].
  assert (S1 : pow2 (-170) <= sqrt r) by (rewrite <- pow_sqrt; now apply sqrt_le_1_alt).
  assert (S2 : sqrt r <= pow2 170) by (rewrite <- (pow_sqrt 170); now apply sqrt_le_1_alt).
  assert (P2 := pow2_pos (-170)). split; [|split; [split; assumption|unfold dev_err; change uround with ur; split; lra]].
  rewrite Es. apply Rabs_le_inv in B. destruct (nearest_rel (sqrt (real_of m))) as (c & Hc & ->).
  { apply Rle_trans with (pow2 (-171)); [apply pow2_le; lia|]. assert (pow2 (-170) = 2 * pow2 (-171)) by (change (-170)%Z with (1 + -171)%Z; rewrite pow2_add; reflexivity).
    assert (e / r * sqrt r <= / 8 * sqrt r) by (apply Rmult_le_compat_r; lra). lra. }
  apply Rabs_le_inv in Hc. unfold dev_err. change uround with ur. apply Rabs_le. set (al := e / r) in *. set (s := sqrt r) in *. set (q := sqrt (real_of m)) in *.
  assert (Q1 : q <= 2 * s) by nra. assert (Q0 : 0 <= q) by (apply sqrt_pos). assert (T : Rabs (c * q) <= ur * (2 * s)).
  { rewrite Rabs_mult, (Rabs_pos_eq q) by exact Q0. apply Rmult_le_compat; try apply Rabs_pos; try lra. now apply Rabs_le. }
  apply Rabs_le_inv in T. split; lra.
Qed.

(** the quotient by a denominator with relative error 3 delta *)
Lemma quotient r e (m D : double) D0 delta : finite m -> Rabs (real_of m - r) <= e -> 0 < D0 -> 2 * ur <= delta <= / 7 ->
  Rabs (real_of D - D0) <= 3 * delta * D0 -> Rabs r + e <= pow2 1000 * D0 ->
  finite (ddiv m D) /\ Rabs (real_of (ddiv m D) - r / D0) <= (3 * e + 7 * delta * Rabs r) / D0 + pow2 (-1075).
Proof.
  intros Fm Em HD Hd ED HO. assert (U := ur_small). set (d := real_of D) in *. apply Rabs_le_inv in ED.
  assert (Dp : 4 / 7 * D0 <= d) by nra. set (mm := real_of m) in *. assert (E0 : 0 <= e) by (eapply Rle_trans; [apply Rabs_pos|exact Em]).
  assert (Mm : Rabs mm <= Rabs r + e). { replace mm with (r + (mm - r)) by ring. eapply Rle_trans; [apply Rabs_triang|]. lra. }
  assert (Qd : Rabs (mm / d) <= 7 / 4 * ((Rabs r + e) / D0)).
  { unfold Rdiv at 1. rewrite Rabs_mult, (Rabs_pos_eq (/ d)) by (apply Rlt_le, Rinv_0_lt_compat; lra).
    apply Rmult_le_reg_r with d; [lra|]. rewrite Rmult_assoc, Rinv_l, Rmult_1_r by lra. eapply Rle_trans; [exact Mm|].
    apply Rle_trans with (7 / 4 * ((Rabs r + e) / D0) * (4 / 7 * D0)); [right; field; lra|]. apply Rmult_le_compat_l; [|exact Dp].
    assert (0 <= (Rabs r + e) / D0) by (apply div_nonneg; [assert (Z := Rabs_pos r); lra|lra]). lra. }
  assert (Q0 : (Rabs r + e) / D0 <= pow2 1000) by (apply Rmult_le_reg_r with D0; [lra|]; replace ((Rabs r + e) / D0 * D0) with (Rabs r + e) by (field; lra); exact HO).
  destruct (ddiv_round m D Fm) as [Fq Eq].
  { fold d. lra. }
  { apply fits. fold mm d. eapply Rle_trans; [exact Qd|]. apply Rle_trans with (pow2 1001); [|apply pow2_le; lia]. assert (pow2 1001 = 2 * pow2 1000) by (change 1001%Z with (1 + 1000)%Z; rewrite pow2_add; reflexivity). assert (P := pow2_pos 1000). lra. }
  split; [exact Fq|]. rewrite Eq. fold mm d. destruct (nearest_pm (mm / d)) as (c & t & Hc & Ht & ->).
  replace (mm / d * (1 + c) + t - r / D0) with ((mm / d - r / D0) + c * (mm / d) + t) by ring.
  assert (B1 : Rabs (mm / d - r / D0) <= 7 / 4 * ((e + 3 * delta * Rabs r) / D0)).
  { replace (mm / d - r / D0) with (((mm - r) * D0 + r * (D0 - d)) / D0 * / d) by (field; lra).
    rewrite Rabs_mult, (Rabs_pos_eq (/ d)) by (apply Rlt_le, Rinv_0_lt_compat; lra). apply Rmult_le_reg_r with d; [lra|]. rewrite Rmult_assoc, Rinv_l, Rmult_1_r by lra.
    assert (N : Rabs (((mm - r) * D0 + r * (D0 - d)) / D0) <= e + 3 * delta * Rabs r).
    { replace (((mm - r) * D0 + r * (D0 - d)) / D0) with ((mm - r) + r * ((D0 - d) / D0)) by (field; lra).
      eapply Rle_trans; [apply Rabs_triang|]. apply Rplus_le_compat; [exact Em|]. rewrite Rabs_mult, Rmult_comm. apply Rmult_le_compat_r; [apply Rabs_pos|].
      unfold Rdiv. rewrite Rabs_mult, (Rabs_pos_eq (/ D0)) by (apply Rlt_le, Rinv_0_lt_compat; lra). apply Rmult_le_reg_r with D0; [lra|]. rewrite Rmult_assoc, Rinv_l, Rmult_1_r by lra. apply Rabs_le. lra. }
    eapply Rle_trans; [exact N|]. apply Rle_trans with (7 / 4 * ((e + 3 * delta * Rabs r) / D0) * (4 / 7 * D0)); [right; field; lra|]. apply Rmult_le_compat_l; [|exact Dp].
    assert (0 <= (e + 3 * delta * Rabs r) / D0) by (apply div_nonneg; [assert (Z := Rabs_pos r); nra|lra]). lra. }
  assert (B2 : Rabs (c * (mm / d)) <= ur * (7 / 4 * ((Rabs r + e) / D0))) by (rewrite Rabs_mult; apply Rmult_le_compat; auto using Rabs_pos).
  eapply Rle_trans; [apply Rabs_triang|]. apply Rplus_le_compat; [|exact Ht]. eapply Rle_trans; [apply Rabs_triang|]. eapply Rle_trans; [apply Rplus_le_compat; [exact B1|exact B2]|].
  unfold Rdiv. set (iD := / D0). assert (ID : 0 < iD) by (apply Rinv_0_lt_compat; lra).
  replace (7 * / 4 * ((e + 3 * delta * Rabs r) * iD) + ur * (7 * / 4 * ((Rabs r + e) * iD))) with ((7 * / 4 * (e + 3 * delta * Rabs r) + ur * (7 * / 4 * (Rabs r + e))) * iD) by ring.
  apply Rmult_le_compat_r; [lra|]. assert (Z := Rabs_pos r). assert (ur * Rabs r <= delta / 2 * Rabs r) by (apply Rmult_le_compat_r; lra). nra.
Qed.

(** products of two factors with relative error delta *)
Lemma product (a b : double) A B delta : finite a -> finite b -> 2 * ur <= delta <= / 7 -> pow2 (-340) <= A <= pow2 340 -> pow2 (-340) <= B <= pow2 340 ->
  Rabs (real_of a - A) <= delta * A -> Rabs (real_of b - B) <= delta * B ->
  finite (dmul a b) /\ Rabs (real_of (dmul a b) - A * B) <= 3 * delta * (A * B).
Proof.
  intros Fa Fb Hd HA HB Ea Eb. assert (U := ur_small). assert (P := pow2_pos (-340)). apply Rabs_le_inv in Ea. apply Rabs_le_inv in Eb.
  set (x := real_of a) in *. set (y := real_of b) in *.
  assert (X : (1 - delta) * A <= x <= (1 + delta) * A) by lra. assert (Y : (1 - delta) * B <= y <= (1 + delta) * B) by lra.
  assert (AB : 0 < A * B) by nra. assert (AB1 : pow2 (-680) <= A * B) by (change (-680)%Z with (-340 + -340)%Z; rewrite pow2_add; apply Rmult_le_compat; lra).
  assert (AB2 : A * B <= pow2 680) by (change 680%Z with (340 + 340)%Z; rewrite pow2_add; apply Rmult_le_compat; lra).
  assert (XY1 : (1 - delta) * (1 - delta) * (A * B) <= x * y).
  { replace ((1 - delta) * (1 - delta) * (A * B)) with (((1 - delta) * A) * ((1 - delta) * B)) by ring. apply Rmult_le_compat; try apply X; try apply Y; nra. }
  assert (XY2 : x * y <= (1 + delta) * (1 + delta) * (A * B)).
  { replace ((1 + delta) * (1 + delta) * (A * B)) with (((1 + delta) * A) * ((1 + delta) * B)) by ring. apply Rmult_le_compat; try apply X; try apply Y; nra. }
  destruct (dmul_round a b Fa Fb) as [Fp Ep].
  { apply fits. fold x y. rewrite Rabs_pos_eq by nra. apply Rle_trans with (2 * pow2 680); [nra|]. apply Rle_trans with (pow2 681); [right; change 681%Z with (1 + 680)%Z; rewrite pow2_add; reflexivity|apply pow2_le; lia]. }
  split; [exact Fp|]. rewrite Ep. fold x y. destruct (nearest_rel (x * y)) as (c & Hc & ->).
  { apply Rle_trans with (pow2 (-681)); [apply pow2_le; lia|]. assert (pow2 (-680) = 2 * pow2 (-681)) by (change (-680)%Z with (1 + -681)%Z; rewrite pow2_add; reflexivity). nra. }
  apply Rabs_le_inv in Hc. set (p := A * B) in *. set (z := x * y) in *. assert (Q : 0 < delta) by lra.
  assert (Z2 : z <= (1 + 2 * delta + delta * delta) * p) by lra. assert (Z1 : (1 - 2 * delta + delta * delta) * p <= z) by lra.
  assert (Z0 : 0 < z) by nra. assert (CZ : Rabs (c * z) <= delta / 2 * z).
  { rewrite Rabs_mult, (Rabs_pos_eq z) by lra. apply Rmult_le_compat_r; [lra|]. apply Rabs_le. lra. }
  apply Rabs_le_inv in CZ. assert (DD : delta * delta <= / 7 * delta) by nra.
  assert (W : (delta * delta) * p <= (/ 7 * delta) * p) by (apply Rmult_le_compat_r; lra).
  assert (Zb : z <= 65 / 49 * p) by nra. assert (V : delta / 2 * z <= delta / 2 * (65 / 49 * p)) by (apply Rmult_le_compat_l; lra).
  assert (DP : 0 < delta * p) by nra. apply Rabs_le. split; nra.
Qed.

Lemma moment_ok eig (cs : list (call2 DN)) w : legal2 cs -> run2 eig w2_init cs = Ret w -> forall v, let x := w2_var w v in ordinary x ->
  forall n r e, (1 <= n <= 4)%nat -> exact_moment x n r e -> exists d : double, u2_m x (Z.of_nat n) = Ret d /\ finite d /\ Rabs (real_of d - r) <= e.
Proof.
  intros L E v x O n r e Hn [Er (a & Ea & ->)]. destruct (C75_no_overflow_proof eig cs w L E v O) as [H _].
  destruct (H n Hn) as (d & r' & a' & Ed & Fd & Er' & Ea' & _ & B). fold x in Ed, Er', Ea', B. rewrite Er in Er'. rewrite Ea in Ea'. injection Er' as <-. injection Ea' as <-.
  exists d. auto.
Qed.

Lemma moments_unique x n r e r' e' : exact_moment x n r e -> exact_moment x n r' e' -> r = r' /\ e = e'.
Proof.
  intros [E (a & Ea & ->)] [E' (a' & Ea' & ->)]. rewrite E in E'. rewrite Ea in Ea'. injection E' as <-. injection Ea' as <-. auto.
Qed.

Lemma C82_moments_exist_proof : forall eig (cs : list (call2 DN)) w, legal2 cs -> run2 eig w2_init cs = Ret w ->
  forall v, let x := w2_var w v in ordinary x -> forall n, (1 <= n <= 4)%nat ->
  exists r e, exact_moment x n r e /\ gives (u2_m x (Z.of_nat n)) r e /\ forall r' e', exact_moment x n r' e' -> r' = r /\ e' = e.
Proof.
  intros eig cs w L E v x O n Hn. destruct (C75_no_overflow_proof eig cs w L E v O) as [H _]. fold x in H.
  destruct (H n Hn) as (d & r & a & Ed & Fd & Er & Ea & _ & B). exists r, (merr x n a). 
  assert (Q : exact_moment x n r (merr x n a)) by (split; [exact Er|exists a; auto]).
  split; [exact Q|]. split; [exists d; auto|]. intros r' e' Q'. exact (moments_unique x n _ _ _ _ Q' Q).
Qed.

Lemma C82_deviation_partial_proof : forall eig (cs : list (call2 DN)) w, legal2 cs -> run2 eig w2_init cs = Ret w ->
  forall v, let x := w2_var w v in ordinary x -> forall r2 e2, exact_moment x 2 r2 e2 -> conditioned r2 e2 ->
  gives (u2_s x) (sqrt r2) (dev_err r2 e2 * sqrt r2) /\
  (forall r3 e3, exact_moment x 3 r3 e3 -> Rabs r3 + e3 <= pow2 1000 * (sqrt r2 * r2) ->
     gives (u2_skew x) (r3 / (sqrt r2 * r2)) ((3 * e3 + 7 * dev_err r2 e2 * Rabs r3) / (sqrt r2 * r2) + pow2 (-1075))) /\
  (forall r4 e4, exact_moment x 4 r4 e4 -> Rabs r4 + e4 <= pow2 1000 * (r2 * r2) ->
     gives (u2_kurt x) (r4 / (r2 * r2)) ((3 * e4 + 7 * dev_err r2 e2 * Rabs r4) / (r2 * r2) + pow2 (-1075))).
Proof.
  intros eig cs w L E v x O r2 e2 M2 C2.
  destruct (moment_ok eig cs w L E v O 2 r2 e2 ltac:(lia) M2) as (m & Em & Fm & Bm). fold x in Em.
  destruct (dev_ok r2 e2 m C2 Fm Bm) as (_ & Fs & Bs & Rs & Hd). set (dl := dev_err r2 e2) in *. set (s := dsqrt m) in *.
  assert (C2' := C2). destruct C2' as [R2 H8]. assert (P := pow2_pos (-340)). assert (P5 := pow2_pos (-170)).
  assert (Es : u2_s x = Ret s) by (unfold u2_s; change 2%Z with (Z.of_nat 2); rewrite Em; reflexivity).
  assert (Bm' : Rabs (real_of m - r2) <= dl * r2).
  { eapply Rle_trans; [exact Bm|]. unfold dl, dev_err. replace e2 with (e2 / r2 * r2) at 1 by (field; lra). apply Rmult_le_compat_r; [lra|]. assert (0 <= uround) by apply Rlt_le, pow2_pos. lra. }
  assert (Rs' : pow2 (-340) <= sqrt r2 <= pow2 340).
  { split; [apply Rle_trans with (pow2 (-170)); [apply pow2_le; lia|apply Rs]|apply Rle_trans with (pow2 170); [apply Rs|apply pow2_le; lia]]. }
  split; [exists s; auto|]. split.
  - intros r3 e3 M3 H3. destruct (moment_ok eig cs w L E v O 3 r3 e3 ltac:(lia) M3) as (m3 & Em3 & F3 & B3). fold x in Em3.
    destruct (product s m (sqrt r2) r2 dl Fs Fm Hd Rs' R2 Bs Bm') as [Fp Bp].
    destruct (quotient r3 e3 m3 (dmul s m) (sqrt r2 * r2) dl F3 B3) as [Fq Bq]; [nra|exact Hd|exact Bp|exact H3|].
    exists (ddiv m3 (dmul s m)). split; [|auto]. unfold u2_skew. change 3%Z with (Z.of_nat 3). rewrite Em3. cbn [bind]. rewrite Es. cbn [bind]. change 2%Z with (Z.of_nat 2). rewrite Em. reflexivity.
  - intros r4 e4 M4 H4. destruct (moment_ok eig cs w L E v O 4 r4 e4 ltac:(lia) M4) as (m4 & Em4 & F4 & B4). fold x in Em4.
    destruct (product m m r2 r2 dl Fm Fm Hd R2 R2 Bm' Bm') as [Fp Bp].
    destruct (quotient r4 e4 m4 (dmul m m) (r2 * r2) dl F4 B4) as [Fq Bq]; [nra|exact Hd|exact Bp|exact H4|].
    exists (ddiv m4 (dmul m m)). split; [|auto]. unfold u2_kurt. change 2%Z with (Z.of_nat 2). rewrite Em. cbn [bind]. change 4%Z with (Z.of_nat 4). rewrite Em4. reflexivity.
Qed.

Lemma C82_correlation_partial_proof : forall eig (cs : list (call2 DN)) w, legal2 cs -> run2 eig w2_init cs = Ret w ->
  forall v v', let x := w2_var w v in let y := w2_var w v' in ordinary x -> ordinary y ->
  forall rx ex ry ey c a, exact_moment x 2 rx ex -> conditioned rx ex -> exact_moment y 2 ry ey -> conditioned ry ey ->
  u2_cov (exactly x) (exactly y) = Ret c -> u2_cov (sized 0 x) (sized 0 y) = Ret a ->
  let e := 4 * INR (depth_cov (n_ids x) (n_ids y)) * uround * a in Rabs c + e <= pow2 1000 * (sqrt rx * sqrt ry) ->
  let dl := Rmax (dev_err rx ex) (dev_err ry ey) in
  gives (u2_corr x y) (c / (sqrt rx * sqrt ry)) ((3 * e + 7 * dl * Rabs c) / (sqrt rx * sqrt ry) + pow2 (-1075)).
Proof.
  intros eig cs w L E v v' x y Ox Oy rx ex ry ey c a Mx Cx My Cy Ec Ea e He dl.
  destruct (moment_ok eig cs w L E v Ox 2 rx ex ltac:(lia) Mx) as (m & Em & Fm & Bm). fold x in Em.
  destruct (moment_ok eig cs w L E v' Oy 2 ry ey ltac:(lia) My) as (m' & Em' & Fm' & Bm'). fold y in Em'.
  destruct (dev_ok rx ex m Cx Fm Bm) as (_ & Fs & Bs & Rs & Hd). destruct (dev_ok ry ey m' Cy Fm' Bm') as (_ & Fs' & Bs' & Rs' & Hd').
  assert (P5 := pow2_pos (-170)).
  assert (Es : u2_s x = Ret (dsqrt m)) by (unfold u2_s; change 2%Z with (Z.of_nat 2); rewrite Em; reflexivity).
  assert (Es' : u2_s y = Ret (dsqrt m')) by (unfold u2_s; change 2%Z with (Z.of_nat 2); rewrite Em'; reflexivity).
  destruct (C75_no_overflow_proof eig cs w L E v Ox) as (_ & _ & H). destruct (H v' Oy) as (d & r & a' & Ed & Fd & Er & Ea' & _ & B). fold x y in Ed, Er, Ea', B.
  rewrite Ec in Er. rewrite Ea in Ea'. injection Er as <-. injection Ea' as <-. fold e in B.
  assert (Hl : 2 * ur <= dl <= / 7) by (unfold dl; split; [eapply Rle_trans; [|apply Rmax_l]; apply Hd|apply Rmax_lub; [apply Hd|apply Hd']]).
  assert (W : forall t, pow2 (-170) <= t <= pow2 170 -> pow2 (-340) <= t <= pow2 340).
  { intros t Ht. split; [apply Rle_trans with (pow2 (-170)); [apply pow2_le; lia|apply Ht]|apply Rle_trans with (pow2 170); [apply Ht|apply pow2_le; lia]]. }
  destruct (product (dsqrt m) (dsqrt m') (sqrt rx) (sqrt ry) dl Fs Fs' Hl (W _ Rs) (W _ Rs')) as [Fp Bp].
  { eapply Rle_trans; [exact Bs|]. apply Rmult_le_compat_r; [lra|apply Rmax_l]. }
  { eapply Rle_trans; [exact Bs'|]. apply Rmult_le_compat_r; [lra|apply Rmax_r]. }
  destruct (quotient c e d (dmul (dsqrt m) (dsqrt m')) (sqrt rx * sqrt ry) dl Fd B) as [Fq Bq]; [nra|exact Hl|exact Bp|exact He|].
  exists (ddiv d (dmul (dsqrt m) (dsqrt m'))). split; [|auto]. unfold u2_corr. rewrite Ed. cbn [bind]. rewrite Es. cbn [bind]. rewrite Es'. reflexivity.
Qed.
