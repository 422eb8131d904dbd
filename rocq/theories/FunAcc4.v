(** * FunAcc4: mixed second derivative by differences on doubles (C70) *)

From Coq Require Import List ZArith Bool Reals Lra Lia Psatz.
From Coquelicot Require Import Coquelicot.
From Flocq Require Import Core BinarySingleNaN.
From Verif Require Import Base Num Map UReal World SpecObs Ieee IeeeFacts SpecIeee IeeeProofs IeeeProofs2 IeeeProofs3 IeeeProofs4
  IeeeCov SpecFun Derivs MathProofs FunProofs FunAcc SpecFunIeee FunAcc2 FunAcc3.
Import ListNotations.
Local Open Scope R_scope.

(** ** the difference of differences *)
Lemma mixed_diff (F Fx Fxy : R -> R -> R) a b H c L : 0 <= H ->
  (forall s t, near a H s -> near b H t -> is_derive (fun s => F s t) s (Fx s t)) ->
  (forall s t, near a H s -> near b H t -> is_derive (fun t => Fx s t) t (Fxy s t)) ->
  (forall s t, near a H s -> near b H t -> Rabs (Fxy s t - c) <= L) ->
  forall g p q, g * g = 1 -> 0 <= p <= H -> 0 <= q <= H ->
  Rabs (F (a + g * p) (b + g * q) - F (a + g * p) b - F a (b + g * q) + F a b - c * (p * q)) <= L * (p * q).
Proof.
  intros H0 D1 D2 B g p q Hg Hp Hq.
  assert (Na : near a H a) by (unfold near; rewrite Rminus_eq_0, Rabs_R0; apply Rabs_pos).
  assert (Nb : near b H b) by (unfold near; rewrite Rminus_eq_0, Rabs_R0; apply Rabs_pos).
  assert (Nq : near b H (b + g * q)) by (now apply near_g).
  assert (I : forall s, near a H s -> Rabs ((Fx s (b + g * q) - c * (b + g * q)) - (Fx s b - c * b)) <= L * q).
  { intros s Ns. apply (tay1 b g H Hg H0 (fun t => Fx s t - c * t) (fun t => Fxy s t - c) L); [| |exact Hq].
    - intros t Nt. assert (D := D2 s t Ns Nt). auto_derive; [eexists; exact D|]. derv D. ring.
    - intros t Nt. now apply B. }
  assert (J := tay1 a g H Hg H0 (fun s => (F s (b + g * q) - c * s * (b + g * q)) - (F s b - c * s * b))
    (fun s => (Fx s (b + g * q) - c * (b + g * q)) - (Fx s b - c * b)) (L * q)).
  cbv beta in J. assert (K : Rabs (F (a + g * p) (b + g * q) - c * (a + g * p) * (b + g * q) - (F (a + g * p) b - c * (a + g * p) * b) -
    (F a (b + g * q) - c * a * (b + g * q) - (F a b - c * a * b))) <= L * q * p).
  { apply J; [| |exact Hp].
    - intros s Ns. assert (E1 := D1 s _ Ns Nq). assert (E2 := D1 s _ Ns Nb). auto_derive; [split; [eexists; exact E1|]; split; [eexists; exact E2|exact Logic.I]|].
      derv E1. derv E2. ring.
    - exact I. }
  replace (L * (p * q)) with (L * q * p) by ring.
  replace (c * (p * q)) with (g * g * (c * (p * q))) by (rewrite Hg; ring).
  match type of K with Rabs ?x <= _ => match goal with |- Rabs ?y <= _ => replace y with x by ring end end. exact K.
Qed.

(** ** rounding *)
Lemma abs_tri3 x y z b1 b2 b3 : Rabs x <= b1 -> Rabs y <= b2 -> Rabs z <= b3 -> Rabs (x + y + z) <= b1 + b2 + b3.
Proof. intros A B C. apply abs_bound in A, B, C. apply Rabs_le. lra. Qed.
(** a sum or difference of numbers of known size *)
Lemma dadd_abs (x y : double) (X Y : R) : finite x -> finite y -> Rabs (real_of x) <= X -> Rabs (real_of y) <= Y -> X + Y <= pow2 1000 ->
  finite (dadd x y) /\ Rabs (real_of (dadd x y) - (real_of x + real_of y)) <= ur * (X + Y).
Proof.
  intros Fx Fy BX BY L. assert (T : Rabs (real_of x + real_of y) <= X + Y) by (eapply Rle_trans; [apply Rabs_triang|]; lra).
  destruct (dadd_round x y Fx Fy) as [F V]; [apply fits, Rle_trans with (1 := T), Rle_trans with (1 := L), pow2_le; lia|]. split; [exact F|].
  destruct (nearest_sum x y) as (e & He & Ee). rewrite V, Ee.
  replace ((real_of x + real_of y) * (1 + e) - (real_of x + real_of y)) with (e * (real_of x + real_of y)) by ring.
  rewrite Rabs_mult. apply Rmult_le_compat; try apply Rabs_pos; assumption.
Qed.
Lemma dsub_dadd (x y : double) : dsub x y = dadd x (dopp y).
Proof. unfold dsub, dadd, dopp. destruct x, y; reflexivity. Qed.
Lemma dsub_abs (x y : double) (X Y : R) : finite x -> finite y -> Rabs (real_of x) <= X -> Rabs (real_of y) <= Y -> X + Y <= pow2 1000 ->
  finite (dsub x y) /\ Rabs (real_of (dsub x y) - (real_of x - real_of y)) <= ur * (X + Y).
Proof.
  intros Fx Fy BX BY L. rewrite dsub_dadd. assert (Fo : finite (dopp y)) by (unfold finite, dopp; now rewrite is_finite_Bopp).
  assert (Bo : Rabs (real_of (dopp y)) <= Y) by (rewrite real_of_opp, Rabs_Ropp; exact BY).
  assert (R := dadd_abs x (dopp y) X Y Fx Fo BX Bo L). rewrite real_of_opp in R. exact R.
Qed.
Lemma mixed_round (rr ll rc lc cr cl cc s : double) (Q W : R) :
  List.Forall (fun x => finite x /\ Rabs (real_of x) <= W) [rr; ll; rc; lc; cr; cl; cc] ->
  finite s -> pow2 (-240) <= real_of s <= pow2 240 -> W <= pow2 480 ->
  let h := real_of s in
  let N := real_of rr + real_of ll - (real_of rc + real_of lc) - (real_of cr + real_of cl) + 2 * real_of cc in
  Rabs (N / (2 * (h * h))) <= Q -> Q <= pow2 491 ->
  let d := ddiv (dadd (dsub (dsub (dadd rr ll) (dadd rc lc)) (dadd cr cl)) (dmul (dofZ 2) cc)) (dmul (dofZ 2) (dmul s s)) in
  finite d /\ Rabs (real_of d - N / (2 * (h * h))) <= 41 / 10 * ur * Q + 85 / 10 * ur * (W / (h * h)) + pow2 (-1074) / 2.
Proof.
  intros HF Fs [S0 S1] LW h N HQ LQ d. fold h in S0, S1.
  apply Forall_cons_iff in HF as [[Frr Brr] HF]. apply Forall_cons_iff in HF as [[Fll Bll] HF]. apply Forall_cons_iff in HF as [[Frc Brc] HF].
  apply Forall_cons_iff in HF as [[Flc Blc] HF]. apply Forall_cons_iff in HF as [[Fcr Bcr] HF]. apply Forall_cons_iff in HF as [[Fcl Bcl] HF].
  apply Forall_cons_iff in HF as [[Fcc Bcc] _].
  assert (U := ur_small). assert (P240 := pow2_pos (-240)). assert (H : 0 < h) by lra. assert (Hh : 0 < h * h) by (apply Rmult_lt_0_compat; lra).
  assert (W0 : 0 <= W) by (eapply Rle_trans; [apply Rabs_pos|exact Brr]).
  assert (L10 : 16 * W <= pow2 1000).
  { apply Rle_trans with (16 * pow2 480); [lra|]. replace (16 * pow2 480) with (pow2 484); [apply pow2_le; lia|].
    change 484%Z with (1 + (1 + (1 + (1 + 480))))%Z. rewrite !pow2_S. ring. }
  destruct (dadd_abs rr ll W W Frr Fll Brr Bll ltac:(lra)) as [F1 E1].
  destruct (dadd_abs rc lc W W Frc Flc Brc Blc ltac:(lra)) as [F2 E2].
  destruct (dadd_abs cr cl W W Fcr Fcl Bcr Bcl ltac:(lra)) as [F3 E3].
  set (s1 := dadd rr ll) in *. set (s2 := dadd rc lc) in *. set (s3 := dadd cr cl) in *.
  assert (UW : 0 <= ur * W <= / 1000 * W) by (split; [apply Rmult_le_pos; lra|apply Rmult_le_compat_r; lra]).
  assert (UUW : 0 <= ur * (ur * W) <= / 1000 * (ur * W)) by (split; [apply Rmult_le_pos; lra|apply Rmult_le_compat_r; lra]).
  assert (B1 : Rabs (real_of s1) <= 2 * W + 2 * (ur * W)) by (apply abs_bound in E1, Brr, Bll; apply Rabs_le; lra).
  assert (B2 : Rabs (real_of s2) <= 2 * W + 2 * (ur * W)) by (apply abs_bound in E2, Brc, Blc; apply Rabs_le; lra).
  assert (B3 : Rabs (real_of s3) <= 2 * W + 2 * (ur * W)) by (apply abs_bound in E3, Bcr, Bcl; apply Rabs_le; lra).
  destruct (dsub_abs s1 s2 _ _ F1 F2 B1 B2 ltac:(lra)) as [F4 E4]. set (s4 := dsub s1 s2) in *.
  assert (B4 : Rabs (real_of s4) <= 4 * W + 9 * (ur * W)) by (apply abs_bound in E4, B1, B2; apply Rabs_le; lra).
  destruct (dsub_abs s4 s3 _ _ F4 F3 B4 B3 ltac:(lra)) as [F5 E5]. set (s5 := dsub s4 s3) in *.
  assert (B5 : Rabs (real_of s5) <= 6 * W + 20 * (ur * W)) by (apply abs_bound in E5, B4, B3; apply Rabs_le; lra).
  destruct (double_exact cc Fcc) as [F6 E6]; [apply Rle_trans with (1 := Bcc); lra|]. set (s6 := dmul (dofZ 2) cc) in *.
  assert (EN : Rabs (real_of s5 + real_of s6 - N) <= 162 / 10 * (ur * W)).
  { rewrite E6. unfold N. apply abs_bound in E1, E2, E3, E4, E5. apply Rabs_le. lra. }
  set (E := real_of s5 + real_of s6 - N) in *. assert (Es : real_of s5 + real_of s6 = N + E) by (unfold E; ring).
  assert (B6 : Rabs (real_of s5 + real_of s6) <= 9 * W). { rewrite E6. apply abs_bound in B5, Bcc. apply Rabs_le. lra. }
  destruct (dadd_round s5 s6 F5 F6) as [F7 E7]; [apply fits, Rle_trans with (1 := B6); apply Rle_trans with (pow2 1000); [lra|apply pow2_le; lia]|].
  destruct (nearest_sum s5 s6) as (e1 & He1 & Ee1). rewrite Ee1, Es in E7. apply abs_bound in He1. set (n := dadd s5 s6) in *.
  assert (H2 : pow2 (-480) <= h * h <= pow2 480).
  { change (-480)%Z with (-240 + -240)%Z. change 480%Z with (240 + 240)%Z. rewrite !pow2_add. split; apply Rmult_le_compat; lra. }
  destruct (dmul_round s s Fs Fs) as [Fh Vh].
  { fold h. apply fits. rewrite Rabs_pos_eq by lra. apply Rle_trans with (1 := proj2 H2), pow2_le. lia. }
  fold h in Vh. assert (Rh := rel_err (h * h)). rewrite Rabs_pos_eq in Rh by lra. fold uround in Rh.
  assert (Rh' : Rabs (nearest (h * h) - h * h) <= ur * (h * h)). { apply Rh. apply Rle_trans with (2 := proj1 H2), pow2_le. lia. } clear Rh.
  assert (Bk : Rabs (real_of (dmul s s)) <= pow2 1000).
  { rewrite Vh. apply abs_bound in Rh'. apply Rle_trans with (pow2 481); [|apply pow2_le; lia]. change 481%Z with (1 + 480)%Z. rewrite pow2_S. apply Rabs_le. nra. }
  destruct (double_exact _ Fh Bk) as [Fk Ek]. rewrite Vh in Ek.
  set (k := nearest (h * h)) in *. apply abs_bound in Rh'. set (e0 := k / (h * h) - 1).
  assert (Ekk : k = h * h * (1 + e0)) by (unfold e0; field; lra).
  assert (He0 : - ur <= e0 <= ur). { rewrite Ekk in Rh'. split; apply Rmult_le_reg_l with (h * h); lra. }
  assert (K0 : 0 < k) by (rewrite Ekk; apply Rmult_lt_0_compat; lra).
  set (q := N / (2 * (h * h))) in *. assert (Eq : N = q * (2 * (h * h))) by (unfold q; field; lra).
  set (z := E / (2 * (h * h))). assert (Ez : E = z * (2 * (h * h))) by (unfold z; field; lra).
  assert (En : real_of n / (2 * k) = (q + z) * ((1 + e1) / (1 + e0))).
  { rewrite E7, Ekk, Eq, Ez. field. lra. }
  set (g := (1 + e1) / (1 + e0)) in *.
  assert (Eg : g * (1 + e0) = 1 + e1) by (unfold g; field; lra).
  assert (Hg : 1 - 201 / 100 * ur <= g <= 1 + 201 / 100 * ur) by (split; nra).
  assert (BV : 0 <= W / (h * h) <= pow2 960).
  { split; [apply Rmult_le_pos; [lra|left; now apply Rinv_0_lt_compat]|]. apply Rmult_le_reg_r with (h * h); [exact Hh|]. unfold Rdiv. rewrite Rmult_assoc, Rinv_l, Rmult_1_r by lra.
    apply Rle_trans with (1 := LW). apply Rle_trans with (pow2 960 * pow2 (-480)); [right; rewrite <- pow2_add; reflexivity|]. apply Rmult_le_compat_l; [left; apply pow2_pos|lra]. }
  set (x := W / (h * h)) in *.
  assert (Bz : Rabs z <= 81 / 10 * (ur * x)).
  { change z with (E * / (2 * (h * h))). rewrite Rabs_mult, (Rabs_pos_eq (/ (2 * (h * h)))) by (left; apply Rinv_0_lt_compat; lra).
    replace (81 / 10 * (ur * x)) with (162 / 10 * (ur * W) * / (2 * (h * h))) by (unfold x; field; lra).
    apply Rmult_le_compat_r; [left; apply Rinv_0_lt_compat; lra|exact EN]. }
  assert (Q0 : 0 <= Q) by (eapply Rle_trans; [apply Rabs_pos|exact HQ]).
  assert (UX : 0 <= ur * x <= / 1000 * x) by (split; [apply Rmult_le_pos; lra|apply Rmult_le_compat_r; lra]).
  assert (Bn : Rabs ((q + z) * g) <= 2 * (Q + x)).
  { rewrite Rabs_mult, Rmult_comm. apply Rmult_le_compat; try apply Rabs_pos; [apply Rabs_le; lra|]. eapply Rle_trans; [apply Rabs_triang|]. lra. }
  destruct (ddiv_round n (dmul (dofZ 2) (dmul s s)) F7) as [F V]; [rewrite Ek; lra|rewrite Ek, En; apply fits, Rle_trans with (1 := Bn)|].
  { assert (A1 : pow2 491 <= pow2 1020) by (apply pow2_le; lia). assert (A2 : pow2 960 <= pow2 1020) by (apply pow2_le; lia).
    assert (A4 := pow2_S 1020). assert (A5 := pow2_S 1021). assert (A6 := pow2_S 1022).
    change (1 + 1020)%Z with 1021%Z in A4.  change (1 + 1021)%Z with 1022%Z in A5.  change (1 + 1022)%Z with 1023%Z in A6. lra. }
  split; [exact F|]. unfold d. rewrite V, Ek, En.
  destruct (nearest_pm ((q + z) * g)) as (e3 & t & He3 & Ht & Et). rewrite Et. apply abs_bound in He3.
  assert (P75 : pow2 (-1075) = pow2 (-1074) / 2). { change (-1074)%Z with (1 + -1075)%Z. rewrite pow2_S. lra. }
  assert (Hgg : Rabs (g * (1 + e3) - 1) <= 302 / 100 * ur) by (apply Rabs_le; nra).
  replace ((q + z) * g * (1 + e3) + t - q) with (q * (g * (1 + e3) - 1) + z * (1 + (g * (1 + e3) - 1)) + t) by ring.
  set (m := g * (1 + e3) - 1) in *. rewrite P75 in Ht.
  assert (W1 : Rabs (q * m) <= 302 / 100 * ur * Q). { rewrite Rabs_mult, Rmult_comm. apply Rmult_le_compat; try apply Rabs_pos; assumption. }
  assert (W2 : Rabs (z * (1 + m)) <= 101 / 100 * (81 / 10 * (ur * x))).
  { apply abs_bound in Hgg. rewrite Rabs_mult, Rmult_comm. apply Rmult_le_compat; try apply Rabs_pos; [apply Rabs_le; lra|exact Bz]. }
  eapply Rle_trans; [apply (abs_tri3 _ _ _ _ _ _ W1 W2 Ht)|].
  assert (0 <= ur * Q) by (apply Rmult_le_pos; lra). lra.
Qed.

(** the mixed difference *)
Lemma mixed_central (f : double -> double -> double) (F Fx Fxy : R -> R -> R) L V del (mx my s : double) :
  let a := real_of mx in let b := real_of my in let h := real_of s in let H := 2 * h in
  finite mx -> finite my -> good_step a s -> good_step b s ->
  computes2 (near a H) (near b H) del f F ->
  (forall u t, near a H u -> near b H t -> is_derive (fun u => F u t) u (Fx u t)) ->
  (forall u t, near a H u -> near b H t -> is_derive (fun t => Fx u t) t (Fxy u t)) ->
  (forall u t, near a H u -> near b H t -> Rabs (Fxy u t - Fxy a b) <= L) ->
  (forall u t, near a H u -> near b H t -> Rabs (F u t) <= V) ->
  mixed_size h V (Fxy a b) L del ->
  let xr := dadd mx s in let xl := dsub mx s in let yr := dadd my s in let yl := dsub my s in
  let d := ddiv (dadd (dsub (dsub (dadd (f xr yr) (f xl yl)) (dadd (f xr my) (f xl my))) (dadd (f mx yr) (f mx yl))) (dmul (dofZ 2) (f mx my)))
             (dmul (dofZ 2) (dmul s s)) in
  finite d /\ Rabs (real_of d - Fxy a b) <= mixed_err a b h V (Fxy a b) L del.
Proof.
  intros a b h H Fmx Fmy Ga Gb C D1 D2 BL BV [SV SQ] xr xl yr yl d.
  destruct (good_step_facts _ _ Ga) as (Hp & Ra & _ & _). destruct (good_step_facts _ _ Gb) as (_ & Rb & _ & _). fold a b h in Hp, Ra, Rb.
  destruct (moved_right mx s Fmx Ga) as (Fxr & hr & Exr & Hr). destruct (moved_left mx s Fmx Ga) as (Fxl & hl & Exl & Hl).
  destruct (moved_right my s Fmy Gb) as (Fyr & kr & Eyr & Kr). destruct (moved_left my s Fmy Gb) as (Fyl & kl & Eyl & Kl).
  fold a b h xr xl yr yl in Fxr, Exr, Hr, Fxl, Exl, Hl, Fyr, Eyr, Kr, Fyl, Eyl, Kl.
  destruct (moved_near a h hr 1 Hp ltac:(ring) (proj2 Ra) Hr) as [Nxr Bxr]. destruct (moved_near a h hl (-1) Hp ltac:(ring) (proj2 Ra) Hl) as [Nxl Bxl].
  destruct (moved_near b h kr 1 Hp ltac:(ring) (proj2 Rb) Kr) as [Nyr Byr]. destruct (moved_near b h kl (-1) Hp ltac:(ring) (proj2 Rb) Kl) as [Nyl Byl].
  fold H in Nxr, Nxl, Nyr, Nyl.
  assert (Na : near a H a) by (unfold near; rewrite Rminus_eq_0, Rabs_R0; apply Rabs_pos).
  assert (Nb : near b H b) by (unfold near; rewrite Rminus_eq_0, Rabs_R0; apply Rabs_pos).
  assert (H0 : 0 <= H) by (unfold H; lra).
  assert (PT : forall x y X Y, finite x -> finite y -> real_of x = X -> real_of y = Y -> near a H X -> near b H Y ->
    finite (f x y) /\ Rabs (real_of (f x y) - F X Y) <= del /\ Rabs (F X Y) <= V).
  { intros x y X Y Fx' Fy' Ex Ey NX NY. subst X Y. destruct (C x y Fx' Fy' NX NY) as [Ff Ef]. split; [exact Ff|]. split; [exact Ef|]. now apply BV. }
  destruct (PT xr yr _ _ Fxr Fyr Exr Eyr Nxr Nyr) as (F1 & E1 & V1). destruct (PT xl yl _ _ Fxl Fyl Exl Eyl Nxl Nyl) as (F2 & E2 & V2).
  destruct (PT xr my _ _ Fxr Fmy Exr eq_refl Nxr Nb) as (F3 & E3 & V3). destruct (PT xl my _ _ Fxl Fmy Exl eq_refl Nxl Nb) as (F4 & E4 & V4).
  destruct (PT mx yr _ _ Fmx Fyr eq_refl Eyr Na Nyr) as (F5 & E5 & V5). destruct (PT mx yl _ _ Fmx Fyl eq_refl Eyl Na Nyl) as (F6 & E6 & V6).
  destruct (PT mx my _ _ Fmx Fmy eq_refl eq_refl Na Nb) as (F7 & E7 & V7). fold a b in E3, E4, E5, E6, E7, V3, V4, V5, V6, V7.
  assert (Tr := mixed_diff F Fx Fxy a b H (Fxy a b) L H0 D1 D2 BL 1 hr kr ltac:(ring) ltac:(unfold H; lra) ltac:(unfold H; lra)).
  assert (Tl := mixed_diff F Fx Fxy a b H (Fxy a b) L H0 D1 D2 BL (-1) hl kl ltac:(ring) ltac:(unfold H; lra) ltac:(unfold H; lra)).
  assert (L0 : 0 <= L) by (eapply Rle_trans; [apply Rabs_pos|exact (BL a b Na Nb)]).
  assert (D0 : 0 <= del) by (eapply Rle_trans; [apply Rabs_pos|exact E1]).
  assert (V0 : 0 <= V) by (eapply Rle_trans; [apply Rabs_pos|exact V1]).
  set (c := Fxy a b) in *. set (ra := step_err a h) in *. set (rb := step_err b h) in *.
  set (N := real_of (f xr yr) + real_of (f xl yl) - (real_of (f xr my) + real_of (f xl my)) - (real_of (f mx yr) + real_of (f mx yl)) + 2 * real_of (f mx my)).
  assert (Hh : 0 < h * h) by (apply Rmult_lt_0_compat; lra).
  assert (PR : Rabs (hr * kr - h * h) <= 9 / 8 * ((ra + rb) * (h * h))).
  { replace (hr * kr - h * h) with ((hr - h) * kr + h * (kr - h)) by ring. eapply Rle_trans; [apply Rabs_triang|]. rewrite !Rabs_mult, (Rabs_pos_eq kr), (Rabs_pos_eq h) by lra.
    assert (KB : kr <= h + rb * h) by (apply abs_bound in Kr; lra).
    assert (X1 : Rabs (hr - h) * kr <= ra * h * (h + rb * h)) by (apply Rmult_le_compat; [apply Rabs_pos|lra|assumption|lra]).
    assert (X2 : h * Rabs (kr - h) <= h * (rb * h)) by (apply Rmult_le_compat_l; [lra|exact Kr]).
    assert (X3 : ra * rb <= / 8 * (ra + rb)) by nra. assert (ra * rb * (h * h) <= / 8 * (ra + rb) * (h * h)) by (apply Rmult_le_compat_r; lra). lra. }
  assert (PL : Rabs (hl * kl - h * h) <= 9 / 8 * ((ra + rb) * (h * h))).
  { replace (hl * kl - h * h) with ((hl - h) * kl + h * (kl - h)) by ring. eapply Rle_trans; [apply Rabs_triang|]. rewrite !Rabs_mult, (Rabs_pos_eq kl), (Rabs_pos_eq h) by lra.
    assert (KB : kl <= h + rb * h) by (apply abs_bound in Kl; lra).
    assert (X1 : Rabs (hl - h) * kl <= ra * h * (h + rb * h)) by (apply Rmult_le_compat; [apply Rabs_pos|lra|assumption|lra]).
    assert (X2 : h * Rabs (kl - h) <= h * (rb * h)) by (apply Rmult_le_compat_l; [lra|exact Kl]).
    assert (X3 : ra * rb <= / 8 * (ra + rb)) by nra. assert (ra * rb * (h * h) <= / 8 * (ra + rb) * (h * h)) by (apply Rmult_le_compat_r; lra). lra. }
  assert (CR : L * (hr * kr) <= L * (25 / 16 * (h * h))).
  { apply Rmult_le_compat_l; [exact L0|]. replace (25 / 16 * (h * h)) with (5 / 4 * h * (5 / 4 * h)) by field. apply Rmult_le_compat; lra. }
  assert (CL : L * (hl * kl) <= L * (25 / 16 * (h * h))).
  { apply Rmult_le_compat_l; [exact L0|]. replace (25 / 16 * (h * h)) with (5 / 4 * h * (5 / 4 * h)) by field. apply Rmult_le_compat; lra. }
  assert (E0 : Rabs (N / (2 * (h * h)) - c) <= 9 / 8 * ((ra + rb) * Rabs c) + 25 / 16 * L + 4 * (del / (h * h))).
  { replace (N / (2 * (h * h)) - c) with ((N - 2 * (h * h) * c) / (2 * (h * h))) by (field; lra).
    unfold Rdiv at 1. rewrite Rabs_mult, (Rabs_pos_eq (/ (2 * (h * h)))) by (left; apply Rinv_0_lt_compat; lra).
    apply Rmult_le_reg_r with (2 * (h * h)); [lra|]. rewrite Rmult_assoc, Rinv_l, Rmult_1_r by lra.
    replace ((9 / 8 * ((ra + rb) * Rabs c) + 25 / 16 * L + 4 * (del / (h * h))) * (2 * (h * h)))
      with (2 * (9 / 8 * ((ra + rb) * (h * h)) * Rabs c) + 2 * (L * (25 / 16 * (h * h))) + 8 * del) by (field; lra).
    assert (Y1 := abs_mult_le _ c _ PR). assert (Y2 := abs_mult_le _ c _ PL).
    apply abs_bound in E1, E2, E3, E4, E5, E6, E7, Tr, Tl, Y1, Y2. unfold N. apply Rabs_le. lra. }
  assert (U := ur_small). assert (P := pow2_pos (-1074)).
  assert (UA := step_err_ur a h Hp). assert (UB := step_err_ur b h Hp). fold ra in UA. fold rb in UB.
  assert (C0 := Rabs_pos c). assert (K0 : 0 <= del / (h * h)) by (apply Rmult_le_pos; [lra|left; now apply Rinv_0_lt_compat]).
  set (rc := (ra + rb) * Rabs c) in *. assert (RC : 2 * (ur * Rabs c) <= rc <= / 2 * Rabs c).
  { unfold rc. rewrite <- Rmult_assoc. split; apply Rmult_le_compat_r; lra. }
  set (kd := del / (h * h)) in *. set (Q := Rabs c + 9 / 8 * rc + 25 / 16 * L + 4 * kd).
  replace (4 * del / (h * h)) with (4 * kd) in SQ by (unfold kd, Rdiv; ring).
  assert (HQ : Rabs (N / (2 * (h * h))) <= Q).
  { replace (N / (2 * (h * h))) with ((N / (2 * (h * h)) - c) + c) by ring. eapply Rle_trans; [apply Rabs_triang|]. unfold Q. lra. }
  destruct (mixed_round (f xr yr) (f xl yl) (f xr my) (f xl my) (f mx yr) (f mx yl) (f mx my) s Q (V + del)) as [Fd Ed].
  { repeat match goal with |- List.Forall _ (_ :: _) => apply List.Forall_cons | |- List.Forall _ [] => apply List.Forall_nil end; (split; [assumption|]).
    - apply abs_bound in E1, V1. apply Rabs_le. lra.
    - apply abs_bound in E2, V2. apply Rabs_le. lra.
    - apply abs_bound in E3, V3. apply Rabs_le. lra.
    - apply abs_bound in E4, V4. apply Rabs_le. lra.
    - apply abs_bound in E5, V5. apply Rabs_le. lra.
    - apply abs_bound in E6, V6. apply Rabs_le. lra.
    - apply abs_bound in E7, V7. apply Rabs_le. lra. }
  { apply Ga. } { apply Ga. } { exact SV. } { exact HQ. }
  { change 491%Z with (1 + 490)%Z. rewrite pow2_S. unfold Q. lra. }
  split; [exact Fd|]. fold h N in Ed. change (Rabs (real_of d - N / (2 * (h * h))) <= 41 / 10 * ur * Q + 85 / 10 * ur * ((V + del) / (h * h)) + pow2 (-1074) / 2) in Ed.
  replace ((V + del) / (h * h)) with (V / (h * h) + kd) in Ed by (unfold kd, Rdiv; ring).
  unfold mixed_err. fold ra rb. rewrite Rmult_plus_distr_r. replace (2 * (ra + rb) * Rabs c) with (2 * rc) by (unfold rc; ring).
  replace ((5 * del + 9 * uround * V) / (h * h)) with (5 * kd + 9 * ur * (V / (h * h))) by (unfold kd, Rdiv; ring).
  assert (V1' : 0 <= V / (h * h)) by (apply Rmult_le_pos; [lra|left; now apply Rinv_0_lt_compat]). set (v := V / (h * h)) in *.
  replace (real_of d - c) with ((real_of d - N / (2 * (h * h))) + (N / (2 * (h * h)) - c)) by ring. eapply Rle_trans; [apply Rabs_triang|].
  assert (Z5 : 0 <= ur * Rabs c) by (apply Rmult_le_pos; lra).
  assert (Z1 : 0 <= ur * rc <= / 1000 * rc) by (split; [apply Rmult_le_pos; lra|apply Rmult_le_compat_r; lra]).
  assert (Z2 : 0 <= ur * L <= / 1000 * L) by (split; [apply Rmult_le_pos; lra|apply Rmult_le_compat_r; lra]).
  assert (Z3 : 0 <= ur * kd <= / 1000 * kd) by (split; [apply Rmult_le_pos; lra|apply Rmult_le_compat_r; lra]).
  assert (Z4 : 0 <= ur * v) by (apply Rmult_le_pos; lra).
  unfold Q in Ed. lra.
Qed.
