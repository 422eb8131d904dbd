(** * MathAcc6: from the accuracy of two derivatives to the accuracy of the result (C66) *)

From Coq Require Import List ZArith Reals Bool Lra Lia Psatz.
From Coquelicot Require Import Coquelicot.
From Flocq Require Import Core BinarySingleNaN.
From Verif Require Import Base Num Map UReal World SpecObs URealFacts URealProofs Ieee IeeeFacts SpecIeee IeeeProofs IeeeProofs2 IeeeProofs3 IeeeProofs4
  IeeeCov IeeeCorr Nan Math SpecMathIeee SpecMathIeee2 IeeeRel MathAcc MathAcc2 MathAcc3.
Import ListNotations.
Local Open Scope R_scope.

(** ** Norms *)
Definition sums (l : list Z) (f g : Z -> R) : R := fold_right (fun i r => f i * g i + r) 0 l.
Lemma norm_sums l f : norm l f = sqrt (sums l f f). Proof. reflexivity. Qed.
Lemma sums_nonneg l f : 0 <= sums l f f.
Proof. induction l as [|i l IH]; [cbn; lra|]. cbn. fold (sums l f f). assert (Q := Rle_0_sqr (f i)). unfold Rsqr in Q. lra. Qed.
Lemma sums_cauchy l f g : sums l f g * sums l f g <= sums l f f * sums l g g.
Proof.
  induction l as [|i l IH]; [cbn; lra|]. cbn. fold (sums l f g) (sums l f f) (sums l g g).
  assert (N1 := sums_nonneg l f). assert (N2 := sums_nonneg l g). revert IH N1 N2.
  generalize (sums l f g) (sums l f f) (sums l g g) (f i) (g i). intros S X Y a b IH N1 N2.
  enough (2 * (a * b) * S <= a * a * Y + b * b * X) by nra.
  assert (PX := sqrt_sqrt X N1). assert (PY := sqrt_sqrt Y N2). assert (QX := sqrt_pos X). assert (QY := sqrt_pos Y).
  assert (K : Rabs S <= sqrt X * sqrt Y).
  { rewrite <- sqrt_mult by lra. rewrite <- (sqrt_square (Rabs S)) by apply Rabs_pos. apply sqrt_le_1_alt. rewrite <- Rabs_mult, Rabs_pos_eq by apply Rle_0_sqr. exact IH. }
  assert (A1 : 2 * (a * b) * S <= 2 * Rabs (a * b) * Rabs S).
  { eapply Rle_trans; [apply Rle_abs|]. rewrite !Rabs_mult. rewrite (Rabs_pos_eq 2) by lra. right. ring. }
  assert (AB := Rabs_pos (a * b)).
  assert (A2 : 2 * Rabs (a * b) * Rabs S <= 2 * Rabs (a * b) * (sqrt X * sqrt Y)) by (apply Rmult_le_compat_l; lra).
  rewrite Rabs_mult in A2 at 2. rewrite <- PX at 1. rewrite <- PY at 1.
  replace (a * a) with (Rabs a * Rabs a) by (rewrite <- Rabs_mult, Rabs_pos_eq; [ring|apply Rle_0_sqr]).
  replace (b * b) with (Rabs b * Rabs b) by (rewrite <- Rabs_mult, Rabs_pos_eq; [ring|apply Rle_0_sqr]).
  assert (0 <= (Rabs a * sqrt Y - Rabs b * sqrt X) * (Rabs a * sqrt Y - Rabs b * sqrt X)) by apply Rle_0_sqr. nra.
Qed.
Lemma norm_pos l f : 0 <= norm l f. Proof. apply sqrt_pos. Qed.
Lemma norm_sq l f : norm l f * norm l f = sums l f f. Proof. apply sqrt_sqrt, sums_nonneg. Qed.
Lemma norm_mono l f g : (forall i, In i l -> Rabs (f i) <= Rabs (g i)) -> norm l f <= norm l g.
Proof.
  intro H. apply sqrt_le_1_alt. induction l as [|i l IH]; [cbn; lra|]. cbn.
  assert (A := H i (or_introl eq_refl)). assert (A0 := Rabs_pos (f i)).
  assert (f i * f i <= g i * g i).
  { replace (f i * f i) with (Rabs (f i) * Rabs (f i)) by (rewrite <- Rabs_mult, Rabs_pos_eq; [ring|apply Rle_0_sqr]).
    replace (g i * g i) with (Rabs (g i) * Rabs (g i)) by (rewrite <- Rabs_mult, Rabs_pos_eq; [ring|apply Rle_0_sqr]). apply Rmult_le_compat; lra. }
  apply Rplus_le_compat; [assumption|]. apply IH. intros j Hj. apply H. now right.
Qed.
Lemma norm_scal l f c : 0 <= c -> norm l (fun i => c * f i) = c * norm l f.
Proof.
  intro C. rewrite !norm_sums. replace (sums l (fun i => c * f i) (fun i => c * f i)) with (c * c * sums l f f).
  - rewrite sqrt_mult_alt by nra. now rewrite sqrt_square.
  - induction l as [|i l IH]; cbn; [ring|]. fold (sums l f f) (sums l (fun i => c * f i) (fun i => c * f i)). rewrite <- IH. ring.
Qed.
Lemma norm_triang l f g : norm l (fun i => f i + g i) <= norm l f + norm l g.
Proof.
  assert (P := norm_pos l f). assert (Q := norm_pos l g). apply Rsqr_incr_0_var; [|lra]. unfold Rsqr. rewrite norm_sq.
  assert (E : sums l (fun i => f i + g i) (fun i => f i + g i) = sums l f f + 2 * sums l f g + sums l g g).
  { induction l as [|i l IH]; cbn; [ring|]. fold (sums l f g) (sums l f f) (sums l g g) (sums l (fun i => f i + g i) (fun i => f i + g i)). rewrite IH by apply norm_pos. ring. }
  rewrite E. assert (C := sums_cauchy l f g). assert (S1 := norm_sq l f). assert (S2 := norm_sq l g).
  assert (X : sums l f g <= norm l f * norm l g).
  { apply Rle_trans with (Rabs (sums l f g)); [apply Rle_abs|]. apply Rsqr_incr_0_var; [|now apply Rmult_le_pos]. unfold Rsqr.
    rewrite <- Rabs_mult, Rabs_pos_eq by apply Rle_0_sqr. replace (norm l f * norm l g * (norm l f * norm l g)) with ((norm l f * norm l f) * (norm l g * norm l g)) by ring.
    rewrite S1, S2. exact C. }
  nra.
Qed.
Lemma norm_ext l f g : (forall i, In i l -> f i = g i) -> norm l f = norm l g.
Proof.
  intro H. unfold norm. f_equal. induction l as [|i l IH]; [reflexivity|]. cbn. rewrite (H i (or_introl eq_refl)), IH; [reflexivity|].
  intros j Hj. apply H. now right.
Qed.
Lemma norm_diff l f g : Rabs (norm l f - norm l g) <= norm l (fun i => f i - g i).
Proof.
  assert (A := norm_triang l g (fun i => f i - g i)). assert (B := norm_triang l f (fun i => g i - f i)).
  cbv beta in A, B. rewrite (norm_ext l (fun i => g i + (f i - g i)) f) in A by (intros; ring). rewrite (norm_ext l (fun i => f i + (g i - f i)) g) in B by (intros; ring).
  assert (C : norm l (fun i => g i - f i) <= norm l (fun i => f i - g i)) by (apply norm_mono; intros; rewrite Rabs_minus_sym; apply Rle_refl).
  apply Rabs_le. lra.
Qed.

(** ** Coefficients *)
Lemma stored_ufind x i : stored x i = ufind i x. Proof. reflexivity. Qed.
Lemma ids_ukeys x : ids x = ukeys x. Proof. reflexivity. Qed.
Lemma sum_sq_ids last (x : ureal DN) : wf last x -> sum_sq (coefs x) = sums (ids x) (coef x) (coef x).
Proof.
  intro W. assert (So := wf_sorted _ _ W). unfold coefs, ids, coef, stored. destruct (0 <? uid x)%Z.
  - unfold sum_sq, sums. cbn [fold_right]. now rewrite Z.eqb_refl.
  - destruct (uid x <? 0)%Z; [|reflexivity]. set (f := fun i => match mfind i (usigma x) with Some c => real_of c | None => 0 end).
    change (sum_sq (map snd (usigma x)) = sums (map fst (usigma x)) f f).
    assert (H : forall l, incl l (usigma x) -> sum_sq (map snd l) = sums (map fst l) f f); [|apply H, incl_refl].
    induction l as [|[i c] l IH]; intro I0; [reflexivity|]. unfold sum_sq, sums. cbn [map fst snd fold_right].
    fold (sum_sq (map snd l)) (sums (map fst l) f f). rewrite IH by (intros q Q; apply I0; now right).
    assert (Ei : f i = real_of c). { unfold f. now rewrite (proj2 (mfind_Some_iff i c (usigma x) So) (I0 _ (or_introl eq_refl))). }
    now rewrite Ei.
Qed.
Lemma length_ids x : List.length (ids x) = List.length (coefs x).
Proof. unfold ids, coefs. destruct (0 <? uid x)%Z; [reflexivity|]. destruct (uid x <? 0)%Z; [|reflexivity]. now rewrite !map_length. Qed.

Definition oval (o : option double) : R := match o with Some c => real_of c | None => 0 end.
Definition ofin (o : option double) : Prop := match o with Some c => finite c | None => True end.
Lemma add_zero (a : double) : finite a -> finite (dadd (n0 : DN) a) /\ real_of (dadd (n0 : DN) a) = real_of a.
Proof.
  intro F. assert (Z : real_of (n0 : DN) = 0) by reflexivity.
  assert (G : nearest (real_of a) = real_of a) by (apply round_generic; [apply valid_rnd_N|apply (generic_format_B2R 53 1024)]).
  destruct (dadd_round (n0 : DN) a eq_refl F) as [Ff E]; rewrite Z, Rplus_0_l in *.
  - unfold no_overflow. rewrite G. apply (abs_B2R_lt_emax 53 1024).
  - split; [exact Ff|]. now rewrite E, G.
Qed.
Lemma comb_close e k dx dy (dx' dy' : double) (ox oy : option double) : ur <= e <= pow2 (-20) -> 0 <= k <= 1000 ->
  close (k * e) dx' dx -> close (k * e) dy' dy -> ofin ox -> ofin oy -> regular (dx * oval ox) -> regular (dy * oval oy) ->
  Rabs (dx * oval ox) + Rabs (dy * oval oy) <= pow2 1022 ->
  let o := comb2 (N := DN) dx' dy' ox oy in
  ofin o /\ Rabs (oval o - (dx * oval ox + dy * oval oy)) <= (k + 4) * e * (Rabs (dx * oval ox) + Rabs (dy * oval oy)).
Proof.
  intros He Hk C1 C2 Fx Fy R1 R2 Sz. assert (S := e_small e He).
  assert (KE : 0 <= (k + 2) * e <= / 2) by (split; [apply Rmult_le_pos; lra|]; apply Rle_trans with (1002 * / 1000000); [apply Rmult_le_compat; lra|lra]).
  assert (X : forall d (d' : double) c, close (k * e) d' d -> finite c -> regular (d * real_of c) -> close ((k + 2) * e) (dmul d' c) (d * real_of c)).
  { intros d d' c C F Rg. rewrite dmul_comm. apply coef_close; try assumption; lra. }
  assert (W : forall r, (k + 2) * e * Rabs r <= (k + 4) * e * Rabs r) by (intro; apply Rmult_le_compat_r; [apply Rabs_pos|apply Rmult_le_compat_r; lra]).
  destruct ox as [cx|], oy as [cy|]; cbn [comb2 oval ofin] in *.
  - destruct (X _ _ _ C1 Fx R1) as [F1 B1]. destruct (X _ _ _ C2 Fy R2) as [F2 B2].
    set (p := dmul dx' cx) in *. set (q := dmul dy' cy) in *. set (r1 := dx * real_of cx) in *. set (r2 := dy * real_of cy) in *.
    change (nadd (n := DN) (nmul (n := DN) dx' cx) (nmul (n := DN) dy' cy)) with (dadd p q).
    assert (A1 : Rabs (real_of p) <= 3 / 2 * Rabs r1).
    { assert (T := Rabs_triang_inv (real_of p) r1). assert ((k + 2) * e * Rabs r1 <= / 2 * Rabs r1) by (apply Rmult_le_compat_r; [apply Rabs_pos|lra]). lra. }
    assert (A2 : Rabs (real_of q) <= 3 / 2 * Rabs r2).
    { assert (T := Rabs_triang_inv (real_of q) r2). assert ((k + 2) * e * Rabs r2 <= / 2 * Rabs r2) by (apply Rmult_le_compat_r; [apply Rabs_pos|lra]). lra. }
    assert (T := Rabs_triang (real_of p) (real_of q)).
    assert (P23 : pow2 1023 = 2 * pow2 1022) by (change 1023%Z with (1 + 1022)%Z; now rewrite pow2_add). assert (P0 := pow2_pos 1022).
    destruct (dadd_round p q F1 F2) as [F E]; [apply fits; lra|]. split; [exact F|]. destruct (nearest_sum p q) as (dl & D & N). rewrite E, N.
    replace ((real_of p + real_of q) * (1 + dl) - (r1 + r2)) with ((real_of p - r1) + (real_of q - r2) + dl * (real_of p + real_of q)) by ring.
    eapply Rle_trans; [apply Rabs_triang|]. eapply Rle_trans; [apply Rplus_le_compat_r, Rabs_triang|]. rewrite (Rabs_mult dl).
    assert (Rabs dl * Rabs (real_of p + real_of q) <= e * (2 * (Rabs r1 + Rabs r2))).
    { apply Rmult_le_compat; [apply Rabs_pos|apply Rabs_pos|lra|]. assert (Z1 := Rabs_pos r1). assert (Z2 := Rabs_pos r2). lra. }
    lra.
  - change (nmul (n := DN) dx' cx) with (dmul dx' cx). destruct (X _ _ _ C1 Fx R1) as [F1 B1]. split; [exact F1|].
    rewrite Rmult_0_r, Rabs_R0, !Rplus_0_r. eapply Rle_trans; [exact B1|apply W].
  - change (nadd (n := DN) n0 (nmul (n := DN) dy' cy)) with (dadd (n0 : DN) (dmul dy' cy)). destruct (X _ _ _ C2 Fy R2) as [F1 B1].
    destruct (add_zero _ F1) as [F E]. split; [exact F|]. rewrite E. rewrite Rmult_0_r, Rabs_R0, !Rplus_0_l. eapply Rle_trans; [exact B1|apply W].
  - split; [exact I|]. rewrite !Rmult_0_r, Rplus_0_r, Rminus_eq_0, Rabs_R0. lra.
Qed.

Lemma accurate2_intro (m : cmath DN -> ureal DN -> ureal DN -> outcome (ureal DN)) (dom : R -> R -> R -> Prop) (F : R -> R -> R) (k0 k : R)
  (fm f1 f2 : cmath DN -> double -> double -> double) : 0 <= k <= 996 ->
  (forall M x y, m M x y = u_binary x y (fm M (u_n x) (u_n y)) (f1 M (u_n x) (u_n y)) (f2 M (u_n x) (u_n y))) ->
  (forall M e a b, ur <= e <= pow2 (-20) -> accurate M e -> finite a -> finite b -> dom e (real_of a) (real_of b) -> regular (F (real_of a) (real_of b)) ->
     close (k0 * e) (fm M a b) (F (real_of a) (real_of b)) /\
     exists dx dy, differentiable_pt_lim F (real_of a) (real_of b) dx dy /\ close (k * e) (f1 M a b) dx /\ close (k * e) (f2 M a b) dy) ->
  accurate2 m dom F k0 (k + 4).
Proof.
  intros Hk Em H M e He A cs w L NS E u v x y a b Fa Fb D Rg.
  destruct (H M e (u_n x) (u_n y) He A Fa Fb D Rg) as (Cm & dx & dy & Df & C1 & C2). assert (S := e_small e He).
  set (mu := fm M (u_n x) (u_n y)) in *. set (dx' := f1 M (u_n x) (u_n y)) in *. set (dy' := f2 M (u_n x) (u_n y)) in *.
  assert (Rw : dreachable w) by (now exists cs). destruct (dreach_wwf w Rw) as [[Pl W] B].
  destruct (binary_wf (N := DN) (w_last w) x y mu dx' dy' (W u) (W v) B) as (z & Ez & Wz & Mz & Fz & _).
  exists z, dx, dy. split; [rewrite Em; exact Ez|]. split; [unfold u_n; rewrite Mz; exact Cm|]. split; [exact Df|]. cbv zeta.
  assert (Co : forall i, coef z i = oval (comb2 (N := DN) dx' dy' (stored x i) (stored y i))).
  { intro i. unfold coef. change (stored z i) with (ufind i z). now rewrite Fz. }
  assert (Fo : forall i, finite_at z i = ofin (comb2 (N := DN) dx' dy' (stored x i) (stored y i))).
  { intro i. unfold finite_at. change (stored z i) with (ufind i z). now rewrite Fz. }
  assert (Good : forall i, finite_at x i /\ finite_at y i /\ regular (dx * coef x i) /\ regular (dy * coef y i) /\ Rabs (dx * coef x i) + Rabs (dy * coef y i) <= pow2 1022 ->
    finite_at z i /\ Rabs (coef z i - (dx * coef x i + dy * coef y i)) <= (k + 4) * e * (Rabs (dx * coef x i) + Rabs (dy * coef y i))).
  { intros i (G1 & G2 & G3 & G4 & G5). rewrite Co, Fo. apply comb_close; try assumption. lra. }
  split; [|split; [exact Good|]].
  - intro i. rewrite !ids_ukeys. rewrite <- (ufind_keys i z _ Wz), <- (ufind_keys i x _ (W u)), <- (ufind_keys i y _ (W v)), Fz. apply comb2_keys.
  - intros HG NU SM.
    set (cs' := cs ++ [CBinary u u v (fun _ _ => mu : DN) (fun _ _ => dx' : DN) (fun _ _ => dy' : DN)]). set (w' := w_set w u z).
    assert (L' : dlegal cs').
    { destruct L as [L1 L2]. split; [apply Forall_app; split; [exact L1|repeat constructor]|].
      unfold cs', count_new. rewrite filter_app. cbn [filter is_new]. rewrite app_nil_r. exact L2. }
    assert (NS' : List.Forall (fun c => self_assign c = false) cs') by (apply Forall_app; split; [exact NS|repeat constructor]).
    assert (E' : run w_init cs' = Ret w').
    { unfold cs'. rewrite (run_app_d cs w_init w _ E). cbn [run exec]. change (u_binary (w_var w u) (w_var w v) mu dx' dy') with (u_binary x y mu dx' dy'). rewrite Ez. reflexivity. }
    assert (Ezv : w_var w' u = z) by (unfold w'; cbn; unfold upd; now rewrite Nat.eqb_refl).
    assert (Ac := C57_accuracy_proof cs' w' L' NS' E' u). rewrite Ezv in Ac. cbv zeta in Ac. specialize (Ac NU SM). destruct Ac as (Fs & _ & [B1 B2] & _).
    split; [exact Fs|]. assert (Sn := s_nonneg z Fs). rewrite length_ids. set (n := List.length (coefs z)) in *. set (q := (n + 3)%nat) in *.
    assert (Kc := keys_count (w_last w) z Wz Pl). fold n in Kc.
    assert (Im : INR q = INR n + 3) by (unfold q; rewrite plus_INR; cbn; lra).
    assert (U := ur_small).
    assert (Zs : 0 <= INR q * ur <= / 4).
    { split; [apply Rmult_le_pos; [apply pos_INR|lra]|].
      assert (Mb : INR q <= 4294967296). { rewrite INR_IZR_INZ. apply IZR_le. unfold maxid in B. unfold q. lia. }
      apply Rle_trans with (4294967296 * ur); [apply Rmult_le_compat_r; lra|]. unfold ur. change 4294967296 with (pow2 32). rewrite <- pow2_add.
      change (32 + -53)%Z with (-21)%Z. apply Rle_trans with (pow2 (-2)); [apply pow2_le; lia|]. right. unfold pow2. cbn. lra. }
    assert (PL := pow_lin q ltac:(lra)). destruct PL as [_ PL].
    assert (PI : (1 - INR q * ur) * (1 + ur) ^ q <= 1).
    { apply Rle_trans with ((1 - ur) ^ q * (1 + ur) ^ q); [apply Rmult_le_compat_r; [left; apply pow_lt; lra|exact PL]|].
      rewrite <- Rpow_mult_distr. assert (Q0 : 0 <= (1 - ur) * (1 + ur) <= 1) by (split; nra). assert (Q := pow_incr _ _ q Q0). now rewrite pow1 in Q. }
    assert (SZ := sum_sq_nonneg (coefs z)). rewrite (sum_sq_ids _ z Wz), <- norm_sq in B1, B2, SZ. set (l := ids z) in *.
    assert (Nz := norm_pos l (coef z)). set (D0 := norm l (coef z)) in *.
    assert (SB : Rabs (real_of (u_s z) - D0) <= (0 + INR q * ur) * D0).
    { apply sqrt_root_bound; [exact Sn|exact Nz|lra|exact Zs| |].
      - rewrite Rminus_0_r, !Rmult_1_l. eapply Rle_trans; [|exact B1]. apply Rmult_le_compat_r; [exact SZ|exact PL].
      - rewrite Rplus_0_r, !Rmult_1_l. apply Rle_trans with ((1 - INR q * ur) * ((1 + ur) ^ q * (D0 * D0))); [apply Rmult_le_compat_l; [lra|exact B2]|].
        rewrite <- Rmult_assoc. rewrite <- (Rmult_1_l (D0 * D0)) at 2. now apply Rmult_le_compat_r. }
    set (ex := fun i => dx * coef x i + dy * coef y i). set (sz := fun i => Rabs (dx * coef x i) + Rabs (dy * coef y i)).
    assert (KE : 0 <= (k + 4) * e <= / 2) by (split; [apply Rmult_le_pos; lra|]; apply Rle_trans with (1002 * / 1000000); [apply Rmult_le_compat; lra|lra]).
    assert (S0 : forall i, 0 <= sz i) by (intro i; unfold sz; assert (X1 := Rabs_pos (dx * coef x i)); assert (X2 := Rabs_pos (dy * coef y i)); lra).
    assert (DD : Rabs (D0 - norm l ex) <= (k + 4) * e * norm l sz).
    { eapply Rle_trans; [apply norm_diff|]. rewrite <- norm_scal by lra. apply norm_mono. intros i Hi.
      rewrite (Rabs_pos_eq ((k + 4) * e * sz i)) by (apply Rmult_le_pos; [lra|apply S0]). apply Good, HG, Hi. }
    assert (EX : norm l ex <= norm l sz).
    { apply norm_mono. intros i _. unfold ex. eapply Rle_trans; [apply Rabs_triang|]. fold (sz i). rewrite (Rabs_pos_eq (sz i)) by apply S0. apply Rle_refl. }
    assert (N0 := norm_pos l sz). assert (N1 := norm_pos l ex). set (ns := norm l sz) in *.
    assert (DB : D0 <= 2 * ns). { assert (X := Rabs_le_inv _ _ DD). assert ((k + 4) * e * ns <= / 2 * ns) by (apply Rmult_le_compat_r; lra). lra. }
    replace (real_of (u_s z) - norm l ex) with ((real_of (u_s z) - D0) + (D0 - norm l ex)) by ring.
    eapply Rle_trans; [apply Rabs_triang|].
    assert (I0 := pos_INR n).
    assert (QU : INR q * ur * D0 <= (INR n + 3) * e * (2 * ns)).
    { apply Rmult_le_compat; [lra|exact Nz| |exact DB]. rewrite Im. apply Rmult_le_compat_l; lra. }
    replace ((k + 4 + 2 * INR n + 6) * e * ns) with ((INR n + 3) * e * (2 * ns) + (k + 4) * e * ns) by ring. lra.
Qed.
