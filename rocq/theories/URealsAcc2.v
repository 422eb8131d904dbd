(** * URealsAcc2: accuracy of ureals on doubles (C72) *)

From Coq Require Import List ZArith Bool Reals Lra Lia Psatz.
From Flocq Require Import Core BinarySingleNaN.
From Verif Require Import Base Num Map UReal World Sums SpecLin SpecObs URealFacts URealProofs Stat StatProofs UReals SpecLDLT
  URealsProofs Ieee IeeeFacts SpecIeee SpecIeee2 IeeeProofs IeeeProofs2 IeeeProofs3 IeeeProofs4 IeeeCov IeeeCov2 SpecMathIeee IeeeRel
  SpecLDLTIeee URealsAcc.
Import ListNotations.
Local Open Scope R_scope.

Lemma ur_range : ur <= ur <= pow2 (-20).
Proof. split; [lra|]. apply bpow_le. lia. Qed.

(** ** coefficients *)
Lemma add_zero_real (a : double) : finite a -> finite (dadd dzero a) /\ real_of (dadd dzero a) = real_of a.
Proof.
  intro F. destruct (zeq_add0 a) as [->|[Z1 Z2]]; [auto|]. split; destruct Z1 as [->| ->]; try reflexivity; now destruct Z2 as [->| ->].
Qed.
Lemma add_zero_near k (a : double) r : near ur k a r -> near ur k (dadd dzero a) r.
Proof. intros [F (t & E & W)]. destruct (add_zero_real a F) as [F' E']. split; [exact F'|]. exists t. now rewrite E'. Qed.
Lemma sqrt_regular (a : double) : finite a -> 0 <= real_of a -> regular (sqrt (real_of a)).
Proof.
  intros F P. destruct (Req_dec (real_of a) 0) as [->|N]; [left; apply sqrt_0|right].
  assert (L : pow2 (-1074) <= real_of a).
  { unfold pow2, real_of in *. apply generic_format_ge_bpow with fexp64; [intro e; unfold SpecFloat.fexp, SpecFloat.emin; lia|lra|apply B2R_format]. }
  assert (U : real_of a <= pow2 1024) by (assert (B := B2R_lt_emax a); fold (real_of a) in B; rewrite Rabs_pos_eq in B; [unfold pow2; lra|exact P]).
  rewrite Rabs_pos_eq by apply sqrt_pos.
  assert (Sq : forall e, (0 <= 0)%Z -> sqrt (pow2 (e + e)) = pow2 e) by (intros e _; rewrite pow2_add; apply sqrt_square; assert (Q := pow2_pos e); lra).
  split.
  - apply Rle_trans with (pow2 (-537)); [apply bpow_le; lia|]. rewrite <- (Sq (-537)%Z) by lia. apply sqrt_le_1_alt. exact L.
  - apply Rle_trans with (pow2 512); [|apply bpow_le; lia]. rewrite <- (Sq 512%Z) by lia. apply sqrt_le_1_alt. exact U.
Qed.
Lemma coef_near n (d : ldlt DN) i k : (forall k, (k < n)%nat -> finite (ld_D d k) /\ 0 <= real_of (ld_D d k)) ->
  (forall i k, (k < i < n)%nat -> finite (ld_L d i k) /\ regular (real_of (ld_L d i k) * sqrt (real_of (ld_D d k)))) ->
  (i < n)%nat -> (k <= i)%nat ->
  near ur 2 (coef (ld_L d) (ld_D d) i k) (lower d i k * sqrt (real_of (ld_D d k))).
Proof.
  intros HD HL Hi Hk. destruct (HD k) as [Fd Pd]; [lia|].
  assert (Q : near ur 1 (dsqrt (ld_D d k)) (sqrt (real_of (ld_D d k)))).
  { apply near_sqrt; [exact ur_range|lia|exact Pd|apply near_exact; [exact Fd]|now apply sqrt_regular]. }
  unfold coef, lower, unit_lower. destruct (Nat.ltb_spec k i) as [Lt|Ge].
  - destruct (HL i k) as [Fl Rg]; [lia|]. apply add_zero_near. rewrite dmul_1_l. apply add_zero_near.
    apply (near_mul ur ur_range 0 1); [lia|now apply near_exact|exact Q|exact Rg].
  - destruct (Nat.eqb_spec k i); [|lia]. apply add_zero_near. rewrite dmul_1_l, Rmult_1_l.
    apply (near_weaken ur ur_range 1); [lia|exact Q].
Qed.

(** ** the common cells of two rows *)
Lemma row_cons last c s m : row_cells last c s (S m) = ((last + 1 + Z.of_nat s)%Z, c s) :: row_cells last c (S s) m.
Proof. reflexivity. Qed.
Lemma row_pairs last (c c' : nat -> double) m : forall s m', pairs (row_cells last c s m) (row_cells last c' s m') =
  map (fun k => (c k, c' k)) (seq s (Nat.min m m')).
Proof.
  induction m as [|m IH]; intros s m'; [reflexivity|]. destruct m' as [|m']; [now rewrite pairs_nil_r|].
  rewrite (row_cons last c). rewrite pairs_cons. rewrite (row_cons last c') at 1. cbn [filter fst]. rewrite Z.eqb_refl.
  rewrite filter_above by (intros j Hj; apply row_keys in Hj; lia). cbn [map snd app Nat.min seq]. f_equal.
  rewrite row_cons, pairs_skip_r; [apply IH|]. intros j Hj. apply row_keys in Hj. lia.
Qed.
Lemma row_sorted last c m : forall s, msorted (row_cells last c s m).
Proof.
  induction m as [|m IH]; intro s; [constructor|]. rewrite row_cons. unfold msorted. cbn [map fst]. constructor; [apply IH|].
  apply List.Forall_forall. intros j Hj. apply row_keys in Hj. unfold klt. cbn. apply Z.compare_lt_iff. lia.
Qed.

(** ** error of a covariance *)
Definition T4 : R := / (1 - ur) ^ 4.
Lemma T4_bounds : 1 <= T4 /\ T4 <= (1 + ur) ^ 5 /\ 1 - (1 - ur) ^ 4 <= T4 - 1.
Proof.
  assert (U := ur_small). unfold T4. assert (P : 0 < (1 - ur) ^ 4 <= 1).
  { split; [apply pow_lt; lra|]. assert (Q := pow_incr (1 - ur) 1 4 ltac:(lra)). rewrite pow1 in Q. exact Q. }
  set (p := (1 - ur) ^ 4) in *. assert (I : p * / p = 1) by (field; lra). assert (Ip : 0 < / p) by (apply Rinv_0_lt_compat; lra).
  assert (I1 : 1 <= / p) by nra. split; [exact I1|]. split; [|nra].
  apply Rmult_le_reg_l with p; [lra|]. rewrite I. unfold p.
  replace ((1 - ur) ^ 4 * (1 + ur) ^ 5) with ((1 - ur * ur) ^ 4 * (1 + ur)) by ring.
  assert (B : 1 - 4 * (ur * ur) <= (1 - ur * ur) ^ 4).
  { set (q := ur * ur). assert (0 <= q <= / 1000) by (unfold q; nra). replace ((1 - q) ^ 4) with (1 - 4 * q + q * q * (6 - 4 * q + q * q)) by ring.
    assert (0 <= q * q * (6 - 4 * q + q * q)) by (apply Rmult_le_pos; nra). lra. }
  assert (C : 1 <= (1 - 4 * (ur * ur)) * (1 + ur)) by nra. nra.
Qed.
Lemma near_product a b r s : near ur 2 a r -> near ur 2 b s ->
  finite a /\ finite b /\ Rabs (real_of a * real_of b) <= T4 * Rabs (r * s) /\ Rabs (real_of a * real_of b - r * s) <= (T4 - 1) * Rabs (r * s).
Proof.
  intros [Fa (t & Ea & Wa)] [Fb (t' & Eb & Wb)]. split; [exact Fa|]. split; [exact Fb|].
  assert (W := within_mul ur ur_range 2 2 _ _ Wa Wb). cbn [Nat.add] in W. destruct W as [W1 W2]. fold T4 in W2.
  destruct T4_bounds as (B1 & _ & B3). rewrite Ea, Eb. replace (r * t * (s * t')) with (r * s * (t * t')) by ring.
  assert (P0 : 0 < (1 - ur) ^ 4) by (apply pow_lt; assert (U := ur_small); lra).
  assert (Q := Rabs_pos (r * s)). split.
  - rewrite Rabs_mult, (Rabs_pos_eq (t * t')) by lra. nra.
  - replace (r * s * (t * t') - r * s) with (r * s * (t * t' - 1)) by ring. rewrite Rabs_mult, Rmult_comm.
    apply Rmult_le_compat_r; [exact Q|]. apply Rabs_le. lra.
Qed.
Lemma near_sums (c c' : nat -> double) (f g : nat -> R) ks :
  (forall k, In k ks -> near ur 2 (c k) (f k) /\ near ur 2 (c' k) (g k)) ->
  let l := map (fun k => (c k, c' k)) ks in
  finite_pairs l /\ sum_abs l <= T4 * rsum ks (fun k => Rabs (f k * g k)) /\
  Rabs (sum_prod l - rsum ks (fun k => f k * g k)) <= (T4 - 1) * rsum ks (fun k => Rabs (f k * g k)).
Proof.
  cbv zeta. induction ks as [|k ks IH]; intro H.
  - cbn. rewrite Rminus_0_r, Rabs_R0. split; [constructor|]. lra.
  - destruct IH as (F & A & P); [intros; apply H; now right|]. destruct (H k (or_introl eq_refl)) as [N1 N2].
    destruct (near_product _ _ _ _ N1 N2) as (Fa & Fb & Ba & Bp). cbn [map rsum].
    split; [constructor; [split; assumption|exact F]|].
    set (l := map (fun k => (c k, c' k)) ks) in *.
    change (sum_abs ((c k, c' k) :: l)) with (Rabs (real_of (c k) * real_of (c' k)) + sum_abs l).
    change (sum_prod ((c k, c' k) :: l)) with (real_of (c k) * real_of (c' k) + sum_prod l).
    split; [lra|].
    match goal with |- Rabs (?a + ?b - (?x + ?y)) <= _ => replace (a + b - (x + y)) with ((a - x) + (b - y)) by ring end.
    eapply Rle_trans; [apply Rabs_triang|]. lra.
Qed.

Lemma rows_cov (c c' : nat -> double) (f g : nat -> R) m : (Z.of_nat m <= 2147483648)%Z ->
  (forall k, (k < m)%nat -> near ur 2 (c k) (f k) /\ near ur 2 (c' k) (g k)) ->
  let S := rsum (seq 0 m) (fun k => Rabs (f k * g k)) in S <= pow2 1000 ->
  let r := dfold (map (fun k => (c k, c' k)) (seq 0 m)) dzero in
  finite r /\ Rabs (real_of r - rsum (seq 0 m) (fun k => f k * g k)) <= ((1 + ur) ^ (m + 6) - 1) * S + INR m * pow2 (-1074).
Proof.
  intros Hm H S HS r. destruct (near_sums c c' f g (seq 0 m)) as (F & A & P); [intros k Hk; apply in_seq in Hk; apply H; lia|].
  fold S in A, P. set (l := map (fun k => (c k, c' k)) (seq 0 m)) in *. destruct T4_bounds as (B1 & B2 & _).
  assert (S0 : 0 <= S) by (apply rsum_nonneg; intros; apply Rabs_pos).
  assert (T2 : T4 <= 3). { eapply Rle_trans; [exact B2|]. apply pow_exp. change (INR 5) with (1 + 1 + 1 + 1 + 1). assert (U := ur_small). lra. }
  assert (L : List.length l = m) by (unfold l; rewrite map_length, seq_length; reflexivity).
  assert (P20 : pow2 1020 = pow2 20 * pow2 1000) by (rewrite <- pow2_add; reflexivity).
  assert (P3 : 3 <= pow2 20) by (unfold pow2; cbn; lra). assert (P0 := pow2_pos 1000).
  destruct (fold_cov l dzero 0 0 0) as [Ff Bf]; auto.
  - rewrite L. exact Hm.
  - reflexivity.
  - rewrite Rabs_R0. lra.
  - change (real_of dzero) with 0. rewrite Rminus_0_r, Rabs_R0. cbn. lra.
  - rewrite Rplus_0_l, P20. nra.
  - rewrite !Rplus_0_l, L in Bf. cbn [Nat.add] in Bf. fold r in Ff, Bf. split; [exact Ff|].
    set (P' := rsum (seq 0 m) (fun k => f k * g k)) in *.
    replace (real_of r - P') with ((real_of r - sum_prod l) + (sum_prod l - P')) by ring.
    eapply Rle_trans; [apply Rabs_triang|].
    assert (U1 := pow_up (m + 1)). set (G := (1 + ur) ^ (m + 1)) in *.
    assert (EG : (1 + ur) ^ (m + 6) = G * (1 + ur) ^ 5) by (unfold G; rewrite <- pow_add; f_equal; lia). rewrite EG.
    assert (X : (G - 1) * sum_abs l <= (G - 1) * (T4 * S)) by (apply Rmult_le_compat_l; lra).
    assert (Y : G * T4 * S <= G * (1 + ur) ^ 5 * S) by (apply Rmult_le_compat_r; [exact S0|]; apply Rmult_le_compat_l; lra).
    nra.
Qed.

(** ** the exact product *)
Lemma product_rows n (d : ldlt DN) i j : (i < n)%nat -> (j < n)%nat -> (forall k, (k < n)%nat -> 0 <= real_of (ld_D d k)) ->
  let f k := lower d i k * sqrt (real_of (ld_D d k)) in let g k := lower d j k * sqrt (real_of (ld_D d k)) in
  product n d i j = rsum (seq 0 (Nat.min (S i) (S j))) (fun k => f k * g k) /\
  rsum (seq 0 n) (fun k => Rabs (f k * g k)) = rsum (seq 0 (Nat.min (S i) (S j))) (fun k => Rabs (f k * g k)) /\
  rsum (seq 0 n) (fun k => Rabs (f k * g k)) <= sqrt (product n d i i * product n d j j).
Proof.
  intros Hi Hj HD f g. set (m := Nat.min (S i) (S j)).
  assert (En : n = (m + (n - m))%nat) by (unfold m; lia).
  assert (Z : forall k, In k (seq (0 + m) (n - m)) -> f k * g k = 0).
  { intros k Hk. apply in_seq in Hk. unfold f, g, lower, unit_lower.
    destruct (Nat.ltb_spec k i), (Nat.ltb_spec k j), (Nat.eqb_spec k i), (Nat.eqb_spec k j); unfold m in Hk; try lia; ring. }
  assert (Pr : forall a b, product n d a b = rsum (seq 0 n) (fun k => (lower d a k * sqrt (real_of (ld_D d k))) * (lower d b k * sqrt (real_of (ld_D d k))))).
  { intros a b. unfold product. apply rsum_ext. intros k Hk. apply in_seq in Hk.
    rewrite <- (sqrt_sqrt (real_of (ld_D d k))) at 1 by (apply HD; lia). ring. }
  split; [|split].
  - rewrite Pr. fold f g. rewrite En at 1. rewrite seq_app, rsum_app, (rsum_zero (seq (0 + m) _)) by exact Z.
    rewrite Rplus_0_r. reflexivity.
  - rewrite En at 1. rewrite seq_app, rsum_app, (rsum_zero (seq (0 + m) _)); [ring|]. intros k Hk. rewrite Z by exact Hk. apply Rabs_R0.
  - assert (C := rsum_cauchy_schwarz (seq 0 n) (fun k => Rabs (f k)) (fun k => Rabs (g k))).
    rewrite (rsum_ext _ _ (fun k => Rabs (f k * g k))) in C by (intros; symmetry; apply Rabs_mult).
    rewrite (rsum_ext _ (fun k => Rabs (f k) * Rabs (f k)) (fun k => f k * f k)) in C by (intros; rewrite <- Rabs_mult; apply Rabs_pos_eq; nra).
    rewrite (rsum_ext _ (fun k => Rabs (g k) * Rabs (g k)) (fun k => g k * g k)) in C by (intros; rewrite <- Rabs_mult; apply Rabs_pos_eq; nra).
    rewrite !Pr. fold f g in C |- *.
    assert (N0 : 0 <= rsum (seq 0 n) (fun k => Rabs (f k * g k))) by (apply rsum_nonneg; intros; apply Rabs_pos).
    rewrite <- (sqrt_square (rsum (seq 0 n) (fun k => Rabs (f k * g k)))) by exact N0. apply sqrt_le_1_alt. unfold f, g in *. lra.
Qed.

Lemma fresh_old last c m (y : ureal DN) (x : ureal DN) : (0 <= last)%Z -> wf last y -> uid x = invalid_id -> usigma x = row_cells last c 0 m ->
  forall last', (last + Z.of_nat m <= last')%Z -> wf last' x -> u_cov x y = dzero.
Proof.
  intros Hl Wy I S last' Hm Wx. assert (Wy' : wf last' y) by (apply (wf_mono last); [lia|exact Wy]). rewrite (cov_common last' x y Wx Wy').
  unfold common. fold (pairs (cells x) (cells y)).
  assert (Cx : cells x = row_cells last c 0 m) by (unfold cells; rewrite I; exact S). rewrite Cx.
  assert (K : forall j, In j (map fst (cells y)) -> (j <= last)%Z).
  { intros j Hj. assert (B := wf_bound _ _ Wy). unfold bounded, ukeys in B. unfold cells in Hj.
    destruct (0 <? uid y)%Z eqn:P; [|destruct (uid y <? 0)%Z; [|destruct Hj]].
    - destruct Hj as [<-|[]]. cbn. specialize (B (uid y)). apply B. now left.
    - apply B. exact Hj. }
  assert (E : forall l, (forall j, In j (map fst l) -> (last < j)%Z) -> pairs l (cells y) = []).
  { induction l as [|[j v] l IH]; intro H; [reflexivity|]. rewrite pairs_cons, IH by (intros i Hi; apply H; now right).
    rewrite app_nil_r. specialize (H j (or_introl eq_refl)). cbn in H. clear IH. clear - K H.
    induction (cells y) as [|[i w] l' IH']; [reflexivity|]. cbn [filter fst].
    destruct (Z.eqb_spec j i) as [->|_]; [specialize (K i (or_introl eq_refl)); lia|]. apply IH'. intros q Hq. apply K. now right. }
  rewrite E; [reflexivity|]. intros j Hj. apply row_keys in Hj. lia.
Qed.

Lemma C72_accuracy_proof : forall eigen w (mu cov : list DN) (delta : nat -> nat -> R),
  let n := length mu in let A i j := real_of (nth (n * i + j) cov dzero) in
  dreachable w -> (w_last w + Z.of_nat n <= 2147483646)%Z -> (0 < n)%nat -> length cov = (n * n)%nat ->
  (forall V, ureals_V n cov = Ret V ->
     ld_ok (eigen n V) = true /\ ld_pos (eigen n V) = true /\ decomposes_up_to n A delta (eigen n V)) ->
  exists out C, ureals eigen (w_last w) mu cov = ((w_last w + Z.of_nat n)%Z, Ret out) /\ length out = n /\ cov_matrix out = Ret C /\
    (forall i, (i < n)%nat -> let x := nth i out u_default in
       (finite (nth i mu dzero) -> finite (u_n x) /\ real_of (u_n x) = real_of (nth i mu dzero)) /\
       u_var x = nth (n * i + i) C dzero /\ u_s x = dsqrt (nth (n * i + i) C dzero)) /\
    (forall i j, (i < n)%nat -> (j < n)%nat -> let c := nth (n * i + j) C dzero in
       finite c /\
       Rabs (real_of c - A i j) <=
         delta i j + ((1 + uround) ^ (n + 6) - 1) * sqrt ((A i i + delta i i) * (A j j + delta j j)) + INR n * pow2 (-1074)) /\
    (forall x t, In x out -> u_cov x (w_var w t) = dzero).
Proof.
  intros eigen w mu cov delta n A Rw Hn Hpos HL Hd. destruct (dreach_wwf w Rw) as [[Pl W] B].
  assert (EV : ureals_V n cov = Ret (map (fun ij => (ij, nth (fst ij + n * snd ij) cov (n0 : DN))) (lower_indices n))) by (apply (ureals_V_ok DN); exact HL).
  destruct (Hd _ EV) as (H1 & H2 & H3). set (V := map _ (lower_indices n)) in *.
  destruct H3 as (HT & HD & HLr & HS & HA).
  destruct (ureals_stored eigen (w_last w) mu cov Pl) with (V := V) as (Hrho & out & Eo & Lo & Fo); auto.
  { unfold maxid. fold n. lia. }
  { intros i k Hk. apply (HLr i k Hk). }
  fold n in Hrho, Eo, Lo, Fo. set (d := eigen n V) in *. set (rho := tr (ld_T d) (rev (seq 0 n))) in *.
  destruct (C17_cov_matrix_layout_proof DN out) as (C & EC & LC & FC). rewrite Lo in LC, FC.
  set (last' := (w_last w + Z.of_nat n)%Z).
  assert (Wo : forall i y, (i < n)%nat -> nth_error out i = Some y -> wf last' y /\ uid y = invalid_id /\ usdev y = nopp (n1 : DN) /\ usigma y = row_cells (w_last w) (coef (ld_L d) (ld_D d) (rho i)) 0 (S (rho i)) /\
     umu y = dadd dzero (nth i mu dzero)).
  { intros i y Hi Ey. destruct (Fo i Hi) as (y' & Ey' & I & Sd & Sg & M). assert (y' = y) by congruence. subst y'. split; [|auto].
    destruct (Hrho i Hi) as [Lr _]. split; try (rewrite I; unfold invalid_id; lia); rewrite ?Sg; [apply row_sorted|].
    unfold bounded, ukeys. rewrite I. cbn. intros k Hk. rewrite Sg in Hk. apply row_keys in Hk. unfold last'. lia. }
  assert (Entry : forall i j, (i < n)%nat -> (j < n)%nat -> nth (n * i + j) C dzero =
     dfold (map (fun k => (coef (ld_L d) (ld_D d) (rho i) k, coef (ld_L d) (ld_D d) (rho j) k)) (seq 0 (Nat.min (S (rho i)) (S (rho j))))) dzero /\
     nth (n * i + j) C dzero = u_cov (nth i out u_default) (nth j out u_default)).
  { intros i j Hi Hj.
    assert (N1 : nth_error out i = Some (nth i out u_default)) by (apply nth_error_nth'; rewrite Lo; exact Hi).
    assert (N2 : nth_error out j = Some (nth j out u_default)) by (apply nth_error_nth'; rewrite Lo; exact Hj).
    assert (N3 := nth_error_nth _ _ (dzero : DN) (FC i j _ _ N1 N2)). split; [|exact N3]. etransitivity; [exact N3|].
    destruct (Wo i _ Hi N1) as (Wi & Ii & _ & Si & _). destruct (Wo j _ Hj N2) as (Wj & Ij & _ & Sj & _).
    rewrite (cov_common last' _ _ Wi Wj). f_equal. unfold common. rewrite <- row_pairs with (last := w_last w).
    fold (pairs (cells (nth i out u_default)) (cells (nth j out u_default))). unfold cells. rewrite Ii, Ij. cbn.
    rewrite Si, Sj. reflexivity. }
  exists out, C. split; [exact Eo|]. split; [exact Lo|]. split; [exact EC|]. split; [|split].
  - intros i Hi x. assert (N1 : nth_error out i = Some x) by (apply nth_error_nth'; rewrite Lo; exact Hi).
    destruct (Fo i Hi) as (y' & Ey' & _). assert (Ex : y' = x) by congruence. subst y'.
    destruct (Wo i _ Hi N1) as (Wi & Ii & Sd & Si & Mi). split.
    + intro F. unfold u_n. rewrite Mi. apply add_zero_real, F.
    + destruct (Entry i i Hi Hi) as [_ Ec]. rewrite Ec. fold x. rewrite (cov_self_value last' x Wi).
      unfold u_var, u_s. rewrite Ii, Sd. split; reflexivity.
  - intros i j Hi Hj c. destruct (Entry i j Hi Hj) as [Ec _]. fold c in Ec.
    destruct (Hrho i Hi) as [Li Ri]. destruct (Hrho j Hj) as [Lj Rj].
    assert (HD0 : forall k, (k < n)%nat -> 0 <= real_of (ld_D d k)) by (intros k Hk; apply HD; exact Hk).
    destruct (product_rows n d (rho i) (rho j) Li Lj HD0) as (P1 & P2 & P3).
    assert (Dii := HA (rho i) (rho i) Li Li). assert (Djj := HA (rho j) (rho j) Lj Lj). assert (Dij := HA (rho i) (rho j) Li Lj).
    rewrite Ri in *. rewrite Rj in *. fold (A i j) in *.
    assert (Pi0 : forall a, (a < n)%nat -> 0 <= product n d a a).
    { intros a Ha. apply rsum_nonneg. intros k Hk. apply in_seq in Hk. assert (D0 := HD0 k ltac:(lia)). 
      replace (lower d a k * real_of (ld_D d k) * lower d a k) with (real_of (ld_D d k) * (lower d a k * lower d a k)) by ring.
      apply Rmult_le_pos; [exact D0|nra]. }
    assert (Qi := Pi0 _ Li). assert (Qj := Pi0 _ Lj). assert (Si := HS _ Li). assert (Sj := HS _ Lj).
    apply Rabs_le_inv in Dii. apply Rabs_le_inv in Djj.
    assert (SQ : sqrt (product n d (rho i) (rho i) * product n d (rho j) (rho j)) <= sqrt ((A i i + delta i i) * (A j j + delta j j))).
    { assert (Ai : product n d (rho i) (rho i) <= A i i + delta i i) by (clearbody A; lra).
      assert (Aj : product n d (rho j) (rho j) <= A j j + delta j j) by (clearbody A; lra).
      apply sqrt_le_1_alt. apply Rmult_le_compat; assumption. }
    set (m := Nat.min (S (rho i)) (S (rho j))) in *.
    set (f := fun k => lower d (rho i) k * sqrt (real_of (ld_D d k))) in *. set (g := fun k => lower d (rho j) k * sqrt (real_of (ld_D d k))) in *.
    change (product n d (rho i) (rho j) = rsum (seq 0 m) (fun k => f k * g k)) in P1. cbv beta zeta in P2, P3.
    change (rsum (seq 0 n) (fun k => Rabs (f k * g k)) = rsum (seq 0 m) (fun k => Rabs (f k * g k))) in P2.
    change (rsum (seq 0 n) (fun k => Rabs (f k * g k)) <= sqrt (product n d (rho i) (rho i) * product n d (rho j) (rho j))) in P3.
    rewrite P2 in P3.
    destruct (rows_cov (coef (ld_L d) (ld_D d) (rho i)) (coef (ld_L d) (ld_D d) (rho j)) f g m) as [Fc Bc].
    + unfold m. lia.
    + intros k Hk. split; (apply (coef_near n); [exact HD|exact HLr|assumption|unfold m in Hk; lia]).
    + eapply Rle_trans; [exact P3|]. assert (P0 := pow2_pos 1000).
      rewrite <- (sqrt_square (pow2 1000)) by lra. apply sqrt_le_1_alt. apply Rmult_le_compat; lra.
    + rewrite <- Ec in Fc, Bc. split; [exact Fc|]. rewrite <- P1 in Bc.
      replace (real_of c - A i j) with ((real_of c - product n d (rho i) (rho j)) - (A i j - product n d (rho i) (rho j))) by ring.
      unfold Rminus at 1. eapply Rle_trans; [apply Rabs_triang|]. rewrite Rabs_Ropp.
      assert (Mn : (m <= n)%nat) by (unfold m; lia).
      assert (X1 : (1 + ur) ^ (m + 6) <= (1 + ur) ^ (n + 6)) by (apply Rle_pow; [assert (U := ur_small); lra|lia]).
      assert (X2 : INR m * pow2 (-1074) <= INR n * pow2 (-1074)) by (apply Rmult_le_compat_r; [assert (Q := pow2_pos (-1074)); lra|apply le_INR; exact Mn]).
      assert (S0 : 0 <= rsum (seq 0 m) (fun k => Rabs (f k * g k))) by (apply rsum_nonneg; intros; apply Rabs_pos).
      assert (X3 : ((1 + ur) ^ (m + 6) - 1) * rsum (seq 0 m) (fun k => Rabs (f k * g k)) <= ((1 + ur) ^ (n + 6) - 1) * sqrt ((A i i + delta i i) * (A j j + delta j j))).
      { assert (U1 := pow_up (m + 6)). apply Rmult_le_compat; lra. }
      lra.
  - intros x t Hx. apply (In_nth _ _ u_default) in Hx as (i & Hi & <-). rewrite Lo in Hi.
    assert (N1 : nth_error out i = Some (nth i out u_default)) by (apply nth_error_nth'; rewrite Lo; exact Hi).
    destruct (Wo i _ Hi N1) as (Wi & Ii & _ & Si & Mi). destruct (Hrho i Hi) as [Li _].
    apply (fresh_old (w_last w) _ _ _ _ Pl (W t) Ii Si last'); [unfold last'; lia|exact Wi].
Qed.
