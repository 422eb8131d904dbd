(** * IoProofs6: what format prints in the remaining cases (C41-C43) *)

From Coq Require Import List ZArith Bool Reals Ascii String Lra Lia.
From Verif Require Import Base Num Io SpecIo IoProofs IoProofs2 IoProofs3.
Import ListNotations.
Local Open Scope R_scope.

Lemma C42_every_case_partial_proof : forall (mu s errdig : R) (sep : str), 0 < s -> 1 < errdig ->
  exists out M S e vM pM vS pS, format (Fin mu) (Fin s) errdig sep = Ret out /\
    layout out sep (Rltb mu 0) M S e /\ numeral M vM pM /\ numeral S vS pS /\
    let k := (e - Z.of_nat pS)%Z in
    (Rabs mu < ten k \/ no_carry mu k -> pM = pS /\ rounded mu k (vM * ten e)) /\
    (ten k <= Rabs mu -> ~ no_carry mu k ->
       (pS = (pM + 1)%nat /\ rounded mu k (vM * ten e)) \/
       (pM = 0%nat /\ pS = 0%nat /\ e = 0%Z /\ 1 <= vM /\ rounded mu k (10 * vM))).
Proof.
  intros mu s errdig sep Hs He. destruct (ndigits_pos s errdig Hs He) as (n & s' & En & Hn & Ps').
  destruct (format_general mu s errdig sep n s' Hs He En Hn Ps') as (out & M & SS & e & vM & pM & vS & pS & A & B & C & D & _ & _ & G & H & _ & I).
  exists out, M, SS, e, vM, pM, vS, pS. do 4 (split; [assumption|]). cbv zeta in *. split; [|exact I].
  intro Q. split; [exact (G Q)|]. apply H. destruct Q as [Q|Q]; [|auto].
  destruct (Z.eq_dec (e - Z.of_nat pS) 0) as [K|K]; [|auto]. rewrite K, ten_0 in Q. auto.
Qed.

(** ** The number of digits when rounding brings the deviation across the limit *)
Lemma rounded_ex x k : exists v, rounded x k v.
Proof.
  exists (IZR (rz (x / ten k)) * ten k). exists (rz (x / ten k)). split; [reflexivity|]. assert (H := rz_spec (x / ten k)).
  unfold Rdiv in *. rewrite Rabs_mult, (Rabs_pos_eq (/ ten k)) in H by (left; apply Rinv_0_lt_compat, ten_pos). exact H.
Qed.
Lemma rounded_decade x e k v : decade x e -> (k <= e)%Z -> rounded x k v -> ten e <= v <= ten (e + 1).
Proof.
  intros [D1 D2] Hk (z & -> & H1 & H2). assert (P := ten_pos k).
  replace e with ((e - k) + k)%Z in D1 by lia. replace (e + 1)%Z with ((e + 1 - k) + k)%Z in D2 by lia. rewrite ten_add in D1, D2.
  apply (Rmult_le_compat_r (/ ten k)) in D1; [|left; now apply Rinv_0_lt_compat].
  apply (Rmult_lt_compat_r (/ ten k)) in D2; [|now apply Rinv_0_lt_compat].
  rewrite Rmult_assoc, Rinv_r, Rmult_1_r in D1, D2 by lra. rewrite (ten_IZR (e - k)) in D1 by lia. rewrite (ten_IZR (e + 1 - k)) in D2 by lia. unfold Rdiv in H1, H2.
  split.
  - replace e with ((e - k) + k)%Z by lia. rewrite ten_add, (ten_IZR (_ - k)) by lia. apply Rmult_le_compat_r; [lra|]. apply IZR_le.
    enough (10 ^ (e - k) < z + 1)%Z by lia. apply lt_IZR. rewrite plus_IZR. lra.
  - replace (e + 1)%Z with ((e + 1 - k) + k)%Z by lia. rewrite ten_add, (ten_IZR (_ - k)) by lia. apply Rmult_le_compat_r; [lra|]. apply IZR_le.
    enough (z < 10 ^ (e + 1 - k) + 1)%Z by lia. apply lt_IZR. rewrite plus_IZR. lra.
Qed.
Lemma ndigits_unsteady s errdig : 0 < s -> 1 < errdig -> ~ covered s errdig -> exists i f e v,
  int_frac errdig i f /\ (2 <= i)%Z /\ decade s e /\ rounded s (e - i + 1) v /\ ndigits s errdig = ((i + 1)%Z, v * ten (i - 1)).
Proof.
  intros Hs He Nc. assert (As : Rabs s = s) by (apply Rabs_pos_eq; lra).
  set (i := floorZ errdig). set (f := errdig - IZR i). assert (Fl := floorZ_spec errdig). fold i in Fl.
  assert (IF : int_frac errdig i f) by (split; unfold f; lra).
  assert (Hi : (2 <= i)%Z).
  { destruct (Rlt_dec errdig 2) as [L|L]; [exfalso; apply Nc; split; auto|]. enough (1 < i)%Z by lia. apply lt_IZR. lra. }
  assert (Hf : 0 < f).
  { destruct (Rlt_dec 0 f) as [L|L]; [exact L|]. exfalso. apply Nc. split; [exact He|]. right; left. exists i. unfold f in L. lra. }
  assert (D := exponent_decade s ltac:(lra)). set (e := exponent s) in *. assert (Pe := ten_pos e).
  set (k := (e - i + 1)%Z). assert (Pk := ten_pos k). destruct (rounded_ex s k) as [v Rv].
  assert (NS : ~ Rabs s / ten e < Rpower 10 f).
  { intro H. apply Nc. split; [exact He|]. right; right. exists i, f, e. auto. }
  assert (NV : ~ Rpower 10 f <= v / ten e < 10).
  { intro H. apply Nc. split; [exact He|]. right; right. exists i, f, e. split; [exact IF|]. split; [exact D|]. right. exists v. auto. }
  exists i, f, e, v. split; [exact IF|]. split; [exact Hi|]. split; [exact D|]. split; [exact Rv|].
  assert (BV := rounded_decade s e k v D ltac:(unfold k; lia) Rv).
  destruct Rv as (z & Ev & Hz).
  unfold ndigits. fold e. destruct (naive_eq s errdig e i f D IF) as [_ N2]. rewrite (N2 NS).
  assert (Ez : int_mantissa s i e * p10 e = v * ten (i - 1)).
  { unfold int_mantissa. rewrite round_pos by (apply Rmult_le_pos; [lra|left; apply ten_pos]). rewrite (rz_unique _ z).
    - rewrite Ev, Rmult_assoc, <- ten_add. change p10 with ten. do 2 f_equal. unfold k. lia.
    - rewrite Rabs_mult, (Rabs_pos_eq (p10 _)) by (left; apply ten_pos). replace (Rabs s * p10 (i - 1 - e)) with (Rabs s / ten k); [exact Hz|].
      unfold Rdiv. rewrite <- ten_opp. change p10 with ten. do 2 f_equal. unfold k. lia. }
  rewrite Ez. assert (P1 := ten_pos (i - 1)). assert (T1 : ten 1 <= ten (i - 1)) by (apply ten_le; lia). rewrite ten_1 in T1.
  assert (Pv : 0 < v) by lra. assert (PV : 0 < v * ten (i - 1)) by (now apply Rmult_lt_0_compat).
  assert (L : s < v * ten (i - 1)).
  { destruct D as [_ D]. rewrite As, ten_S in D. apply Rlt_le_trans with (v * 10); [lra|]. apply Rmult_le_compat_l; lra. }
  destruct (Rltb_spec s (v * ten (i - 1))) as [_|Q]; [|contradiction].
  assert (N : naive_ndigits (v * ten (i - 1)) errdig = (i + 1)%Z).
  { destruct (Rlt_dec (v / ten e) (Rpower 10 f)) as [Q|Q].
    - assert (V10 : v < ten (e + 1)).
      { rewrite ten_S. apply (Rmult_lt_reg_r (/ ten e)); [now apply Rinv_0_lt_compat|]. rewrite Rmult_assoc, Rinv_r, Rmult_1_r by lra.
        apply Rlt_trans with (Rpower 10 f); [exact Q|]. rewrite <- (Rpower_1 10) at 2 by lra. apply Rpower_lt; [lra|]. destruct IF; lra. }
      assert (Dv : decade (v * ten (i - 1)) (e + (i - 1))).
      { unfold decade. rewrite Rabs_pos_eq by lra. replace (e + (i - 1) + 1)%Z with (e + 1 + (i - 1))%Z by lia. rewrite !(ten_add _ (i - 1)).
        split; [apply Rmult_le_compat_r; lra|apply Rmult_lt_compat_r; lra]. }
      apply (naive_eq _ errdig _ i f Dv IF). rewrite Rabs_pos_eq by lra. rewrite ten_add.
      replace (v * ten (i - 1) / (ten e * ten (i - 1))) with (v / ten e) by (field; lra). exact Q.
    - assert (V10 : v = ten (e + 1)).
      { apply Rle_antisym; [apply BV|]. rewrite ten_S. apply Rnot_lt_le. intro G. apply NV. split; [lra|].
        apply (Rmult_lt_reg_r (ten e)); [exact Pe|]. unfold Rdiv. rewrite Rmult_assoc, Rinv_l by lra. lra. }
      rewrite V10, <- ten_add. apply (naive_eq _ errdig _ i f (decade_ten _) IF). rewrite Rabs_pos_eq by (left; apply ten_pos).
      assert (P := ten_pos (e + 1 + (i - 1))). replace (ten (e + 1 + (i - 1)) / ten (e + 1 + (i - 1))) with 1 by (field; lra).
      rewrite <- Rpower_0. apply Rpower_lt; lra. }
  rewrite N. replace (i <? i + 1)%Z with true by lia. reflexivity.
Qed.
Lemma rounded_exact z j k v : (k <= j)%Z -> 0 <= IZR z -> rounded (IZR z * ten j) k v -> v = IZR z * ten j.
Proof.
  intros H Z0 (y & -> & Hy). assert (P := ten_pos k). assert (Pj := ten_pos j). rewrite Rabs_pos_eq in Hy by (apply Rmult_le_pos; lra).
  replace j with ((j - k) + k)%Z in * by lia. rewrite ten_add in *. rewrite <- Rmult_assoc in *. f_equal.
  replace (IZR z * ten (j - k) * ten k / ten k) with (IZR z * ten (j - k)) in Hy by (field; lra).
  rewrite ten_IZR in * by lia. rewrite <- mult_IZR in *. f_equal.
  assert (A : IZR (y - 1) < IZR (z * 10 ^ (j - k))) by (rewrite minus_IZR; lra).
  assert (B : IZR (z * 10 ^ (j - k)) < IZR (y + 1)) by (rewrite plus_IZR; lra). apply lt_IZR in A, B. lia.
Qed.

(** In all the cases not covered, the deviation printed is the rounded one times a power of
    ten. *)
Lemma C41_every_case_partial_proof : forall (mu s errdig : R) (sep : str), 0 < s -> 1 < errdig ->
  exists out M S e vM pM vS pS, format (Fin mu) (Fin s) errdig sep = Ret out /\
    layout out sep (Rltb mu 0) M S e /\ numeral M vM pM /\ numeral S vS pS /\
    (covered s errdig -> rounded s (e - Z.of_nat pS) (vS * ten e)) /\
    (~ covered s errdig -> exists i f es v, int_frac errdig i f /\ (2 <= i)%Z /\ decade s es /\
       rounded s (es - i + 1) v /\ vS * ten e = ten (i - 1) * v /\ digits vS pS (i + 1)).
Proof.
  intros mu s errdig sep Hs He. destruct (ndigits_pos s errdig Hs He) as (n & s' & En & Hn & Ps').
  destruct (format_general mu s errdig sep n s' Hs He En Hn Ps') as (out & M & SS & e & vM & pM & vS & pS & A & B & C & D & E & F & _ & _ & G & _).
  exists out, M, SS, e, vM, pM, vS, pS. do 4 (split; [assumption|]). cbv zeta in *. split.
  - intro Cov. destruct (covered_ndigits s errdig Hs Cov) as (n0 & s0 & En0 & W & Cs). rewrite En in En0. injection En0 as <- <-. exact (E Cs).
  - intro Nc. destruct (ndigits_unsteady s errdig Hs He Nc) as (i & f & es & v & IF & Hi & Ds & Rv & Ev).
    rewrite En in Ev. injection Ev as -> ->. exists i, f, es, v. do 4 (split; [assumption|]). split; [|exact F].
    assert (BV := rounded_decade s es (es - i + 1) v Ds ltac:(lia) Rv). destruct Rv as (z & -> & Hz).
    assert (Pe := ten_pos es). assert (Pi := ten_pos (i - 1)). assert (Pk := ten_pos (es - i + 1)).
    assert (Z0 : 0 <= IZR z). { apply (Rmult_le_reg_r (ten (es - i + 1))); lra. }
    rewrite (Rmult_comm (ten (i - 1))), Rmult_assoc, <- ten_add in *. replace (es - i + 1 + (i - 1))%Z with es in * by lia.
    apply (rounded_exact z es (e - Z.of_nat pS)); [|exact Z0|exact G].
    (* the last digit printed is not above that of the rounded deviation *)
    destruct G as (y & Ey & Hy). destruct F as [F1 _].
    apply Z.lt_succ_r. change (Z.succ es) with (es + 1)%Z. apply ten_lt_inv. rewrite <- ten_nat in F1.
    assert (Pt := ten_pos (e - Z.of_nat pS)). set (k := (e - Z.of_nat pS)%Z) in *.
    replace (i + 1 - 1)%Z with i in F1 by lia.
    assert (Y : ten i <= IZR y).
    { replace (vS * ten (Z.of_nat pS)) with (IZR y) in F1; [exact F1|]. apply (Rmult_eq_reg_r (ten k)); [|lra].
      rewrite <- Ey, Rmult_assoc, <- ten_add. f_equal. f_equal. unfold k. lia. }
    assert (T1 : ten 1 <= ten i) by (apply ten_le; lia). rewrite ten_1 in T1.
    assert (U : IZR z * ten es <= ten i * ten es).
    { destruct BV as [_ BV]. replace (es + 1)%Z with (i + (es - i + 1))%Z in BV by lia. rewrite (ten_add i) in BV.
      apply Rmult_le_compat_r; [lra|]. apply (Rmult_le_reg_r (ten (es - i + 1))); [exact Pk|]. exact BV. }
    destruct Hy as [Hy _]. rewrite Rabs_pos_eq in Hy by (apply Rmult_le_pos; lra).
    apply (Rmult_le_compat_r (ten k)) in Hy; [|lra]. unfold Rdiv in Hy. rewrite Rmult_assoc, Rinv_l, Rmult_1_r in Hy by lra.
    rewrite ten_S. assert (Q : (ten i - / 2) * ten k <= ten i * ten es) by nra. nra.
Qed.

(** ** The sign of a number without uncertainty *)
Lemma round_away_opp x : round_away (- x) = - round_away x.
Proof.
  unfold round_away. rewrite Ropp_involutive. destruct (Rltb_spec (- x) 0), (Rltb_spec x 0); try lra.
  assert (x = 0) as -> by lra. rewrite Ropp_0, Rplus_0_l. rewrite (floorZ_unique (/ 2) 0) by lra. lra.
Qed.
Lemma mantissa_opp x n e : mantissa (- x) n e = mantissa x n e.
Proof.
  unfold mantissa. assert (E : int_mantissa (- x) n e = - int_mantissa x n e) by (unfold int_mantissa; rewrite Ropp_mult_distr_l_reverse; apply round_away_opp).
  rewrite E. unfold int_mantissa_string. rewrite Rabs_Ropp.
  assert (Z : forall m, (Rleb (- m) 0 && Rleb 0 (- m))%bool = (Rleb m 0 && Rleb 0 m)%bool).
  { intro m. destruct (Rleb_spec (- m) 0), (Rleb_spec 0 (- m)), (Rleb_spec m 0), (Rleb_spec 0 m); try reflexivity; lra. }
  now rewrite Z.
Qed.
Lemma tostring_opp x : tostring (Fin (- x)) = tostring (Fin x).
Proof.
  cbn [tostring]. unfold exponent. rewrite Rabs_Ropp, mantissa_opp.
  replace (Rleb (- x) 0 && Rleb 0 (- x))%bool with (Rleb x 0 && Rleb 0 x)%bool; [reflexivity|].
  destruct (Rleb_spec (- x) 0), (Rleb_spec 0 (- x)), (Rleb_spec x 0), (Rleb_spec 0 x); try reflexivity; lra.
Qed.
Lemma C43_sign_lost_partial_proof : forall (mu errdig : R) (s : xreal) (sep : str), s = Fin 0 \/ s = PInf \/ s = NotNum ->
  format (Fin mu) s errdig sep = format (Fin (- mu)) s errdig sep.
Proof.
  intros mu errdig s sep Cs. unfold format. destruct (Rleb errdig 1); [reflexivity|]. rewrite tostring_opp.
  destruct Cs as [->|[->| ->]]; try reflexivity. now rewrite (proj2 (iszero 0) eq_refl).
Qed.
