(** * IoProofs3: number of digits, and the whole text *)

From Coq Require Import List ZArith Bool Reals Ascii String Lra Lia.
From Verif Require Import Base Num Io SpecIo IoProofs IoProofs2.
Import ListNotations.
Local Open Scope R_scope.

Lemma carry_rounded x e n : decade x e -> (1 <= n)%Z -> ten (e + 1) <= Rabs x + ten (e - n + 1) / 2 -> rounded x (e + 1 - n + 1) (ten (e + 1)).
Proof.
  intros D Hn C. exists (10 ^ (n - 1))%Z. rewrite <- ten_IZR by lia. set (k := (e - n + 1)%Z) in *.
  replace (e + 1 - n + 1)%Z with (k + 1)%Z by (unfold k; lia). 
  assert (E : ten (e + 1) = ten (n - 1) * ten (k + 1)) by (rewrite <- ten_add; f_equal; unfold k; lia).
  split; [exact E|]. assert (P := ten_pos (k + 1)). destruct D as [_ D]. rewrite E in C, D.
  replace (ten k) with (ten (k + 1) / 10) in C by (rewrite ten_S; field).
  split; apply (Rmult_le_reg_r (ten (k + 1))) || apply (Rmult_lt_reg_r (ten (k + 1))); auto; unfold Rdiv; rewrite Rmult_assoc, Rinv_l, Rmult_1_r by lra; nra.
Qed.

Lemma naive_eq x n e i f : decade x e -> int_frac n i f ->
  (Rabs x / ten e < Rpower 10 f -> naive_ndigits x n = (i + 1)%Z) /\ (~ Rabs x / ten e < Rpower 10 f -> naive_ndigits x n = i).
Proof.
  intros D [E F]. unfold naive_ndigits. assert (Hi : floorZ n = i) by (apply floorZ_unique; lra). rewrite Hi.
  replace (n - IZR i) with f by lra. destruct (frac_lt x e f D) as [A B].
  destruct (Rltb_spec (log10 (Rabs x) - IZR (floorZ (log10 (Rabs x)))) f) as [L|L]; split; intro H.
  - reflexivity.
  - exfalso. apply H, A, L.
  - exfalso. apply L, B, H.
  - lia.
Qed.
Lemma decade_ten k : decade (ten k) k.
Proof. unfold decade. assert (P := ten_pos k). rewrite Rabs_pos_eq by lra. rewrite ten_S. lra. Qed.
Lemma Rpower_0 : Rpower 10 0 = 1.
Proof. apply Rpower_O. lra. Qed.
Lemma naive_integer x n i : x <> 0 -> int_frac n i 0 -> naive_ndigits x n = i.
Proof.
  intros H F. assert (D := exponent_decade x H). apply (naive_eq x n _ i 0 D F). rewrite Rpower_0. apply Rle_not_lt.
  apply (Rmult_le_reg_r (ten (exponent x))); [apply ten_pos|]. unfold Rdiv. rewrite Rmult_assoc, Rinv_l, Rmult_1_l, Rmult_1_r by (assert (P := ten_pos (exponent x)); lra). apply D.
Qed.

Lemma ndigits_spec s errdig e i f : 0 < s -> decade s e -> int_frac errdig i f -> (1 <= i)%Z -> (i = 1%Z \/ f = 0) ->
  exists n s', ndigits s errdig = (n, s') /\ (1 <= n)%Z /\ wanted_digits s errdig n /\
    (s' = s \/ (n = 2%Z /\ s' = ten (e + 1) /\ rounded s e s')).
Proof.
  intros Hs D IF Hi C. assert (As : Rabs s = s) by (apply Rabs_pos_eq; lra). unfold ndigits. rewrite (decade_exponent s e D).
  assert (Pe := ten_pos e).
  assert (Ge1 : 1 <= Rabs s / ten e).
  { apply (Rmult_le_reg_r (ten e)); [exact Pe|]. unfold Rdiv. rewrite Rmult_assoc, Rinv_l by lra. destruct D. lra. }
  destruct (naive_eq s errdig e i f D IF) as [N1 N2].
  destruct (Req_dec f 0) as [F0|F0].
  - (* integer number of digits *)
    subst f. assert (NS : ~ Rabs s / ten e < Rpower 10 0) by (rewrite Rpower_0; lra). rewrite (N2 NS).
    assert (W : wanted_digits s errdig i).
    { exists i, 0, e. split; [exact IF|]. split; [exact D|]. split; [|reflexivity]. intros [A|[A _]]; [contradiction|lra]. }
    exists i, s. split; [|split; [exact Hi|split; [exact W|left; reflexivity]]].
    destruct (Rltb_spec s (int_mantissa s i e * p10 e)) as [L|L]; [|reflexivity].
    rewrite (naive_integer _ errdig i) by (auto; lra). now rewrite Z.ltb_irrefl.
  - assert (i = 1%Z) as -> by tauto. destruct IF as [Ee Ff]. assert (IF : int_frac errdig 1 f) by (split; assumption).
    assert (Lf : 1 < Rpower 10 f) by (rewrite <- Rpower_0; apply Rpower_lt; lra).
    assert (Lim : forall x, x <> 0 -> (naive_ndigits x errdig <= 2)%Z).
    { intros x Hx. assert (Dx := exponent_decade x Hx). destruct (naive_eq x errdig _ 1 f Dx IF) as [A B].
      destruct (Rlt_dec (Rabs x / ten (exponent x)) (Rpower 10 f)) as [H|H]; [rewrite (A H)|rewrite (B H)]; lia. }
    destruct (Rlt_dec (Rabs s / ten e) (Rpower 10 f)) as [Sm|Sm].
    + rewrite (N1 Sm). change (1 + 1)%Z with 2%Z. exists 2%Z, s. split; [|split; [lia|split; [|left; reflexivity]]].
      * destruct (Rltb_spec s (int_mantissa s 2 e * p10 e)) as [L|L]; [|reflexivity].
        assert (LL := Lim (int_mantissa s 2 e * p10 e) ltac:(lra)). now replace (2 <? _)%Z with false by lia.
      * exists 1%Z, f, e. split; [exact IF|]. split; [exact D|]. split; [reflexivity|]. intro N. exfalso. apply N. left. exact Sm.
    + rewrite (N2 Sm). unfold int_mantissa. replace (1 - 1 - e)%Z with (- e)%Z by lia.
      assert (Ps : 0 <= s * p10 (- e)) by (apply Rmult_le_pos; [lra|left; apply ten_pos]).
      rewrite round_pos by exact Ps. set (z := rz (s * p10 (- e))).
      assert (Hz := rz_spec (s * p10 (- e))). fold z in Hz. rewrite Rabs_pos_eq in Hz by exact Ps. change p10 with ten in *.
      rewrite ten_opp in Hz. destruct D as [D1 D2]. rewrite As in *. rewrite ten_S in D2.
      assert (S10 : s * / ten e < 10) by (apply (Rmult_lt_reg_r (ten e)); [exact Pe|]; rewrite Rmult_assoc, Rinv_l by lra; lra).
      change (s / ten e) with (s * / ten e) in *.
      assert (Z10 : (z <= 10)%Z). { assert (A : IZR z < IZR 11) by lra. apply lt_IZR in A. lia. }
      assert (Z1 : (1 <= z)%Z). { assert (A : IZR 0 < IZR z) by lra. apply lt_IZR in A. lia. }
      destruct (Z.eq_dec z 10) as [Ez|Ez].
      * rewrite Ez in *. change (IZR 10 * ten e) with (10 * ten e). rewrite <- ten_S.
        destruct (Rltb_spec s (ten (e + 1))) as [_|L]; [|exfalso; apply L; rewrite ten_S; lra].
        destruct (naive_eq (ten (e + 1)) errdig (e + 1) 1 f (decade_ten _) IF) as [A _].
        assert (Ra : Rabs (ten (e + 1)) / ten (e + 1) = 1) by (assert (P1 := ten_pos (e + 1)); rewrite Rabs_pos_eq by lra; field; lra).
        rewrite A by (rewrite Ra; exact Lf). cbn [Z.ltb Z.compare Pos.compare Pos.compare_cont Z.add Pos.add Pos.succ].
        assert (Sge : 10 - / 2 <= s * / ten e) by lra.
        exists 2%Z, (ten (e + 1)). split; [reflexivity|]. split; [lia|]. split.
        { exists 1%Z, f, e. split; [exact IF|]. split; [split; rewrite As, ?ten_S; lra|]. split; [reflexivity|]. intro N. exfalso. apply N. right. split; [lra|].
          rewrite As, ten_S. replace (e - 1 + 1)%Z with e by lia.
          apply (Rmult_le_compat_r (ten e)) in Sge; [|lra]. rewrite Rmult_assoc, Rinv_l in Sge by lra. lra. }
        right. split; [reflexivity|]. split; [reflexivity|]. exists 10%Z. split; [apply ten_S|]. rewrite As. exact Hz.
      * assert (NC : ~ ten (e + 1) <= s + ten (e - 1 + 1) / 2).
        { replace (e - 1 + 1)%Z with e by lia. rewrite ten_S. intro A. assert (B : IZR z + / 2 <= 9 + / 2) by (assert (IZR z <= 9) by (apply (IZR_le _ 9); lia); lra).
          assert (Q : s < (9 + / 2) * ten e). { apply (Rmult_lt_reg_r (/ ten e)); [now apply Rinv_0_lt_compat|]. rewrite Rmult_assoc, Rinv_r by lra. lra. } lra. }
        exists 1%Z, s. split; [|split; [lia|split; [|left; reflexivity]]].
        -- destruct (Rltb_spec s (IZR z * ten e)) as [L|L]; [|reflexivity].
           assert (Dz : decade (IZR z * ten e) e).
           { assert (1 <= IZR z) by (apply (IZR_le 1); lia). assert (IZR z <= 9) by (apply (IZR_le _ 9); lia).
             unfold decade. rewrite Rabs_pos_eq by nra. rewrite ten_S. nra. }
           destruct (naive_eq _ errdig e 1 f Dz IF) as [_ B]. rewrite B; [reflexivity|]. intro Q. apply Sm.
           destruct Dz as [Dz _]. rewrite Rabs_pos_eq in Q by nra. apply Rlt_trans with (2 := Q). apply Rmult_lt_compat_r; [now apply Rinv_0_lt_compat|exact L].
        -- exists 1%Z, f, e. split; [exact IF|]. split; [split; rewrite As, ?ten_S; lra|]. split; [|reflexivity].
           rewrite As. intros [A|[_ A]]; [contradiction|contradiction].
Qed.

Lemma rounded_carry x e k v : decade x e -> (k <= e + 1)%Z -> rounded x k v -> ten (e + 1) <= Rabs x + ten k / 2 -> ten (e + 1) <= v.
Proof.
  intros D Hk (z & -> & Hz) C. assert (P := ten_pos k).
  assert (Q : Rabs x < (IZR z + / 2) * ten k).
  { apply (Rmult_lt_reg_r (/ ten k)); [now apply Rinv_0_lt_compat|]. rewrite Rmult_assoc, Rinv_r, Rmult_1_r by lra. apply Hz. }
  replace (e + 1)%Z with ((e + 1 - k) + k)%Z in * by lia. rewrite ten_add in *. apply Rmult_le_compat_r; [lra|].
  rewrite ten_IZR in * by lia. apply IZR_le. enough (10 ^ (e + 1 - k) < z + 1)%Z by lia. apply lt_IZR. rewrite plus_IZR.
  apply (Rmult_lt_reg_r (ten k)); [exact P|]. lra.
Qed.

(** The mean, zero or not. *)
Lemma mean_mantissa mu n e : (mu = 0 /\ (n < 0)%Z \/ decade mu e) -> exists s e',
  mantissa mu n e = Ret (s, e') /\ s <> [] /\ List.Forall is_digit s /\
  rounded mu (e - n + 1) (IZR (decimal s) * ten (e' - n + 1)) /\
  ((1 <= n)%Z -> (10 ^ (n - 1) <= decimal s < 10 ^ n)%Z) /\
  (e' = e \/ (e' = (e + 1)%Z /\ (1 <= n)%Z /\ decade mu e /\ ten (e + 1) <= Rabs mu + ten (e - n + 1) / 2)).
Proof.
  intros [[-> Hn]|D].
  - exists (lit "0"), e. split; [now apply mantissa_zero|]. split; [discriminate|]. split; [constructor; [unfold is_digit; cbn; lia|constructor]|].
    split; [|split; [lia|left; reflexivity]]. exists 0%Z. split; [reflexivity|]. rewrite Rabs_R0. unfold Rdiv. rewrite Rmult_0_l. lra.
  - destruct (mantissa_spec mu n e D) as (s & e' & E & N & F & R & Dg & [C|(C1 & C2 & C3 & _)]); exists s, e'; repeat (split; [assumption|]); [left; exact C|right; auto].
Qed.

Lemma ndigits_steady s errdig : 0 < s -> 1 < errdig -> steady s errdig -> exists n, ndigits s errdig = (n, s) /\ (1 <= n)%Z /\ wanted_digits s errdig n.
Proof.
  intros Hs He (i & f & e & IF & D & C). assert (As : Rabs s = s) by (apply Rabs_pos_eq; lra). unfold ndigits. rewrite (decade_exponent s e D).
  assert (Pe := ten_pos e). assert (Hi : (1 <= i)%Z). { destruct IF as [E F]. assert (A : IZR 0 < IZR i) by lra. apply lt_IZR in A. lia. }
  assert (Lim : forall x, x <> 0 -> (naive_ndigits x errdig <= i + 1)%Z).
  { intros x Hx. assert (Dx := exponent_decade x Hx). destruct (naive_eq x errdig _ i f Dx IF) as [A B].
    destruct (Rlt_dec (Rabs x / ten (exponent x)) (Rpower 10 f)) as [H|H]; [rewrite (A H)|rewrite (B H)]; lia. }
  destruct (naive_eq s errdig e i f D IF) as [N1 N2].
  destruct (Rlt_dec (Rabs s / ten e) (Rpower 10 f)) as [Sm|Sm].
  - rewrite (N1 Sm). exists (i + 1)%Z. split; [|split; [lia|]].
    + destruct (Rltb_spec s (int_mantissa s (i + 1) e * p10 e)) as [L|L]; [|reflexivity].
      assert (LL := Lim (int_mantissa s (i + 1) e * p10 e) ltac:(lra)). now replace (i + 1 <? _)%Z with false by lia.
    + exists i, f, e. split; [exact IF|]. split; [exact D|]. split; [reflexivity|]. intro N. exfalso. apply N. left. exact Sm.
  - rewrite (N2 Sm). destruct C as [C|(v & (z & Ev & Hz) & Hv)]; [contradiction|]. set (k := (e - i + 1)%Z) in *. assert (Pk := ten_pos k).
    assert (Ez : int_mantissa s i e * p10 e = v * ten (i - 1)).
    { unfold int_mantissa. rewrite round_pos by (apply Rmult_le_pos; [lra|left; apply ten_pos]). rewrite (rz_unique _ z).
      - rewrite Ev, Rmult_assoc, <- ten_add. change p10 with ten. do 2 f_equal. unfold k. lia.
      - rewrite Rabs_mult, (Rabs_pos_eq (p10 _)) by (left; apply ten_pos). replace (Rabs s * p10 (i - 1 - e)) with (Rabs s / ten k); [exact Hz|].
        unfold Rdiv. rewrite <- ten_opp. change p10 with ten. do 2 f_equal. unfold k. lia. }
    assert (Hv1 : 1 <= Rpower 10 f). { rewrite <- Rpower_0. destruct IF as [_ [[F|F] _]]; [left; apply Rpower_lt; lra|rewrite <- F; lra]. }
    assert (Pv : ten e <= v). { apply (Rmult_le_reg_r (/ ten e)); [now apply Rinv_0_lt_compat|]. rewrite Rinv_r by lra. unfold Rdiv in Hv. lra. }
    assert (Pv2 : v < ten (e + 1)). { rewrite ten_S. apply (Rmult_lt_reg_r (/ ten e)); [now apply Rinv_0_lt_compat|]. rewrite Rmult_assoc, Rinv_r by lra. unfold Rdiv in Hv. lra. }
    exists i. split; [|split; [exact Hi|]].
    + destruct (Rltb_spec s (int_mantissa s i e * p10 e)) as [L|L]; [|reflexivity]. rewrite Ez.
      assert (P1 := ten_pos (i - 1)).
      assert (Dv : decade (v * ten (i - 1)) (e + (i - 1))).
      { unfold decade. rewrite Rabs_pos_eq by (apply Rmult_le_pos; lra). replace (e + (i - 1) + 1)%Z with (e + 1 + (i - 1))%Z by lia. rewrite !(ten_add _ (i - 1)). split; [apply Rmult_le_compat_r; lra|apply Rmult_lt_compat_r; lra]. }
      destruct (naive_eq _ errdig _ i f Dv IF) as [_ B]. rewrite B; [now rewrite Z.ltb_irrefl|].
      apply Rle_not_lt. rewrite Rabs_pos_eq by (apply Rmult_le_pos; lra). rewrite ten_add. replace (v * ten (i - 1) / (ten e * ten (i - 1))) with (v / ten e) by (field; lra). apply Hv.
    + exists i, f, e. split; [exact IF|]. split; [exact D|]. split; [|reflexivity]. intros [A|[_ A]]; [contradiction|exfalso].
      fold k in A. assert (B : v < ten (e + 1) - ten k + ten k / 2).
      { assert (Zl : (z <= 10 ^ i - 1)%Z).
        { enough (z < 10 ^ i)%Z by lia. apply lt_IZR. rewrite <- ten_IZR by lia. apply (Rmult_lt_reg_r (ten k)); [exact Pk|]. rewrite <- ten_add, <- Ev.
          replace (i + k)%Z with (e + 1)%Z by (unfold k; lia). exact Pv2. }
        apply IZR_le in Zl. rewrite minus_IZR, <- ten_IZR in Zl by lia. apply (Rmult_le_compat_r (ten k)) in Zl; [|lra]. rewrite <- Ev, Rmult_minus_distr_r, <- ten_add in Zl.
        replace (i + k)%Z with (e + 1)%Z in Zl by (unfold k; lia). lra. }
      assert (Q : Rabs s < v + ten k / 2). { apply (Rmult_lt_reg_r (/ ten k)); [now apply Rinv_0_lt_compat|]. rewrite Ev. replace ((IZR z * ten k + ten k / 2) * / ten k) with (IZR z + / 2) by (field; lra). apply Hz. }
      assert (Zl : (z <= 10 ^ i - 1)%Z).
      { enough (z < 10 ^ i)%Z by lia. apply lt_IZR. rewrite <- ten_IZR by lia. apply (Rmult_lt_reg_r (ten k)); [exact Pk|]. rewrite <- ten_add, <- Ev.
        replace (i + k)%Z with (e + 1)%Z by (unfold k; lia). exact Pv2. }
      apply IZR_le in Zl. rewrite minus_IZR, <- ten_IZR in Zl by lia. apply (Rmult_le_compat_r (ten k)) in Zl; [|lra]. rewrite <- Ev, Rmult_minus_distr_r, <- ten_add in Zl.
      replace (i + k)%Z with (e + 1)%Z in Zl by (unfold k; lia). lra.
Qed.

Lemma ndigits_pos s errdig : 0 < s -> 1 < errdig -> exists n s', ndigits s errdig = (n, s') /\ (1 <= n)%Z /\ 0 < s'.
Proof.
  intros Hs He.
  assert (N : forall x, (1 <= naive_ndigits x errdig)%Z).
  { intro x. unfold naive_ndigits. assert (F := floorZ_spec errdig). assert (A : IZR 0 < IZR (floorZ errdig)) by lra. apply lt_IZR in A. destruct (Rltb _ _); lia. }
  unfold ndigits. destruct (Rltb_spec s (int_mantissa s (naive_ndigits s errdig) (exponent s) * p10 (exponent s))) as [L|L]; [|eauto].
  destruct (_ <? _)%Z; eexists _, _; (split; [reflexivity|]); (split; [apply N|]); lra.
Qed.

Lemma covered_ndigits s errdig : 0 < s -> covered s errdig -> exists n s', ndigits s errdig = (n, s') /\ wanted_digits s errdig n /\
  (s' = s \/ exists e, n = 2%Z /\ s' = ten (e + 1) /\ rounded s e s').
Proof.
  intros Hs [H C]. assert (exists i f, int_frac errdig i f /\ (1 <= i)%Z /\ (i = 1%Z \/ f = 0) \/ steady s errdig) as (i & f & [(IF & Hi & Cif)|St]).
  { destruct C as [L|[[i ->]|St]].
    - exists 1%Z, (errdig - 1). left. split; [split; lra|]. split; [lia|left; reflexivity].
    - exists i, 0. left. split; [split; lra|]. split; [|right; reflexivity]. apply (lt_IZR 1) in H. lia.
    - exists 0%Z, 0. right. exact St. }
  - destruct (ndigits_spec s errdig _ i f Hs (exponent_decade s ltac:(lra)) IF Hi Cif) as (n & s' & En & Hn & W & Cs).
    exists n, s'. split; [exact En|]. split; [exact W|]. destruct Cs as [Cs|Cs]; [left; exact Cs|right; eauto].
  - destruct (ndigits_steady s errdig Hs H St) as (n & En & Hn & W). exists n, s. auto.
Qed.

Lemma format_general mu s errdig sep n s' : 0 < s -> 1 < errdig -> ndigits s errdig = (n, s') -> (1 <= n)%Z -> 0 < s' ->
  exists out M S e vM pM vS pS, format (Fin mu) (Fin s) errdig sep = Ret out /\
    layout out sep (Rltb mu 0) M S e /\ numeral M vM pM /\ numeral S vS pS /\
    let k := (e - Z.of_nat pS)%Z in
    ((s' = s \/ exists e, n = 2%Z /\ s' = ten (e + 1) /\ rounded s e s') -> rounded s k (vS * ten e)) /\ digits vS pS n /\
    (Rabs mu < ten k \/ no_carry mu k -> pM = pS) /\
    (k <> 0%Z \/ e <> 0%Z \/ Rabs mu < 1 \/ no_carry mu k -> rounded mu k (vM * ten e)) /\
    rounded s' k (vS * ten e) /\
    (ten k <= Rabs mu -> ~ no_carry mu k ->
       (pS = (pM + 1)%nat /\ rounded mu k (vM * ten e)) \/ (pM = O /\ pS = O /\ e = 0%Z /\ 1 <= vM /\ rounded mu k (10 * vM))).
Proof.
  intros Hs E1 En Hn Ps'. assert (Ds' := exponent_decade s' ltac:(lra)). set (es' := exponent s') in *.
  destruct (mantissa_spec s' n es' Ds') as (sm & es2 & Es & Nsm & Fsm & Rs & Dsm & Ces). specialize (Dsm Hn).
  set (k := (es2 - n + 1)%Z).
  assert (RS' : rounded s' k (IZR (decimal sm) * ten k)).
  { destruct Ces as [->|(-> & _ & C & Dd)]; [exact Rs|]. unfold k. rewrite Dd, <- ten_IZR, <- ten_add by lia.
    replace (n - 1 + (es' + 1 - n + 1))%Z with (es' + 1)%Z by lia. apply carry_rounded; assumption. }
  (* the deviation is rounded at the position of its last digit *)
  assert (RS : (s' = s \/ exists e, n = 2%Z /\ s' = ten (e + 1) /\ rounded s e s') -> rounded s k (IZR (decimal sm) * ten k)).
  { intros [Cs'|(e0 & N2 & Bs & R')]; [subst s'|assert (es' = (e0 + 1)%Z) as Ee by (apply (decade_unique s'); [exact Ds'|rewrite Bs; apply decade_ten]); rewrite <- Ee in Bs; replace e0 with (es' - 1)%Z in R' by lia].
    - destruct Ces as [->|(-> & _ & C & Dd)]; [exact Rs|]. unfold k. rewrite Dd, <- ten_IZR, <- ten_add by lia.
      replace (n - 1 + (es' + 1 - n + 1))%Z with (es' + 1)%Z by lia. apply carry_rounded; assumption.
    - assert (As' : Rabs s' = s') by (apply Rabs_pos_eq; lra).
      destruct Ces as [->|(_ & _ & C & _)].
      + assert (k = (es' - 1)%Z) as K by (unfold k; lia). fold k in Rs. destruct Rs as (z & Ez & Hz).
        assert (Q : IZR z = 10).
        { rewrite As', Bs in Hz. replace es' with (k + 1)%Z in Hz by lia. rewrite ten_S in Hz. assert (P := ten_pos k).
          replace (10 * ten k / ten k) with 10 in Hz by (field; lra). assert (z = 10)%Z as ->; [|reflexivity].
          assert (A : IZR z < IZR 11) by lra. assert (B : IZR 9 < IZR z) by lra. apply lt_IZR in A, B. lia. }
        fold k in Ez. rewrite Ez, Q, <- ten_S, K. replace (es' - 1 + 1)%Z with es' by lia. rewrite <- Bs. exact R'.
      + exfalso. rewrite As', Bs in C. rewrite N2 in C. replace (es' - 2 + 1)%Z with (es' - 1)%Z in C by lia.
        assert (T := ten_half es'). rewrite ten_S in C. assert (P := ten_pos (es' - 1)). lra. }
  (* the mean *)
  set (em := (if Rleb mu 0 && Rleb 0 mu then es' - n - 1 else exponent mu)%Z).
  set (nm := (n + em - es2)%Z).
  assert (Hes : (es' <= es2)%Z) by (destruct Ces as [->|[-> _]]; lia).
  assert (Cm : mu = 0 /\ (nm < 0)%Z \/ decade mu em).
  { destruct (Req_dec mu 0) as [->|Hm].
    - left. split; [reflexivity|]. unfold nm, em. assert (I0 := proj2 (iszero 0) eq_refl). rewrite I0. lia.
    - right. unfold em. rewrite iszero_false by exact Hm. now apply exponent_decade. }
  destruct (mean_mantissa mu nm em Cm) as (mm & em2 & Em & Nmm & Fmm & Rm & Dmm & Cem).
  assert (K : (em - nm + 1 = k)%Z) by (unfold nm, k; lia). rewrite K in Rm, Cem.
  set (ue := (if (n <=? nm)%Z then (nm <=? em2) || (em2 <? -1) else (n <=? es2) || (es2 <? -1))%Z).
  set (be := (if (n <=? nm)%Z then em2 else es2)%Z).
  set (e := (if ue then be else 0)%Z).
  set (M := insert_dot mm nm (em2 - e)). set (SS := insert_dot sm n (es2 - e)).
  (* exponents are in range *)
  assert (Be : ue = true -> be <> 0%Z).
  { unfold ue, be. destruct (Z.leb_spec n nm) as [Q|Q]; intro H; apply orb_true_iff in H as [H|H]; unfold nm in *; lia. }
  assert (RgS : (es2 - e <= n - 1)%Z).
  { unfold e. destruct ue eqn:U; unfold ue in U; unfold be; destruct (Z.leb_spec n nm) as [L|L].
    - destruct Cem as [->|[-> _]]; unfold nm in *; lia.
    - lia.
    - apply orb_false_iff in U as [U1 U2]. destruct Cem as [->|[-> _]]; unfold nm in *; lia.
    - apply orb_false_iff in U as [U1 U2]. lia. }
  assert (RgM : (em2 - e <= nm - 1)%Z \/ (e = 0%Z /\ k = 0%Z /\ em2 = nm /\ em2 = (em + 1)%Z /\ (1 <= nm)%Z /\ decade mu em /\ ten (em + 1) <= Rabs mu + ten k / 2)).
  { unfold e. destruct ue eqn:U; unfold ue in U; unfold be; destruct (Z.leb_spec n nm) as [L|L].
    - left. lia.
    - left. destruct Cem as [->|(-> & Hnm & _)]; unfold nm in *; lia.
    - apply orb_false_iff in U as [U1 U2]. left. lia.
    - apply orb_false_iff in U as [U1 U2]. destruct Cem as [->|(C1 & Hnm & Dm & Cc)]; [left; unfold nm in *; lia|].
      destruct (Z_le_gt_dec em2 (nm - 1)) as [Le|Gt]; [left; lia|]. right. split; [reflexivity|].
      split; [unfold k, nm in *; lia|]. split; [unfold nm in *; lia|]. auto. }
  assert (NS := insert_dot_numeral sm n (es2 - e) Nsm Fsm RgS). fold SS in NS.
  set (pS := Z.to_nat (n - 1 - (es2 - e))) in *. assert (Kp : (e - Z.of_nat pS = k)%Z) by (unfold pS, k; lia).
  assert (exists vM pM, numeral M vM pM /\ ((em2 - e <= nm - 1)%Z -> vM = IZR (decimal mm) * ten (em2 - e - nm + 1) /\ pM = Z.to_nat (nm - 1 - (em2 - e))) /\
    ((nm - 1 < em2 - e)%Z -> vM = IZR (decimal mm) /\ pM = O)) as (vM & pM & NM & VM & VM').
  { destruct RgM as [L|(L0 & L1 & L2 & _)].
    - eexists _, _. split; [exact (insert_dot_numeral mm nm (em2 - e) Nmm Fmm L)|]. split; [|lia]. intros _. split; reflexivity.
    - exists (IZR (decimal mm)), O. split; [apply insert_dot_beyond; auto; lia|]. split; [intro Q; lia|]. intros _. split; reflexivity. }
  exists (if ue then lit "(" ++ (if Rltb mu 0 then lit "-" else []) ++ M ++ sep ++ SS ++ lit ")e" ++ format_exp be
          else (if Rltb mu 0 then lit "-" else []) ++ M ++ sep ++ SS), M, SS, e, vM, pM, (IZR (decimal sm) * ten (es2 - e - n + 1)), pS.
  split.
  { unfold format. destruct (Rleb_spec errdig 1); [lra|]. rewrite iszero_false by lra. unfold format_finite. rewrite En.
    fold es'. fold em. rewrite Es. cbn [bind]. fold nm. rewrite Em. cbn [bind]. fold ue be.
    unfold M, SS, e. destruct ue; [reflexivity|]. now rewrite !Z.sub_0_r. }
  split.
  { unfold layout, e. destruct ue eqn:U.
    - right. exists (format_exp be). split; [apply format_exp_text, Be; reflexivity|]. now destruct (Rltb mu 0).
    - left. split; [reflexivity|]. now destruct (Rltb mu 0). }
  split; [exact NM|]. split; [exact NS|]. rewrite Kp. cbv zeta.
  split.
  { intro Cs. rewrite Rmult_assoc, <- ten_add. replace (es2 - e - n + 1 + e)%Z with k by (unfold k; lia). exact (RS Cs). }
  split.
  { unfold digits. rewrite <- ten_nat, Rmult_assoc, <- ten_add. replace (es2 - e - n + 1 + Z.of_nat pS)%Z with 0%Z by (unfold pS; lia).
    rewrite ten_0, Rmult_1_r, !ten_IZR by lia. split; [apply IZR_le|apply IZR_lt]; lia. }
  assert (NCa : (em2 = (em + 1)%Z /\ (1 <= nm)%Z /\ decade mu em /\ ten (em + 1) <= Rabs mu + ten k / 2) -> ~ (Rabs mu < ten k \/ no_carry mu k)).
  { intros (_ & Hnm & Dm & Cc) [Q|Q].
    - destruct Dm as [D1 _]. assert (ten k <= ten em) by (apply ten_le; unfold k, nm in *; lia). lra.
    - specialize (Q em Dm). lra. }
  split.
  { intro NC. destruct Cem as [Cem|Cem]; [|exfalso; now apply NCa].
    destruct RgM as [L|(_ & _ & L2 & L3 & _)]; [|lia]. destruct (VM L) as [_ ->]. unfold pS. f_equal. unfold nm. lia. }
  split.
  { intro NC. destruct RgM as [L|(L0 & L1 & L2 & L3 & L4 & L5 & L6)].
    - destruct (VM L) as [-> _]. rewrite Rmult_assoc, <- ten_add. replace (em2 - e - nm + 1 + e)%Z with (em2 - nm + 1)%Z by lia. exact Rm.
    - exfalso. destruct NC as [N|[N|[N|N]]]; [contradiction|contradiction| |].
      + apply NCa; [auto|]. left. rewrite L1, ten_0. exact N.
      + apply NCa; auto. }
  split.
  { rewrite Rmult_assoc, <- ten_add. replace (es2 - e - n + 1 + e)%Z with k by (unfold k; lia). exact RS'. }
  intros Big Ca. assert (Pk := ten_pos k).
  assert (Dm : decade mu em) by (destruct Cm as [[-> _]|Dm]; [rewrite Rabs_R0 in Big; lra|exact Dm]).
  assert (Cc : ten (em + 1) <= Rabs mu + ten k / 2).
  { apply Rnot_lt_le. intro Q. apply Ca. intros e0 D0. now rewrite (decade_unique _ _ _ D0 Dm). }
  assert (Hnm : (1 <= nm)%Z).
  { enough (k < em + 1)%Z by (unfold k, nm in *; lia). apply ten_lt_inv. destruct Dm. lra. }
  assert (E2 : em2 = (em + 1)%Z).
  { destruct Cem as [C|[C _]]; [exfalso|exact C]. rewrite C in Rm. replace (em - nm + 1)%Z with k in Rm by lia.
    assert (G := rounded_carry mu em k _ Dm ltac:(unfold k, nm in *; lia) Rm Cc). specialize (Dmm Hnm). destruct Dmm as [_ Dmm]. apply IZR_lt in Dmm.
    rewrite <- ten_IZR in Dmm by lia. apply (Rmult_lt_compat_r (ten k)) in Dmm; [|exact Pk]. rewrite <- ten_add in Dmm.
    replace (nm + k)%Z with (em + 1)%Z in Dmm by lia. lra. }
  destruct RgM as [L|(L0 & L1 & L2 & L3 & L4 & L5 & L6)].
  - left. destruct (VM L) as [-> ->]. split; [unfold pS; lia|]. rewrite Rmult_assoc, <- ten_add.
    replace (em2 - e - nm + 1 + e)%Z with (em2 - nm + 1)%Z by lia. exact Rm.
  - right. destruct (VM' ltac:(lia)) as [-> ->]. split; [reflexivity|]. split; [lia|]. split; [exact L0|].
    specialize (Dmm Hnm). split.
    + apply IZR_le. assert (0 < 10 ^ (nm - 1))%Z by (apply Z.pow_pos_nonneg; lia). lia.
    + replace (em2 - nm + 1)%Z with 1%Z in Rm by lia. rewrite ten_1, Rmult_comm in Rm. exact Rm.
Qed.

Lemma format_text mu s errdig sep : 0 < s -> covered s errdig ->
  exists out M S e vM pM vS pS n, format (Fin mu) (Fin s) errdig sep = Ret out /\
    layout out sep (Rltb mu 0) M S e /\ numeral M vM pM /\ numeral S vS pS /\
    let k := (e - Z.of_nat pS)%Z in
    rounded s k (vS * ten e) /\ wanted_digits s errdig n /\ digits vS pS n /\
    (Rabs mu < ten k \/ no_carry mu k -> pM = pS) /\
    (k <> 0%Z \/ e <> 0%Z \/ Rabs mu < 1 \/ no_carry mu k -> rounded mu k (vM * ten e)).
Proof.
  intros Hs Cov. destruct (covered_ndigits s errdig Hs Cov) as (n & s' & En & W & Cs).
  destruct (ndigits_pos s errdig Hs (proj1 Cov)) as (n0 & s0 & En0 & Hn & Ps'). rewrite En in En0. injection En0 as <- <-.
  destruct (format_general mu s errdig sep n s' Hs (proj1 Cov) En Hn Ps') as (out & M & SS & e & vM & pM & vS & pS & A & B & C & D & E & F & G & H & _).
  exists out, M, SS, e, vM, pM, vS, pS, n. do 4 (split; [assumption|]). split; [exact (E Cs)|]. auto.
Qed.
