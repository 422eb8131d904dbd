(** * IoProofs: decimal formatting *)

From Coq Require Import List ZArith Bool Reals Ascii String Lra Lia.
From Verif Require Import Base Num Io SpecIo.
Import ListNotations.
Local Open Scope R_scope.

(** ** Floor, powers of ten *)
Lemma floorZ_spec x : IZR (floorZ x) <= x < IZR (floorZ x) + 1.
Proof. unfold floorZ. destruct (base_Int_part x). lra. Qed.
Lemma floorZ_unique x z : IZR z <= x < IZR z + 1 -> floorZ x = z.
Proof.
  intro H. assert (F := floorZ_spec x). assert (A : IZR (floorZ x) < IZR (z + 1)) by (rewrite plus_IZR; lra).
  assert (B : IZR z < IZR (floorZ x + 1)) by (rewrite plus_IZR; lra). apply lt_IZR in A, B. lia.
Qed.
Lemma floorZ_IZR z : floorZ (IZR z) = z.
Proof. apply floorZ_unique. lra. Qed.

Lemma ten_pos k : 0 < ten k.
Proof. apply powerRZ_lt. lra. Qed.
Lemma ten_add a b : ten (a + b) = ten a * ten b.
Proof. apply powerRZ_add. lra. Qed.
Lemma ten_0 : ten 0 = 1.
Proof. reflexivity. Qed.
Lemma ten_1 : ten 1 = 10.
Proof. unfold ten. cbn [powerRZ]. change (Pos.to_nat 1) with 1%nat. ring. Qed.
Lemma ten_S k : ten (k + 1) = 10 * ten k.
Proof. rewrite ten_add, ten_1. ring. Qed.
Lemma ten_opp k : ten (- k) = / ten k.
Proof. assert (H := ten_add k (- k)). rewrite Z.add_opp_diag_r, ten_0 in H. assert (P := ten_pos k). apply (Rmult_eq_reg_l (ten k)); [|lra]. rewrite <- H. field. lra. Qed.
Lemma ten_sub a b : ten (a - b) = ten a / ten b.
Proof. unfold Zminus. now rewrite ten_add, ten_opp. Qed.
Lemma ten_Rpower k : ten k = Rpower 10 (IZR k).
Proof. apply powerRZ_Rpower. lra. Qed.
Lemma ten_lt a b : (a < b)%Z -> ten a < ten b.
Proof. intro H. rewrite !ten_Rpower. apply Rpower_lt; [lra|now apply IZR_lt]. Qed.
Lemma ten_le a b : (a <= b)%Z -> ten a <= ten b.
Proof. intro H. destruct (Z.eq_dec a b) as [->|]; [lra|]. left. apply ten_lt. lia. Qed.
Lemma ten_lt_inv a b : ten a < ten b -> (a < b)%Z.
Proof. intro H. destruct (Z_lt_le_dec a b) as [|L]; [assumption|]. apply ten_le in L. lra. Qed.
Lemma ten_IZR k : (0 <= k)%Z -> ten k = IZR (10 ^ k).
Proof.
  intro H. unfold ten. destruct k as [|p|p]; [reflexivity| |lia]. cbn [powerRZ]. rewrite <- (positive_nat_Z p). apply (pow_IZR 10).
Qed.
Lemma ten_nat n : ten (Z.of_nat n) = 10 ^ n.
Proof. unfold ten. now rewrite <- pow_powerRZ. Qed.
Lemma ten_half a : ten (a - 1) * 10 = ten a.
Proof. replace a with (a - 1 + 1)%Z at 2 by lia. rewrite ten_S. ring. Qed.

Lemma Rltb_iff a b : Rltb a b = true <-> a < b.
Proof. destruct (Rltb_spec a b); split; auto; discriminate. Qed.
Lemma iszero x : (Rleb x 0 && Rleb 0 x)%bool = true <-> x = 0.
Proof.
  destruct (Rleb_spec x 0); destruct (Rleb_spec 0 x); cbn; split; try discriminate; try lra; try reflexivity; intro; subst; lra.
Qed.
Lemma iszero_false x : x <> 0 -> (Rleb x 0 && Rleb 0 x)%bool = false.
Proof. intro H. destruct (Rleb x 0 && Rleb 0 x)%bool eqn:E; [|reflexivity]. apply iszero in E. contradiction. Qed.

(** ** Exponents *)
Lemma ln10 : 0 < ln 10.
Proof. rewrite <- ln_1. apply ln_increasing; lra. Qed.
Lemma Rpower_log10 x : 0 < x -> Rpower 10 (log10 x) = x.
Proof. intro H. unfold Rpower, log10. replace (ln x / ln 10 * ln 10) with (ln x) by (field; assert (L := ln10); lra). now apply exp_ln. Qed.
Lemma log10_Rpower t : log10 (Rpower 10 t) = t.
Proof. unfold log10, Rpower. rewrite ln_exp. field. assert (L := ln10). lra. Qed.
Lemma log10_lt a b : 0 < a -> 0 < b -> (log10 a < log10 b <-> a < b).
Proof.
  intros Ha Hb. split; intro H.
  - rewrite <- (Rpower_log10 a Ha), <- (Rpower_log10 b Hb). apply Rpower_lt; lra.
  - unfold log10. apply Rmult_lt_compat_r; [apply Rinv_0_lt_compat, ln10|]. now apply ln_increasing.
Qed.
Lemma exponent_decade x : x <> 0 -> decade x (exponent x).
Proof.
  intro H. assert (P : 0 < Rabs x) by now apply Rabs_pos_lt. unfold decade, exponent. set (L := log10 (Rabs x)).
  assert (F := floorZ_spec L). rewrite !ten_Rpower, plus_IZR. rewrite <- (Rpower_log10 (Rabs x) P). fold L. split.
  - apply Rle_Rpower; lra.
  - apply Rpower_lt; lra.
Qed.
Lemma decade_unique x e e' : decade x e -> decade x e' -> e = e'.
Proof.
  intros [A B] [C D]. assert (H1 : ten e < ten (e' + 1)) by lra. assert (H2 : ten e' < ten (e + 1)) by lra. apply ten_lt_inv in H1, H2. lia.
Qed.
Lemma decade_nonzero x e : decade x e -> x <> 0.
Proof. intros [A _] ->. rewrite Rabs_R0 in A. assert (P := ten_pos e). lra. Qed.
Lemma decade_exponent x e : decade x e -> exponent x = e.
Proof. intro H. apply (decade_unique x); [|exact H]. apply exponent_decade. now apply (decade_nonzero x e). Qed.
Lemma frac_lt x e f : decade x e -> (log10 (Rabs x) - IZR (floorZ (log10 (Rabs x))) < f <-> Rabs x / ten e < Rpower 10 f).
Proof.
  intro D. assert (N := decade_nonzero x e D). assert (P : 0 < Rabs x) by now apply Rabs_pos_lt.
  change (floorZ (log10 (Rabs x))) with (exponent x). rewrite (decade_exponent x e D).
  assert (E : Rabs x / ten e = Rpower 10 (log10 (Rabs x) - IZR e)).
  { unfold Rminus. rewrite Rpower_plus, Rpower_log10, Rpower_Ropp, <- ten_Rpower by exact P. reflexivity. }
  rewrite E. split; intro H; [apply Rpower_lt; lra|].
  destruct (Rlt_le_dec (log10 (Rabs x) - IZR e) f) as [|L]; [assumption|]. exfalso.
  assert (Rpower 10 f <= Rpower 10 (log10 (Rabs x) - IZR e)) by (apply Rle_Rpower; lra). lra.
Qed.

(** ** Rounding *)
Definition rz (x : R) : Z := floorZ (Rabs x + / 2).
Lemma rz_spec x : IZR (rz x) - / 2 <= Rabs x < IZR (rz x) + / 2.
Proof. unfold rz. assert (F := floorZ_spec (Rabs x + / 2)). lra. Qed.
Lemma rz_nonneg x : (0 <= rz x)%Z.
Proof. assert (H := rz_spec x). assert (P := Rabs_pos x). assert (A : -1 < IZR (rz x)) by lra. apply (lt_IZR (-1)) in A. lia. Qed.
Lemma round_abs x : Rabs (round_away x) = IZR (rz x).
Proof.
  assert (N : 0 <= IZR (rz x)) by (apply (IZR_le 0), rz_nonneg). unfold round_away. destruct (Rltb_spec x 0) as [H|H].
  - replace (floorZ (- x + / 2)) with (rz x) by (unfold rz; now rewrite Rabs_left). rewrite Rabs_Ropp. now apply Rabs_pos_eq.
  - replace (floorZ (x + / 2)) with (rz x) by (unfold rz; rewrite Rabs_pos_eq by lra; reflexivity). now apply Rabs_pos_eq.
Qed.
Lemma round_pos x : 0 <= x -> round_away x = IZR (rz x).
Proof. intro H. unfold round_away. destruct (Rltb_spec x 0); [lra|]. unfold rz. now rewrite Rabs_pos_eq. Qed.
Lemma rz_unique x z : IZR z - / 2 <= Rabs x < IZR z + / 2 -> rz x = z.
Proof. intro H. apply floorZ_unique. lra. Qed.
Lemma rz_scaled x n e : rounded x (e - n + 1) (IZR (rz (x * p10 (n - 1 - e))) * ten (e - n + 1)).
Proof.
  exists (rz (x * p10 (n - 1 - e))). split; [reflexivity|]. assert (H := rz_spec (x * p10 (n - 1 - e))).
  rewrite Rabs_mult, (Rabs_pos_eq (p10 _)) in H by (left; apply ten_pos).
  replace (Rabs x / ten (e - n + 1)) with (Rabs x * p10 (n - 1 - e)); [exact H|].
  unfold Rdiv. rewrite <- ten_opp. change p10 with ten. do 2 f_equal. lia.
Qed.

(** ** Digit strings *)
Lemma digit_char_ok d : (0 <= d < 10)%Z -> is_digit (digit_char d) /\ digit_val (digit_char d) = d.
Proof.
  intro H. unfold is_digit, digit_val, digit_char. rewrite nat_ascii_embedding by lia. lia.
Qed.
Lemma decimal_app a b : decimal (a ++ b) = (decimal a * 10 ^ Z.of_nat (List.length b) + decimal b)%Z.
Proof.
  unfold decimal. rewrite fold_left_app. generalize (fold_left (fun v c => (10 * v + digit_val c)%Z) a 0%Z) as x. clear a.
  assert (G : forall b x y, fold_left (fun v c => (10 * v + digit_val c)%Z) b (x + y)%Z = (x * 10 ^ Z.of_nat (List.length b) + fold_left (fun v c => (10 * v + digit_val c)%Z) b y)%Z).
  { clear b. induction b as [|c b IH]; intros x y; cbn [fold_left List.length]; [lia|].
    replace (10 * (x + y) + digit_val c)%Z with (10 * x + (10 * y + digit_val c))%Z by ring. rewrite IH, Nat2Z.inj_succ, Z.pow_succ_r by lia. ring. }
  intro x. rewrite <- (Z.add_0_r x) at 1. apply G.
Qed.
Lemma decimal_one c : decimal [c] = digit_val c.
Proof. reflexivity. Qed.
Lemma decimal_zeros n s : decimal (repeat "0"%char n ++ s) = decimal s.
Proof. rewrite decimal_app. assert (E : decimal (repeat "0"%char n) = 0%Z) by (unfold decimal; induction n; [reflexivity|exact IHn]). now rewrite E. Qed.

(** Digits, least significant first. *)
Fixpoint zd (fuel : nat) (z : Z) : str :=
  match fuel with
  | O => []
  | S f => if (z <? 1)%Z then [] else digit_char (z mod 10) :: zd f (z / 10)
  end.
Lemma zd_spec fuel : forall z, (0 <= z)%Z -> (z < Z.of_nat fuel)%Z -> 
  List.Forall is_digit (zd fuel z) /\ decimal (rev (zd fuel z)) = z /\
  ((0 < z)%Z -> zd fuel z <> [] /\ (10 ^ (Z.of_nat (List.length (zd fuel z)) - 1) <= z < 10 ^ Z.of_nat (List.length (zd fuel z)))%Z) /\
  (z = 0%Z -> zd fuel z = []).
Proof.
  induction fuel as [|f IH]; intros z Hz Hf; [lia|]. cbn [zd]. destruct (Z.ltb_spec z 1) as [L|L].
  - assert (z = 0)%Z by lia. subst. cbn. repeat split; try lia; auto.
  - assert (M : (0 <= z mod 10 < 10)%Z) by (apply Z.mod_pos_bound; lia).
    assert (DM := Z.div_mod z 10 ltac:(lia)). assert (D0 : (0 <= z / 10)%Z) by (apply Z.div_pos; lia).
    destruct (IH (z / 10)%Z D0 ltac:(lia)) as (A & B & C & D). destruct (digit_char_ok _ M) as [E1 E2].
    split; [constructor; assumption|]. split.
    { cbn [rev]. rewrite decimal_app, B, decimal_one, E2. cbn [List.length]. change (10 ^ Z.of_nat 1)%Z with 10%Z. lia. }
    split; [|lia]. intros _. split; [discriminate|]. cbn [List.length]. rewrite Nat2Z.inj_succ.
    destruct (Z.eq_dec (z / 10) 0) as [Z0|Z0].
    + rewrite (D Z0). cbn [List.length]. change (10 ^ (Z.succ (Z.of_nat 0) - 1))%Z with 1%Z. change (10 ^ Z.succ (Z.of_nat 0))%Z with 10%Z. lia.
    + destruct (C ltac:(lia)) as [_ [C1 C2]]. set (l := List.length (zd f (z / 10))) in *.
      assert (Hl : (1 <= Z.of_nat l)%Z). { destruct l; [|lia]. cbn in C2. lia. }
      replace (Z.succ (Z.of_nat l) - 1)%Z with (Z.succ (Z.of_nat l - 1)) by lia. rewrite !Z.pow_succ_r by lia. lia.
Qed.

Lemma to_string_digit d : (0 <= d < 10)%Z -> to_string d = [digit_char d].
Proof.
  intro H. unfold to_string. replace (d <? 0)%Z with false by lia. cbn [nat_digits]. now replace (d <? 10)%Z with true by lia.
Qed.
Lemma floor_div10 z : floorZ (IZR z / 10) = (z / 10)%Z.
Proof.
  assert (DM := Z.div_mod z 10 ltac:(lia)). assert (M := Z.mod_pos_bound z 10 ltac:(lia)).
  apply floorZ_unique. assert (E : IZR z = 10 * IZR (z / 10) + IZR (z mod 10)) by (rewrite <- mult_IZR, <- plus_IZR; now f_equal).
  assert (A : 0 <= IZR (z mod 10)) by (apply (IZR_le 0); lia). assert (B : IZR (z mod 10) < 10) by (apply (IZR_lt _ 10); lia). lra.
Qed.
Lemma ims_loop_zd fuel : forall z s, (0 <= z)%Z -> (z < Z.of_nat fuel)%Z -> ims_loop fuel (IZR z) s = Ret (s ++ zd fuel z).
Proof.
  induction fuel as [|f IH]; intros z s Hz Hf; [lia|]. cbn [ims_loop zd].
  destruct (Z.ltb_spec z 1) as [L|L].
  - destruct (Rleb_spec 1 (IZR z)) as [H|H]; [apply (le_IZR 1) in H; lia|]. now rewrite app_nil_r.
  - destruct (Rleb_spec 1 (IZR z)) as [H|H]; [|exfalso; apply H; apply (IZR_le 1); lia].
    assert (DM := Z.div_mod z 10 ltac:(lia)). assert (M := Z.mod_pos_bound z 10 ltac:(lia)).
    rewrite floor_div10.
    replace (IZR z - 10 * IZR (z / 10)) with (IZR (z mod 10)) by (rewrite Z.mod_eq, minus_IZR, mult_IZR by lia; reflexivity).
    rewrite floorZ_IZR. destruct (Rleb_spec (IZR (z mod 10)) (IZR (z mod 10))) as [_|]; [|lra]. cbn [andb assert_ bind].
    rewrite IH by (try apply Z.div_pos; lia). rewrite to_string_digit by exact M. now rewrite <- app_assoc.
Qed.
Lemma ims_zd m z : Rabs m = IZR z -> int_mantissa_string m = Ret (if (z =? 0)%Z then lit "0" else rev (zd (Z.to_nat (z + 1)) z)).
Proof.
  intro E. assert (Hz : (0 <= z)%Z) by (apply le_IZR; rewrite <- E; apply Rabs_pos).
  assert (U : up (Rabs m) = (z + 1)%Z) by (rewrite E; symmetry; apply tech_up; rewrite plus_IZR; lra).
  unfold int_mantissa_string. rewrite U, E, ims_loop_zd by lia. cbn [bind app].
  destruct (zd_spec (Z.to_nat (z + 1)) z Hz ltac:(lia)) as (_ & _ & C & D).
  destruct (Z.eqb_spec z 0) as [->|N]; [reflexivity|]. destruct (C ltac:(lia)) as [Q _].
  destruct (zd (Z.to_nat (z + 1)) z); [contradiction|reflexivity].
Qed.
Lemma ims_spec m z : Rabs m = IZR z -> exists s, int_mantissa_string m = Ret s /\ s <> [] /\ List.Forall is_digit s /\ decimal s = z /\
  (z = 0%Z -> s = lit "0") /\ ((0 < z)%Z -> (10 ^ (Z.of_nat (List.length s) - 1) <= z < 10 ^ Z.of_nat (List.length s))%Z).
Proof.
  intro E. assert (Hz : (0 <= z)%Z) by (apply le_IZR; rewrite <- E; apply Rabs_pos). rewrite (ims_zd m z E).
  destruct (zd_spec (Z.to_nat (z + 1)) z Hz ltac:(lia)) as (A & B & C & D). eexists. split; [reflexivity|].
  destruct (Z.eqb_spec z 0) as [->|N].
  - split; [discriminate|]. split; [|split; [reflexivity|split; [reflexivity|lia]]]. constructor; [unfold is_digit; cbn; lia|constructor].
  - destruct (C ltac:(lia)) as [Q1 Q2]. split; [|split; [|split; [exact B|split; [lia|intros _; now rewrite rev_length]]]].
    + intro R. apply Q1. rewrite <- (rev_involutive (zd _ _)), R. reflexivity.
    + apply Forall_rev. exact A.
Qed.
