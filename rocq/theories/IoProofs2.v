(** * IoProofs2: the text produced by format *)

From Coq Require Import List ZArith Bool Reals Ascii String Lra Lia.
From Verif Require Import Base Num Io SpecIo IoProofs.
Import ListNotations.
Local Open Scope R_scope.

(** ** to_string, format_exp *)
Lemma nat_digits_spec fuel : forall z acc, (0 <= z)%Z -> (z < 2 ^ Z.of_nat fuel)%Z -> fuel <> O ->
  exists D, nat_digits fuel z acc = D ++ acc /\ D <> [] /\ List.Forall is_digit D /\ decimal D = z.
Proof.
  induction fuel as [|f IH]; intros z acc Hz Hf N; [contradiction|]. cbn [nat_digits]. destruct (Z.ltb_spec z 10) as [L|L].
  - destruct (digit_char_ok z ltac:(lia)) as [A B]. exists [digit_char z]. split; [reflexivity|]. split; [discriminate|]. split; [constructor; [assumption|constructor]|exact B].
  - assert (DM := Z.div_mod z 10 ltac:(lia)). assert (M := Z.mod_pos_bound z 10 ltac:(lia)). destruct (digit_char_ok _ M) as [A B].
    rewrite Nat2Z.inj_succ, Z.pow_succ_r in Hf by lia.
    destruct (IH (z / 10)%Z (digit_char (z mod 10) :: acc)) as (D & E & D1 & D2 & D3); [apply Z.div_pos; lia|lia|intros ->; cbn in Hf; lia|].
    exists (D ++ [digit_char (z mod 10)]). split; [rewrite E, <- app_assoc; reflexivity|]. split; [destruct D; discriminate|].
    split; [apply Forall_app; split; [exact D2|constructor; [assumption|constructor]]|]. rewrite decimal_app, D3, decimal_one, B. cbn [List.length].
    change (10 ^ Z.of_nat 1)%Z with 10%Z. lia.
Qed.
Lemma to_string_nonneg z : (0 <= z)%Z -> to_string z <> [] /\ List.Forall is_digit (to_string z) /\ decimal (to_string z) = z.
Proof.
  intro H. unfold to_string. replace (z <? 0)%Z with false by lia.
  destruct (nat_digits_spec (S (Z.to_nat (Z.log2 z))) z [] H) as (D & E & A); [|discriminate|rewrite E, app_nil_r; exact A].
  rewrite Nat2Z.inj_succ, Z2Nat.id by apply Z.log2_nonneg. destruct (Z.eq_dec z 0) as [->|]; [reflexivity|]. apply Z.log2_spec. lia.
Qed.
Lemma format_exp_text e : e <> 0%Z -> exponent_text (format_exp e) e.
Proof.
  intro H. unfold format_exp. destruct (to_string_nonneg (Z.abs e) (Z.abs_nonneg e)) as (A & B & C).
  destruct (Z.ltb_spec 0 e) as [L|L].
  - exists "+"%char, (to_string (Z.abs e)). split; [reflexivity|]. split; [exact A|]. split; [exact B|]. left. split; [exact L|]. split; [reflexivity|]. lia.
  - exists "-"%char, (to_string (Z.abs e)). split; [reflexivity|]. split; [exact A|]. split; [exact B|]. right. split; [lia|]. split; [reflexivity|]. lia.
Qed.

(** ** insert_dot *)
Lemma insert_dot_numeral s n e : s <> [] -> List.Forall is_digit s -> (e <= n - 1)%Z ->
  numeral (insert_dot s n e) (IZR (decimal s) * ten (e - n + 1)) (Z.to_nat (n - 1 - e)).
Proof.
  intros N F H. set (L := Z.of_nat (List.length s)). assert (HL : (1 <= L)%Z) by (unfold L; destruct s; [contradiction|cbn [List.length]; lia]).
  set (p := Z.to_nat (n - 1 - e)).
  assert (V : IZR (decimal s) * ten (e - n + 1) = IZR (decimal s) / 10 ^ p).
  { unfold Rdiv. rewrite <- ten_nat, <- ten_opp. f_equal. f_equal. unfold p. lia. }
  rewrite V. unfold insert_dot. fold L. 
  destruct (Z.leb_spec (L - 1) (e + (L - n))) as [C1|C1].
  - assert (p = O) as -> by (unfold p; lia). exists s, []. split; [exact N|]. split; [exact F|]. split; [constructor|]. split; [reflexivity|].
    rewrite !app_nil_r. split; reflexivity.
  - destruct (Z.leb_spec 0 (e + (L - n))) as [C2|C2].
    + set (k := Z.to_nat (1 + (e + (L - n)))). assert (Hk : (1 <= k < List.length s)%nat) by (unfold k, L in *; lia).
      exists (firstn k s), (skipn k s).
      assert (FS : firstn k s ++ skipn k s = s) by apply firstn_skipn.
      rewrite <- FS in F. apply Forall_app in F as [F1 F2]. rewrite FS.
      split; [intro Q; apply (f_equal (@List.length ascii)) in Q; rewrite firstn_length in Q; cbn in Q; lia|].
      split; [exact F1|]. split; [exact F2|]. split; [rewrite skipn_length; unfold k, p, L in *; lia|]. split; [|reflexivity].
      unfold insert_at. f_equal. destruct (skipn k s) eqn:Q; [|reflexivity]. apply (f_equal (@List.length ascii)) in Q. rewrite skipn_length in Q. cbn in Q. lia.
    + destruct (Z.leb_spec (e + (L - n)) (-1)) as [C3|C3]; [|lia]. set (z := Z.to_nat (- (e + (L - n)))). assert (Hz : exists z', z = S z') by (exists (pred z); unfold z; lia).
      destruct Hz as [z' Ez]. exists ["0"%char], (repeat "0"%char z' ++ s).
      split; [discriminate|]. split; [constructor; [unfold is_digit; cbn; lia|constructor]|].
      split; [apply Forall_app; split; [|exact F]; clear; induction z'; cbn; constructor; auto; unfold is_digit; cbn; lia|].
      split; [rewrite app_length, repeat_length; unfold p, z, L in *; lia|]. split.
      * unfold insert_at. cbn [firstn skipn app]. rewrite Ez. cbn [repeat app firstn skipn]. destruct z'; [destruct s; [contradiction|reflexivity]|reflexivity].
      * f_equal. f_equal. change (["0"%char] ++ repeat "0"%char z' ++ s) with (repeat "0"%char (S z') ++ s). now rewrite decimal_zeros.
Qed.
Lemma insert_dot_beyond s n e : s <> [] -> List.Forall is_digit s -> (n - 1 <= e)%Z -> numeral (insert_dot s n e) (IZR (decimal s)) 0.
Proof.
  intros N F H. unfold insert_dot. destruct (Z.leb_spec (Z.of_nat (List.length s) - 1) (e + (Z.of_nat (List.length s) - n))); [|lia].
  exists s, []. split; [exact N|]. split; [exact F|]. split; [constructor|]. split; [reflexivity|]. rewrite !app_nil_r. split; [reflexivity|cbn; field].
Qed.

(** ** mantissa *)
Lemma pow_lt_inv a b : (0 <= a)%Z -> (0 <= b)%Z -> (10 ^ a < 10 ^ b)%Z -> (a < b)%Z.
Proof. intros Ha Hb H. apply (Z.pow_lt_mono_r_iff 10); lia. Qed.
Lemma mantissa_spec x n e : decade x e -> exists s e',
  mantissa x n e = Ret (s, e') /\ s <> [] /\ List.Forall is_digit s /\
  rounded x (e - n + 1) (IZR (decimal s) * ten (e' - n + 1)) /\
  ((1 <= n)%Z -> (10 ^ (n - 1) <= decimal s < 10 ^ n)%Z) /\
  (e' = e \/ (e' = (e + 1)%Z /\ (1 <= n)%Z /\ ten (e + 1) <= Rabs x + ten (e - n + 1) / 2 /\ decimal s = (10 ^ (n - 1))%Z)).
Proof.
  intros D. set (m := int_mantissa x n e). set (z := rz (x * p10 (n - 1 - e))).
  assert (Em : Rabs m = IZR z) by apply round_abs.
  destruct (ims_spec m z Em) as (s & Es & Ns & Fs & Ds & Z0 & Zl).
  assert (R := rz_scaled x n e). fold z in R. assert (HR := rz_spec (x * p10 (n - 1 - e))). fold z in HR.
  rewrite Rabs_mult, (Rabs_pos_eq (p10 _)) in HR by (left; apply ten_pos). change p10 with ten in HR.
  assert (T1 : ten (n - 1) <= Rabs x * ten (n - 1 - e)).
  { replace (n - 1)%Z with (e + (n - 1 - e))%Z at 1 by lia. rewrite ten_add. apply Rmult_le_compat_r; [left; apply ten_pos|apply D]. }
  assert (T2 : Rabs x * ten (n - 1 - e) < ten n).
  { replace n with (e + 1 + (n - 1 - e))%Z at 2 by lia. rewrite (ten_add (e + 1)). apply Rmult_lt_compat_r; [apply ten_pos|apply D]. }
  set (l := Z.of_nat (List.length s)) in *.
  unfold mantissa. fold m. rewrite Es. cbn [bind]. fold l.
  destruct (Z_le_gt_dec 1 n) as [Hn|Hn].
  - (* at least one digit *)
    rewrite (ten_IZR (n - 1)) in T1 by lia. rewrite (ten_IZR n) in T2 by lia.
    assert (B1 : (10 ^ (n - 1) <= z)%Z). { assert (A : IZR (10 ^ (n - 1)) < IZR (z + 1)) by (rewrite plus_IZR; lra). apply lt_IZR in A. lia. }
    assert (B2 : (z <= 10 ^ n)%Z). { assert (A : IZR z < IZR (10 ^ n + 1)) by (rewrite plus_IZR; lra). apply lt_IZR in A. lia. }
    assert (P1 : (0 < 10 ^ (n - 1))%Z) by (apply Z.pow_pos_nonneg; lia).
    assert (P10 : (10 ^ n = 10 * 10 ^ (n - 1))%Z) by (rewrite <- Z.pow_succ_r by lia; f_equal; lia).
    destruct (Zl ltac:(lia)) as [L1 L2].
    assert (Hl : (0 <= l)%Z) by (unfold l; lia). assert (Hl1 : (1 <= l)%Z) by (unfold l; destruct s; [contradiction|cbn [List.length]; lia]).
    assert (C1 : (n - 1 < l)%Z) by (apply pow_lt_inv; lia).
    assert (C2 : (l - 1 < n + 1)%Z). { apply pow_lt_inv; try lia. rewrite Z.pow_add_r, Z.pow_1_r by lia. lia. }
    destruct (Z.eqb_spec l n) as [E|E].
    + cbn [orb assert_ bind]. replace (l =? n + 1)%Z with false by lia. rewrite andb_false_r. exists s, e.
      split; [reflexivity|]. split; [exact Ns|]. split; [exact Fs|]. split; [rewrite Ds; exact R|]. split; [|left; reflexivity].
      intros _. rewrite Ds. rewrite E in L1, L2. lia.
    + assert (l = n + 1)%Z as E' by lia. rewrite E' in L1, L2 |- *. replace (n + 1 =? n + 1)%Z with true by lia. cbn [orb assert_ bind].
      replace (1 <=? n)%Z with true by lia. cbn [andb].
      replace (n + 1 - 1)%Z with n in L1 by lia. assert (Ez : z = (10 ^ n)%Z) by lia.
      assert (Sp : s = removelast s ++ [last s "0"%char]) by (apply app_removelast_last; exact Ns).
      assert (Fl : is_digit (last s "0"%char) /\ List.Forall is_digit (removelast s)).
      { rewrite Sp in Fs. apply Forall_app in Fs as [A B]. inversion B; auto. }
      destruct Fl as [Fl Fr].
      assert (Dl : decimal s = (10 * decimal (removelast s) + digit_val (last s "0"%char))%Z).
      { rewrite Sp at 1. rewrite decimal_app, decimal_one. cbn [List.length]. change (10 ^ Z.of_nat 1)%Z with 10%Z. lia. }
      assert (Dv : (0 <= digit_val (last s "0"%char) < 10)%Z) by (unfold digit_val, is_digit in *; lia).
      rewrite Ds, Ez, P10 in Dl. assert (Dr : decimal (removelast s) = (10 ^ (n - 1))%Z) by lia.
      exists (removelast s), (e + 1)%Z. split; [reflexivity|]. split.
      { intro Q. rewrite Q in Sp. cbn [app] in Sp. apply (f_equal (@List.length ascii)) in Sp. cbn [List.length] in Sp. unfold l in E'. lia. }
      split; [exact Fr|]. split.
      { rewrite Dr. replace (IZR (10 ^ (n - 1)) * ten (e + 1 - n + 1)) with (IZR z * ten (e - n + 1)); [exact R|].
        rewrite Ez, P10, mult_IZR. replace (e + 1 - n + 1)%Z with (e - n + 1 + 1)%Z by lia. rewrite (ten_S (e - n + 1)). ring. }
      split; [intros _; lia|]. right. split; [reflexivity|]. split; [exact Hn|]. split; [|exact Dr].
      replace (e + 1)%Z with (n + (e - n + 1))%Z by lia. rewrite ten_add, (ten_IZR n) by lia. rewrite <- Ez.
      assert (X : Rabs x = Rabs x * ten (n - 1 - e) * ten (e - n + 1)).
      { rewrite Rmult_assoc, <- ten_add. replace (n - 1 - e + (e - n + 1))%Z with 0%Z by lia. rewrite ten_0. ring. }
      rewrite X. assert (P := ten_pos (e - n + 1)). nra.
  - (* no digit *)
    assert (Z1 : (z <= 1)%Z).
    { assert (A : IZR z < IZR 2); [|apply lt_IZR in A; lia]. assert (ten n <= ten 0) by (apply ten_le; lia). rewrite ten_0 in H. lra. }
    assert (Z2 : (0 <= z)%Z) by apply rz_nonneg.
    assert (L1 : l = 1%Z).
    { assert (Hl1 : (1 <= l)%Z) by (unfold l; destruct s; [contradiction|cbn [List.length]; lia]).
      destruct (Z.eq_dec z 0) as [E|E]; [unfold l; now rewrite (Z0 E)|]. destruct (Zl ltac:(lia)) as [A B].
      assert (l - 1 < 1)%Z; [|lia]. apply pow_lt_inv; [lia|lia|]. change (10 ^ 1)%Z with 10%Z. lia. }
    rewrite L1. 
    assert (As : ((1 =? n) || (1 =? n + 1) || (Rleb m 0 && Rleb 0 m && (n <? 0)))%Z = true).
    { destruct (Z.eq_dec n 0) as [->|Hn0]; [reflexivity|].
      assert (z = 0%Z) as Ez.
      { assert (A : IZR z < IZR 1); [|apply lt_IZR in A; lia]. assert (ten n <= ten (-1)) by (apply ten_le; lia).
        assert (T := ten_opp 1); cbn [Z.opp] in T; rewrite T, ten_1 in H. lra. }
      assert (m = 0) as M0. { rewrite Ez in Em. destruct (Req_dec m 0) as [|Hm]; [assumption|]. apply Rabs_pos_lt in Hm. lra. }
      assert (I0 := proj2 (iszero m) M0). rewrite I0. replace (n <? 0)%Z with true by lia. now rewrite orb_true_r. }
    rewrite As. cbn [assert_ bind]. replace (1 <=? n)%Z with false by lia. cbn [andb]. exists s, e.
    split; [reflexivity|]. split; [exact Ns|]. split; [exact Fs|]. split; [rewrite Ds; exact R|]. split; [lia|]. left; reflexivity.
Qed.
Lemma mantissa_zero n e : (n < 0)%Z -> mantissa 0 n e = Ret (lit "0", e).
Proof.
  intro H. unfold mantissa, int_mantissa. rewrite Rmult_0_l.
  assert (E : round_away 0 = 0). { rewrite round_pos by lra. rewrite (rz_unique 0 0); [reflexivity|]. rewrite Rabs_R0. cbn. lra. }
  rewrite E. rewrite (ims_zd 0 0) by apply Rabs_R0. cbn [Z.eqb bind lit list_ascii_of_string List.length].
  assert (I0 := proj2 (iszero 0) eq_refl). rewrite I0. replace (n <? 0)%Z with true by lia. rewrite orb_true_r. cbn [assert_ bind].
  now replace (1 <=? n)%Z with false by lia.
Qed.
