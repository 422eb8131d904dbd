(** * IoAcc7: the text of a mean and a deviation, and the text without uncertainty *)

From Coq Require Import List ZArith Bool Reals Ascii String Lra Lia Psatz.
From Flocq Require Import Core BinarySingleNaN.
From Verif Require Import Base Num Ieee SpecIeee IeeeProofs3 IeeeProofs4 IeeeCov Math SpecMathIeee MathAcc7 Io SpecIo IoProofs IoProofs2
  IoIeee SpecIoIeee IoAcc1 IoAcc2 IoAcc3 IoAcc4 IoAcc5 IoAcc6.
Import ListNotations.
Local Open Scope R_scope.

Lemma ten_large n c : (n <= c)%Z -> ten n <= ten c. Proof. apply ten_le. Qed.
Lemma ten_12 : ten 12 = 1000000000000. Proof. rewrite ten_IZR by lia. reflexivity. Qed.
Lemma ten_13 : ten 13 = 10000000000000. Proof. rewrite ten_IZR by lia. reflexivity. Qed.

Section Lib.
Variables (M : cmath DN) (e : R).
Hypothesis GL : good_lib M e.

(** the mantissa of the mean, whose last digit is at 10^k *)
Lemma mean_text mu n em k : finite mu -> (-307 <= k <= 307)%Z -> (n = em - k + 1)%Z ->
  (real_of mu = 0 /\ (n < 0)%Z \/ ten em * (1 - margin) <= Rabs (real_of mu) <= ten (em + 1) * (1 + margin)) ->
  (Rabs (real_of mu) <= ten 12 * ten k \/ (clear (real_of mu) /\ Rabs (real_of mu) <= ten 13 * ten k)) ->
  exists mm em2, d_mantissa M mu n em = Ret (mm, em2) /\ mm <> [] /\ List.Forall is_digit mm /\
    nearly (real_of mu) k (IZR (decimal mm) * ten (em2 - n + 1)) (4 * e) /\
    (em2 = em \/ (em2 = (em + 1)%Z /\ (1 <= n)%Z)) /\
    (Rabs (real_of mu) < 9 / 10 * ten k \/ far (real_of mu) k -> em2 = em).
Proof.
  intros F Hk Hn J B. assert (V := margin_val). destruct (e_rng M e GL) as [[E1 E2] _]. assert (Pk := ten_pos k).
  set (a := Rabs (real_of mu)) in *. assert (A0 : 0 <= a) by apply Rabs_pos. set (T := a * ten (n - 1 - em)).
  assert (W : (n - 1 - em = - k)%Z) by lia.
  assert (TA : a = T * ten k) by (unfold T; rewrite W, ten_opp; field; lra). assert (T0 : 0 <= T) by (unfold T; rewrite W, ten_opp; apply Rmult_le_pos; [exact A0|left; now apply Rinv_0_lt_compat]).
  assert (TB : T <= ten 13) by (destruct B as [B|[_ B]]; rewrite TA in B; apply Rmult_le_reg_r in B; auto; rewrite ten_12 in B; rewrite ten_13; lra).
  assert (ET : 0 <= e * T <= / 200) by (rewrite ten_13 in TB; split; [apply Rmult_le_pos; lra|nra]).
  assert (JT : T = 0 /\ (n < 0)%Z \/ ten (n - 1) * (1 - margin) <= T <= ten n * (1 + margin)).
  { destruct J as [[J0 J1]|J]; [left; split; [|exact J1]; unfold T, a; rewrite J0, Rabs_R0; ring|right]. exact (judge_T mu n em J). }
  assert (Sharp : T = 0 /\ (n < 0)%Z \/ (ten (n - 1) <= T + 41 / 100 /\ T <= ten n + 41 / 100)).
  { destruct JT as [|JT]; [left; assumption|right]. assert (P1 := ten_pos (n - 1)). assert (P2 := ten_pos n). destruct B as [B|[C _]].
    - rewrite TA in B. apply Rmult_le_reg_r in B; [|exact Pk]. rewrite V in JT. rewrite ten_12 in B. split; [lra|].
      destruct (Rle_lt_dec (ten n) 1000000000000) as [L|L]; lra.
    - destruct J as [[J0 J1]|J]; [exfalso; assert (Tz : T = 0) by (unfold T, a; rewrite J0, Rabs_R0; ring); rewrite Tz, V in JT; lra|]. destruct (clear_judge (real_of mu) em C J) as [C1 C2]. fold a in C1, C2.
      assert (Pn := ten_pos (n - 1 - em)). unfold T. replace (ten (n - 1)) with (ten em * ten (n - 1 - em)) by (rewrite <- ten_add; f_equal; lia).
      replace (ten n) with (ten (em + 1) * ten (n - 1 - em)) by (rewrite <- ten_add; f_equal; lia). split; nra. }
  destruct (d_mantissa_spec M e GL mu n em F ltac:(lia)) as (mm & em2 & Em & Ns & Fs & Vs & Dg & C); fold a; fold T; try replace (4 * e * T) with (4 * (e * T)) by ring.
  - change (pow2 51) with 2251799813685248. rewrite ten_13 in TB. lra.
  - intro N1. destruct Sharp as [[_ S1]|[S1 S2]]; [lia|lra].
  - intro N1. destruct Sharp as [[_ S1]|[S1 S2]]; [lia|lra].
  - intro N1. destruct JT as [[S1 _]|[_ S2]]; [lra|]. assert (Q : ten n <= ten (- (1))) by (apply ten_le; lia). rewrite ten_opp, ten_1 in Q. rewrite V in S2. lra.
  - fold a in Vs, C. fold T in C. replace (em - n + 1)%Z with k in Vs by lia. exists mm, em2. split; [exact Em|]. split; [exact Ns|]. split; [exact Fs|]. split.
    { exists (if Z.eq_dec em2 em then decimal mm else 10 * decimal mm)%Z. split; [|exact Vs]. destruct (Z.eq_dec em2 em) as [->|D].
      - do 2 f_equal. lia.
      - assert (em2 = (em + 1)%Z) as -> by (destruct C as [C|[C _]]; [contradiction|exact C]). replace (em + 1 - n + 1)%Z with (k + 1)%Z by lia. rewrite ten_S, mult_IZR. ring. }
    split; [destruct C as [C|(C1 & C2 & _)]; [left; exact C|right; auto]|].
    intro Q. destruct C as [C|(C1 & C2 & C3 & C4)]; [exact C|exfalso]. replace (4 * e * T) with (4 * (e * T)) in C4 by ring.
    destruct Sharp as [[_ S1]|[S1 S2]]; [lia|]. destruct J as [[_ J1]|J]; [lia|]. destruct JT as [[_ J1]|JT]; [lia|].
    destruct Q as [Q|Q].
    + assert (Q1 : 1 <= ten (n - 1)) by (rewrite <- ten_0; apply ten_le; lia). rewrite TA in Q. assert (Q2 : T < 9 / 10) by (apply (Rmult_lt_reg_r (ten k)); assumption). rewrite V in JT. lra.
    + destruct (Q (em + 1)%Z) as [Q'|Q']; fold a in Q'.
      * assert (E : ten (em + 1) = ten n * ten k) by (rewrite <- ten_add; f_equal; lia). rewrite TA, E in Q'.
        replace (ten n * ten k - 6 / 10 * ten k) with ((ten n - 6 / 10) * ten k) in Q' by ring. apply Rmult_lt_reg_r in Q'; [lra|exact Pk].
      * lra.
Qed.

Lemma Bltb_zero (a : double) : finite a -> Bltb a dzero = Rltb (real_of a) 0.
Proof. intro F. rewrite Bltb_correct by (auto; reflexivity). change (B2R dzero) with 0. destruct (Rltb_spec (real_of a) 0) as [L|L]; [now apply Rlt_bool_true|apply Rlt_bool_false; unfold real_of in L; lra]. Qed.
Lemma Beqb_zero (a : double) : finite a -> real_of a <> 0 -> Beqb a dzero = false.
Proof. intros F N. rewrite Beqb_correct by (auto; reflexivity). change (B2R dzero) with 0. now apply Req_bool_false. Qed.

Lemma few_digits_facts errdig : few_digits errdig -> exists i, is_finite errdig = true /\ Zfloor (B2R errdig) = i /\ (1 <= i <= 3)%Z /\ (i = 1%Z \/ B2R errdig = IZR i) /\ 1 < B2R errdig.
Proof.
  intros [F [H|[H|H]]].
  - exists 1%Z. split; [exact F|]. split; [apply Zfloor_imp; cbn; lra|]. split; [lia|]. split; [left; reflexivity|lra].
  - exists 2%Z. split; [exact F|]. split; [rewrite H; apply (Zfloor_IZR 2)|]. split; [lia|]. split; [right; exact H|lra].
  - exists 3%Z. split; [exact F|]. split; [rewrite H; apply (Zfloor_IZR 3)|]. split; [lia|]. split; [right; exact H|lra].
Qed.

Lemma format_doubles mu s errdig sep : finite mu -> finite s -> few_digits errdig -> printable (real_of mu) (real_of s) ->
  exists out Mt St ee vM pM vS pS n s', d_format M mu s errdig sep = Ret out /\ d_ndigits M s errdig = Ret (n, s') /\
    layout out sep (Rltb (real_of mu) 0) Mt St ee /\ numeral Mt vM pM /\ numeral St vS pS /\
    let k := (ee - Z.of_nat pS)%Z in
    nearly (real_of s) k (vS * ten ee) (4 * e) /\ digits vS pS n /\ IZR n - 1 <= B2R errdig < IZR n + 1 /\ (B2R errdig = IZR (Zfloor (B2R errdig)) -> B2R errdig = IZR n) /\
    (Rabs (real_of mu) < 9 / 10 * ten k \/ far (real_of mu) k -> pM = pS) /\
    (k <> 0%Z \/ ee <> 0%Z \/ Rabs (real_of mu) < 9 / 10 \/ far (real_of mu) k -> nearly (real_of mu) k (vM * ten ee) (4 * e)).
Proof.
  intros Fm Fs FD [RS MB]. destruct (few_digits_facts errdig FD) as (i & Fe & Ie & Ib & Ii & E1).
  destruct (deviation_text M e GL errdig i Fe Ie Ib Ii s Fs RS) as (n & s' & x' & sm & es2 & En & Ex & Es & Nsm & Fsm & N3 & Ni & Nint & Ces & Hx & Dg & Vs).
  assert (Ps : 0 < real_of s) by (assert (Q := ten_pos (-300)); lra). destruct (e_rng M e GL) as [[G1 G2] _].
  set (k := (es2 - n + 1)%Z) in *. assert (Pk := ten_pos k). assert (Hk : (-307 <= k <= 307)%Z) by (unfold k; lia).
  (* the deviation in units of the last digit *)
  assert (SB : real_of s <= ten 3 * ten k).
  { assert (D : IZR (decimal sm) <= ten n - 1). { rewrite ten_IZR by lia. change 1 with (IZR 1). rewrite <- minus_IZR. apply IZR_le. lia. }
    assert (T3 : ten n <= ten 3) by (apply ten_le; lia). assert (T3' : ten 3 = 1000) by (rewrite ten_IZR by lia; reflexivity).
    apply Rabs_le_inv in Vs. assert (IZR (decimal sm) * ten k <= (ten n - 1) * ten k) by (apply Rmult_le_compat_r; lra). nra. }
  assert (MB' : Rabs (real_of mu) <= ten 12 * ten k \/ (clear (real_of mu) /\ Rabs (real_of mu) <= ten 13 * ten k)).
  { assert (Q9 := ten_pos 9). assert (Q10 := ten_pos 10). replace (ten 12) with (ten 9 * ten 3) by (rewrite <- ten_add; reflexivity). replace (ten 13) with (ten 10 * ten 3) by (rewrite <- ten_add; reflexivity).
    destruct MB as [MB|[C MB]]; [left|right; split; [exact C|]]; nra. }
  assert (exists em, (if negb (Beqb mu dzero) then d_exponent M mu else Ret (x' - n - 1)%Z) = Ret em /\ (real_of mu = 0 /\ (n + em - es2 < 0)%Z \/ ten em * (1 - margin) <= Rabs (real_of mu) <= ten (em + 1) * (1 + margin))) as (em & Em & J).
  { destruct (Req_dec (real_of mu) 0) as [Z|Z].
    - exists (x' - n - 1)%Z. rewrite Beqb_correct by (auto; reflexivity). change (B2R dzero) with 0. fold (real_of mu). rewrite Z, Req_bool_true by reflexivity. split; [reflexivity|]. left. split; [reflexivity|lia].
    - rewrite Beqb_zero by assumption. destruct (judge M e GL mu Fm Z) as (em & Em & _ & _ & J). exists em. split; [exact Em|right; exact J]. }
  set (nm := (n + em - es2)%Z) in *.
  destruct (mean_text mu nm em k Fm Hk ltac:(unfold nm, k; lia) J MB') as (mm & em2 & Emm & Nmm & Fmm & Vm & Cem & Al).
  destruct (text_layout (Rltb (real_of mu) 0) sep sm mm n em es2 em2 Nsm Fsm Nmm Fmm ltac:(lia) Cem) as (Mt & St & ee & vM & pM & vS & pS & Lay & NM & NS & Kp & VS & DS & CM).
  cbv zeta in Lay. fold nm in Lay. lazymatch type of Lay with layout ?o _ _ _ _ _ => exists o end. exists Mt, St, ee, vM, pM, vS, pS, n, s'. split.
  { unfold d_format. rewrite Bleb_correct by (try exact Fe; apply fofZ_exact; cbn; lia). destruct (fofZ_exact 1 ltac:(cbn; lia)) as [_ ->]. rewrite Rle_bool_false by lra.
    rewrite Fm, Fs. cbn [negb orb]. rewrite Beqb_zero by (try assumption; apply Rgt_not_eq; lra). rewrite En. cbn [bind]. rewrite Ex. cbn [bind]. rewrite Em. cbn [bind]. rewrite Es. cbn [bind].
    fold nm. rewrite Emm. cbn [bind]. rewrite Bltb_zero by exact Fm.
    set (ue := (if n <=? nm then (nm <=? em2) || (em2 <? -1) else (n <=? es2) || (es2 <? -1))%Z) in *. set (be := (if n <=? nm then em2 else es2)%Z) in *.
    destruct ue; reflexivity. }
  split; [exact En|]. split; [exact Lay|]. split; [exact NM|]. split; [exact NS|]. rewrite Kp. fold k. cbv zeta. fold k in VS.
  split. { exists (decimal sm). split; [exact VS|]. rewrite VS, (Rabs_pos_eq (real_of s)) by lra. exact Vs. }
  split. { unfold digits. rewrite DS, !ten_IZR by lia. split; [apply IZR_le|apply IZR_lt]; lia. }
  split. { assert (Q := Zfloor_spec (B2R errdig)). rewrite Ie in Q. assert (IZR i <= IZR n <= IZR (i + 1)) by (split; apply IZR_le; lia). rewrite plus_IZR in *. lra. }
  split. { intro H. rewrite Ie in H. rewrite (Nint H). exact H. }
  destruct CM as [(VM & PM)|(C1 & C2 & C3 & C4)].
  - fold nm in VM. split; [intro Q; apply PM, Al, Q|]. intros _. rewrite VM. exact Vm.
  - fold k in C2. split; [intro Q; specialize (Al Q); lia|]. rewrite C2 in Al |- *. rewrite ten_0 in Al. intros [Q|[Q|Q]]; [contradiction|contradiction|exfalso]. 
    assert (em2 = em); [|lia]. apply Al. destruct Q as [Q|Q]; [left; lra|right; exact Q].
Qed.

(** ** No uncertainty *)
Lemma d_tostring_digits x : finite x -> ten (-300) <= Rabs (real_of x) ->
  exists out Mt ee v p, d_tostring M x = Ret out /\ plain out Mt ee /\ numeral Mt v p /\ digits v p 6 /\ nearly (real_of x) (ee - Z.of_nat p) (v * ten ee) (4 * e).
Proof.
  intros F B. assert (P0 := ten_pos (-300)). assert (N : real_of x <> 0) by (intro Q; rewrite Q, Rabs_R0 in B; lra).
  assert (V := margin_val). destruct (e_rng M e GL) as [[E1 E2] _].
  destruct (judge M e GL x F N) as (ex & Ex & _ & Hx & J).
  assert (X1 : (-301 <= ex)%Z) by (enough (-300 <= ex + 1)%Z by lia; apply (ten_lt_inv2 (Rabs (real_of x))); lra).
  assert (X2 : (ex <= 309)%Z). { apply (ten_gt_inv (Rabs (real_of x))); [lra|]. destruct (abs_facts x F) as [Fa Ea]. rewrite <- Ea. apply (double_range (dabs x) Fa). rewrite Ea. apply Rabs_pos_lt, N. }
  assert (TB := judge_T x 6 ex J). cbv zeta in TB. set (T := Rabs (real_of x) * ten (6 - 1 - ex)) in *. rewrite !ten_IZR in TB by lia. change (10 ^ (6 - 1))%Z with 100000%Z in TB. change (10 ^ 6)%Z with 1000000%Z in TB. rewrite V in TB.
  assert (ET : 0 <= e * T <= / 1000) by nra.
  destruct (d_mantissa_spec M e GL x 6 ex F ltac:(lia)) as (s & e' & Em & Ns & Fs & Vs & Dg & C); fold T; try replace (4 * e * T) with (4 * (e * T)) by ring.
  - change (pow2 51) with 2251799813685248. lra.
  - intros _. rewrite ten_IZR by lia. change (10 ^ (6 - 1))%Z with 100000%Z. lra.
  - intros _. rewrite ten_IZR by lia. change (10 ^ 6)%Z with 1000000%Z. lra.
  - lia.
  - specialize (Dg ltac:(lia)).
    assert (RS : nearly (real_of x) (e' - 5) (IZR (decimal s) * ten (e' - 5)) (4 * e)).
    { exists (decimal s). split; [reflexivity|]. replace (e' - 6 + 1)%Z with (e' - 5)%Z in Vs by lia. assert (ten (ex - 6 + 1) <= ten (e' - 5)) by (apply ten_le; destruct C as [->|[-> _]]; lia). lra. }
    unfold d_tostring. destruct x as [sx|sx| |sx mx qx Hb]; try discriminate F; [now contradiction N|]. set (x := B754_finite sx mx qx Hb) in *. rewrite (Beqb_zero x F N). cbv zeta. rewrite Ex. cbn [bind]. rewrite Em. cbn [bind].
    assert (Dd : forall q : Z, (q <= 5)%Z -> digits (IZR (decimal s) * ten (q - 6 + 1)) (Z.to_nat (6 - 1 - q)) 6).
    { intros q Hq. unfold digits. rewrite <- ten_nat, Rmult_assoc, <- ten_add. replace (q - 6 + 1 + Z.of_nat (Z.to_nat (6 - 1 - q)))%Z with 0%Z by lia.
      rewrite ten_0, Rmult_1_r, !ten_IZR by lia. split; [apply IZR_le|apply IZR_lt]; lia. }
    destruct ((6 <=? e') || (e' <? -1))%Z eqn:U.
    + eexists. exists (insert_dot s 6 0), e', (IZR (decimal s) * ten (0 - 6 + 1)), (Z.to_nat (6 - 1 - 0)). split; [reflexivity|].
      apply orb_true_iff in U. split; [right; exists (format_exp e'); split; [apply format_exp_text; lia|reflexivity]|].
      split; [apply insert_dot_numeral; auto; lia|]. split; [apply Dd; lia|]. rewrite Rmult_assoc, <- ten_add.
      replace (0 - 6 + 1 + e')%Z with (e' - 5)%Z by lia. exact RS.
    + apply orb_false_iff in U as [U1 U2]. eexists. exists (insert_dot s 6 e'), 0%Z, (IZR (decimal s) * ten (e' - 6 + 1)), (Z.to_nat (6 - 1 - e')). split; [reflexivity|].
      split; [left; auto|]. split; [apply insert_dot_numeral; auto; lia|]. rewrite ten_0, Rmult_1_r. split; [apply Dd; lia|].
      replace (0 - Z.of_nat (Z.to_nat (6 - 1 - e')))%Z with (e' - 5)%Z by lia. replace (e' - 6 + 1)%Z with (e' - 5)%Z by lia. exact RS.
Qed.
End Lib.
