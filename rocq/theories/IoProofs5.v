(** * IoProofs5: inputs printed wrongly by format *)

From Coq Require Import List ZArith Bool Reals Ascii String Lra Lia.
From Verif Require Import Base Num Io SpecIo IoProofs IoProofs2 IoProofs3 IoProofs4.
Import ListNotations.
Local Open Scope R_scope.

(** ** Evaluation on given numbers *)

Definition text_of (z : Z) : str := if (z =? 0)%Z then lit "0" else rev (zd (Z.to_nat (z + 1)) z).
Lemma mantissa_eval x n e z : (1 <= n)%Z -> IZR z - / 2 <= Rabs x * ten (n - 1 - e) < IZR z + / 2 ->
  mantissa x n e = let s := text_of z in let size := Z.of_nat (List.length s) in
    if (size =? n)%Z then Ret (s, e) else if (size =? n + 1)%Z then Ret (removelast s, e + 1)%Z else Assert.
Proof.
  intros Hn H. unfold mantissa, int_mantissa. assert (E : Rabs (round_away (x * p10 (n - 1 - e))) = IZR z).
  { rewrite round_abs. f_equal. apply rz_unique. rewrite Rabs_mult, (Rabs_pos_eq (p10 _)) by (left; apply ten_pos). exact H. }
  rewrite (ims_zd _ z E). fold (text_of z). cbn [bind]. cbv zeta. replace (n <? 0)%Z with false by lia. replace (1 <=? n)%Z with true by lia. rewrite andb_false_r, orb_false_r. cbn [andb].
  destruct (Z.eqb_spec (Z.of_nat (List.length (text_of z))) n) as [Q|Q]; cbn [orb assert_ bind].
  - now replace (_ =? n + 1)%Z with false by lia.
  - destruct (_ =? n + 1)%Z; reflexivity.
Qed.
Lemma ten_pow z : (0 <= z)%Z -> ten z = IZR (10 ^ z).
Proof. apply ten_IZR. Qed.
Lemma ten_neg z : (0 <= z)%Z -> ten (- z) = / IZR (10 ^ z).
Proof. intro H. now rewrite ten_opp, ten_IZR. Qed.
Lemma ndigits_integer s i : 0 < s -> ndigits s (IZR i) = (i, s).
Proof.
  intro Hs. assert (IF : int_frac (IZR i) i 0) by (split; lra). unfold ndigits. rewrite (naive_integer s (IZR i) i ltac:(lra) IF).
  destruct (Rltb_spec s (int_mantissa s i (exponent s) * p10 (exponent s))) as [L|L]; [|reflexivity].
  rewrite (naive_integer (int_mantissa s i (exponent s) * p10 (exponent s)) (IZR i) i) by (assumption || lra). now rewrite Z.ltb_irrefl.
Qed.
Ltac evt := repeat match goal with |- context[ten ?z] =>
  let v := eval vm_compute in z in
  match v with
  | Z0 => replace (ten z) with 1 by (symmetry; exact ten_0)
  | Zpos _ => let w := eval vm_compute in (10 ^ v)%Z in replace (ten z) with (IZR w) by (symmetry; exact (ten_pow v ltac:(lia)))
  | Zneg ?q => let w := eval vm_compute in (10 ^ Zpos q)%Z in replace (ten z) with (/ IZR w) by (symmetry; exact (ten_neg (Zpos q) ltac:(lia)))
  end end.
Ltac abs := rewrite ?Rabs_pos_eq by lra; rewrite ?Rabs_left by lra.
Ltac dec := unfold decade; abs; evt; lra.
Ltac mant z := rewrite (mantissa_eval _ _ _ z) by (lia || (abs; evt; lra)); let t := eval vm_compute in (text_of z) in change (text_of z) with t; cbv zeta.

Lemma wrong_value : format (Fin (96/10)) (Fin 12) 2 (lit " ") = Ret (lit "1 12").
Proof.
  unfold format. destruct (Rleb_spec 2 1); [lra|]. rewrite iszero_false by lra. unfold format_finite. rewrite ndigits_integer by lra.
  rewrite iszero_false by lra. rewrite (decade_exponent 12 1) by dec. rewrite (decade_exponent (96/10) 0) by dec.
  mant 12%Z. cbn -[mantissa Rltb insert_dot]. mant 10%Z. cbn -[mantissa Rltb insert_dot]. destruct (Rltb_spec (96/10) 0); [lra|]. reflexivity.
Qed.
Lemma wrong_alignment : format (Fin (9996/1000)) (Fin (32/100)) 2 (lit " ") = Ret (lit "10.0 0.32").
Proof.
  unfold format. destruct (Rleb_spec 2 1); [lra|]. rewrite iszero_false by lra. unfold format_finite. rewrite ndigits_integer by lra.
  rewrite iszero_false by lra. rewrite (decade_exponent (32/100) (-1)) by dec. rewrite (decade_exponent (9996/1000) 0) by dec.
  mant 32%Z. cbn -[mantissa Rltb insert_dot]. mant 1000%Z. cbn -[mantissa Rltb insert_dot]. destruct (Rltb_spec (9996/1000) 0); [lra|]. reflexivity.
Qed.
Lemma wrong_sign : format (Fin (- (3/2))) (Fin 0) 2 (lit " ") = Ret (lit "1.50000 0").
Proof.
  unfold format. destruct (Rleb_spec 2 1); [lra|]. rewrite (proj2 (iszero 0) eq_refl). unfold tostring. rewrite (proj2 (iszero 0) eq_refl). rewrite iszero_false by lra.
  rewrite (decade_exponent (- (3/2)) 0) by dec. mant 150000%Z. reflexivity.
Qed.
Lemma wrong_deviation : format (Fin 0) (Fin (999/1000)) (5/2) (lit " ") = Ret (lit "0.0 10.0").
Proof.
  assert (IF : int_frac (5/2) 2 (/2)) by (split; lra).
  assert (R1 : 1 < Rpower 10 (/2)) by (rewrite <- Rpower_0; apply Rpower_lt; lra).
  assert (R2 : Rpower 10 (/2) < 9).
  { rewrite Rpower_sqrt by lra. replace 9 with (sqrt (9 * 9)) by (apply sqrt_square; lra). apply sqrt_lt_1; lra. }
  assert (E : ndigits (999/1000) (5/2) = (3%Z, 10)).
  { assert (D : decade (999/1000) (-1)) by dec. unfold ndigits. rewrite (decade_exponent _ _ D).
    destruct (naive_eq _ (5/2) _ _ _ D IF) as [_ B]. rewrite B; clear B; [|abs; evt; lra].
    assert (Q : int_mantissa (999/1000) 2 (-1) * p10 (-1) = 10).
    { unfold int_mantissa. change p10 with ten. rewrite round_pos by (evt; lra). rewrite (rz_unique _ 100); [evt; lra|]. evt; abs; lra. }
    rewrite Q. destruct (Rltb_spec (999/1000) 10); [|lra]. assert (D2 : decade 10 1) by dec.
    destruct (naive_eq _ (5/2) _ _ _ D2 IF) as [A _]. rewrite A; [reflexivity|abs; evt; lra]. }
  unfold format. destruct (Rleb_spec (5/2) 1); [lra|]. rewrite iszero_false by lra. unfold format_finite. rewrite E.
  rewrite (proj2 (iszero 0) eq_refl). rewrite (decade_exponent 10 1) by dec.
  mant 100%Z. cbn -[mantissa Rltb insert_dot]. rewrite mantissa_zero by lia. cbn -[Rltb insert_dot]. destruct (Rltb_spec 0 0); [lra|]. reflexivity.
Qed.

(** ** The claims that fail *)

Lemma rounded_unique x k v v' : rounded x k v -> rounded x k v' -> v = v'.
Proof.
  intros (z & -> & H) (z' & -> & H'). do 2 f_equal. assert (A : IZR z < IZR (z' + 1)) by (rewrite plus_IZR; lra). assert (B : IZR z' < IZR (z + 1)) by (rewrite plus_IZR; lra).
  apply lt_IZR in A, B. lia.
Qed.
Lemma read_back t neg M S e vM pM vS pS : layout t (lit " ") neg M S e -> numeral M vM pM -> numeral S vS pS ->
  forall neg' M' S' e' vM' pM' vS' pS', layout t (lit " ") neg' M' S' e' -> numeral M' vM' pM' -> numeral S' vS' pS' ->
  neg' = neg /\ e' = e /\ vM' = vM /\ pM' = pM /\ vS' = vS /\ pS' = pS.
Proof.
  intros L A B neg' M' S' e' vM' pM' vS' pS' L' A' B'.
  destruct (C41_text_unambiguous_proof t (lit " ") " "%char [] eq_refl ltac:(unfold is_digit; cbn; lia) ltac:(discriminate) _ _ _ _ _ _ _ _ _ _ _ _ _ _ _ _ L A B L' A' B') as (-> & _ & _ & -> & -> & -> & -> & ->).
  auto 10.
Qed.
Ltac digs := repeat first [apply Forall_nil | apply Forall_cons; [unfold is_digit; cbn; lia|]].
Ltac num I F := exists (lit I), (lit F); split; [discriminate|]; split; [digs|]; split; [digs|]; split; [reflexivity|]; split; [reflexivity|]; vm_compute decimal; cbn [List.length lit list_ascii_of_string pow]; try lra.
Lemma num_1 : numeral (lit "1") 1 0. Proof. num "1"%string ""%string. Qed.
Lemma num_12 : numeral (lit "12") 12 0. Proof. num "12"%string ""%string. Qed.
Lemma num_10_0 : numeral (lit "10.0") 10 1. Proof. num "10"%string "0"%string. Qed.
Lemma num_0_32 : numeral (lit "0.32") (32/100) 2. Proof. num "0"%string "32"%string. Qed.
Lemma num_0_0 : numeral (lit "0.0") 0 1. Proof. num "0"%string "0"%string. Qed.

(** 9.6 +- 12 is printed as 1 +- 12. *)
Lemma C41_mean_refuted_proof : exists (mu s errdig : R) (sep : str), 0 < s /\ covered s errdig /\
  ~ exists out M S e vM pM vS pS, format (Fin mu) (Fin s) errdig sep = Ret out /\
    layout out sep (Rltb mu 0) M S e /\ numeral M vM pM /\ numeral S vS pS /\ rounded mu (e - Z.of_nat pS) (vM * ten e).
Proof.
  exists (96/10), 12, 2, (lit " "). split; [lra|]. split; [split; [lra|right; left; exists 2%Z; reflexivity]|].
  intros (out & M & SS & e & vM & pM & vS & pS & E & L & NM & NS & Rd). rewrite wrong_value in E. injection E as <-.
  destruct (read_back (lit "1 12") false (lit "1") (lit "12") 0 1 0 12 0 ltac:(left; split; reflexivity) num_1 num_12 _ _ _ _ _ _ _ _ L NM NS) as (_ & -> & -> & -> & -> & ->).
  destruct Rd as (z & E & H). cbn [Z.of_nat Z.sub Z.add Z.opp] in *. rewrite ten_0 in *. assert (IZR z = 1) as Z1 by lra. rewrite Z1, Rabs_pos_eq in H by lra. lra.
Qed.
(** 0 +- 0.999 with 2.5 digits is printed as 0.0 +- 10.0. *)
Lemma C41_deviation_refuted_proof : exists (mu s errdig : R) (sep : str), 0 < s /\ 1 < errdig /\
  ~ exists out M S e vM pM vS pS, format (Fin mu) (Fin s) errdig sep = Ret out /\
    layout out sep (Rltb mu 0) M S e /\ numeral M vM pM /\ numeral S vS pS /\ rounded s (e - Z.of_nat pS) (vS * ten e).
Proof.
  exists 0, (999/1000), (5/2), (lit " "). split; [lra|]. split; [lra|].
  intros (out & M & SS & e & vM & pM & vS & pS & E & L & NM & NS & Rd). rewrite wrong_deviation in E. injection E as <-.
  destruct (read_back (lit "0.0 10.0") false (lit "0.0") (lit "10.0") 0 0 1 10 1 ltac:(left; split; reflexivity) num_0_0 num_10_0 _ _ _ _ _ _ _ _ L NM NS) as (_ & -> & -> & -> & -> & ->).
  destruct Rd as (z & E & H). change (0 - Z.of_nat 1)%Z with (-1)%Z in *. revert E H. evt. intros E H. rewrite Rabs_pos_eq in H by lra. assert (IZR z = 100) as Z1 by lra. rewrite Z1 in H. lra.
Qed.
(** 9.996 +- 0.32 is printed as 10.0 +- 0.32. *)
Lemma C42_carry_refuted_proof : exists (mu s errdig : R) (sep : str), 0 < s /\ covered s errdig /\
  ~ exists out M S e vM pM vS pS, format (Fin mu) (Fin s) errdig sep = Ret out /\
    layout out sep (Rltb mu 0) M S e /\ numeral M vM pM /\ numeral S vS pS /\ pM = pS.
Proof.
  exists (9996/1000), (32/100), 2, (lit " "). split; [lra|]. split; [split; [lra|right; left; exists 2%Z; reflexivity]|].
  intros (out & M & SS & e & vM & pM & vS & pS & E & L & NM & NS & Rd). rewrite wrong_alignment in E. injection E as <-.
  destruct (read_back (lit "10.0 0.32") false (lit "10.0") (lit "0.32") 0 10 1 (32/100) 2 ltac:(left; split; reflexivity) num_10_0 num_0_32 _ _ _ _ _ _ _ _ L NM NS) as (_ & -> & -> & -> & -> & ->).
  discriminate.
Qed.
(** -1.5 +- 0 is printed as 1.50000 +- 0. *)
Lemma C43_no_uncertainty_refuted_proof : exists (mu errdig : R) (sep : str), mu < 0 /\ 1 < errdig /\
  ~ exists M S, format (Fin mu) (Fin 0) errdig sep = Ret (lit "-" ++ M ++ sep ++ S).
Proof.
  exists (- (3/2)), 2, (lit " "). split; [lra|]. split; [lra|]. intros (M & SS & E). rewrite wrong_sign in E. discriminate.
Qed.
(** With 2.5 digits the deviation 0.999 is given three digits, those of ten. *)
Lemma C44_number_of_digits_refuted_proof : exists (mu s errdig : R) (sep : str), 0 < s /\ 1 < errdig /\
  ~ exists out M S e vM pM vS pS n, format (Fin mu) (Fin s) errdig sep = Ret out /\
    layout out sep (Rltb mu 0) M S e /\ numeral M vM pM /\ numeral S vS pS /\
    wanted_digits s errdig n /\ digits vS pS n /\ rounded s (e - Z.of_nat pS) (vS * ten e).
Proof.
  destruct C41_deviation_refuted_proof as (mu & s & errdig & sep & A & B & C). exists mu, s, errdig, sep. split; [exact A|]. split; [exact B|].
  intros (out & M & SS & e & vM & pM & vS & pS & n & D & E & F & G & _ & _ & H). apply C. exists out, M, SS, e, vM, pM, vS, pS. auto.
Qed.
