(** * IoProofs4: the properties of format, and the inputs for which they fail *)

From Coq Require Import List ZArith Bool Reals Ascii String Lra Lia.
From Verif Require Import Base Num Io SpecIo IoProofs IoProofs2 IoProofs3.
Import ListNotations.
Local Open Scope R_scope.

(** ** The text can be read in one way *)

Definition numchar (c : ascii) : Prop := is_digit c \/ c = "."%char.
Lemma dot_not_digit : ~ is_digit "."%char.
Proof. unfold is_digit. cbn. lia. Qed.
Lemma numeral_chars s v p : numeral s v p -> s <> [] /\ List.Forall numchar s /\ (exists c r, s = c :: r /\ is_digit c).
Proof.
  intros (I & F & N & DI & DF & _ & -> & _). assert (A : forall l, List.Forall is_digit l -> List.Forall numchar l).
  { intros l H. eapply Forall_impl; [|exact H]. intros; now left. }
  split; [destruct I; [contradiction|discriminate]|]. split.
  - apply Forall_app. split; [auto|]. destruct F; [constructor|]. constructor; [now right|auto].
  - destruct I as [|c I]; [contradiction|]. inversion DI; subst. cbn. eauto.
Qed.

(** Two lists of characters of one kind, each followed by a text that does not start with one. *)
Lemma split_unique (P : ascii -> Prop) a b c d : List.Forall P a -> List.Forall P b ->
  match c with [] => True | x :: _ => ~ P x end -> match d with [] => True | x :: _ => ~ P x end ->
  a ++ c = b ++ d -> a = b /\ c = d.
Proof.
  revert b. induction a as [|x a IH]; intros b Pa Pb Hc Hd E.
  - destruct b as [|y b]; [cbn in *; auto|]. cbn in E. subst c. inversion Pb; subst. contradiction.
  - inversion Pa as [|? ? Px Pa']; subst. destruct b as [|y b].
    + cbn in E. subst d. contradiction.
    + inversion Pb; subst. cbn in E. injection E as -> E. destruct (IH b Pa' H2 Hc Hd E) as [-> ->]. auto.
Qed.

Lemma numeral_unique s v p v' p' : numeral s v p -> numeral s v' p' -> v = v' /\ p = p'.
Proof.
  intros (I & F & N & DI & DF & L & E & V) (I' & F' & N' & DI' & DF' & L' & E' & V').
  rewrite E in E'. apply (split_unique is_digit) in E' as [<- E']; auto.
  - assert (F = F') as <-. { destruct F, F'; try discriminate; [reflexivity|now injection E' as -> ->]. }
    subst. auto.
  - destruct F; [exact Logic.I|apply dot_not_digit].
  - destruct F'; [exact Logic.I|apply dot_not_digit].
Qed.
Lemma exponent_unique x e e' : exponent_text x e -> exponent_text x e' -> e = e'.
Proof. intros (c & D & -> & _ & _ & H) (c' & D' & E & _ & _ & H'). injection E as <- <-. intuition (subst; congruence || lia || discriminate). Qed.

Lemma not_num (c : ascii) : c = "("%char \/ c = ")"%char \/ c = "-"%char -> ~ numchar c.
Proof. intros [->|[->| ->]] [H|H]; try discriminate; unfold is_digit in H; cbn in H; lia. Qed.

Lemma C41_text_unambiguous_proof : forall (out sep : str) (c : ascii) (sep' : str), sep = c :: sep' -> ~ is_digit c -> c <> "."%char ->
  forall neg M S e vM pM vS pS neg' M' S' e' vM' pM' vS' pS',
  layout out sep neg M S e -> numeral M vM pM -> numeral S vS pS ->
  layout out sep neg' M' S' e' -> numeral M' vM' pM' -> numeral S' vS' pS' ->
  neg = neg' /\ M = M' /\ S = S' /\ e = e' /\ vM = vM' /\ pM = pM' /\ vS = vS' /\ pS = pS'.
Proof.
  intros out sep c sep'.
  intros -> Hc1 Hc2 neg M S e vM pM vS pS neg' M' S' e' vM' pM' vS' pS' L NM NS L' NM' NS'.
  assert (Hc : ~ numchar c) by (intros [H|H]; contradiction).
  destruct (numeral_chars _ _ _ NM) as (_ & CM & cm & rm & EM & DM). destruct (numeral_chars _ _ _ NM') as (_ & CM' & cm' & rm' & EM' & DM').
  destruct (numeral_chars _ _ _ NS) as (_ & CS & _). destruct (numeral_chars _ _ _ NS') as (_ & CS' & _).
  assert (Sg : forall (n n' : bool) r r', (if n then ["-"%char] else []) ++ M ++ r = (if n' then ["-"%char] else []) ++ M' ++ r' -> n = n' /\ M ++ r = M' ++ r').
  { intros n n' r r' E. rewrite EM, EM' in *. destruct n, n'; cbn in E; injection E as E1 E2.
    - split; [reflexivity|]. cbn. congruence.
    - exfalso. rewrite <- E1 in DM'. revert DM'. unfold is_digit. cbn. lia.
    - exfalso. rewrite E1 in DM. revert DM. unfold is_digit. cbn. lia.
    - split; [reflexivity|]. cbn. congruence. }
  assert (Pm : forall (n : bool) (m : ascii) rm r r', is_digit m -> (if n then ["-"%char] else []) ++ (m :: rm) ++ r = "("%char :: r' -> False).
  { intros n m rm0 r r' Dm E. destruct n; cbn in E; [discriminate|]. injection E as -> _. revert Dm. unfold is_digit. cbn. lia. }
  enough (neg = neg' /\ M = M' /\ S = S' /\ e = e') as (-> & <- & <- & ->).
  { destruct (numeral_unique _ _ _ _ _ NM NM'), (numeral_unique _ _ _ _ _ NS NS'). auto 10. }
  destruct L as [[-> L]|(x & X & L)], L' as [[-> L']|(x' & X' & L')]; rewrite L in L'; clear L.
  - apply Sg in L' as [-> L']. apply (split_unique numchar) in L' as [-> L']; auto. injection L' as L'. apply app_inv_head in L'. auto.
  - exfalso. rewrite EM in L'. exact (Pm _ _ _ _ _ DM L').
  - exfalso. rewrite EM' in L'. symmetry in L'. exact (Pm _ _ _ _ _ DM' L').
  - cbn [app] in L'. injection L' as L'. apply Sg in L' as [-> L']. apply (split_unique numchar) in L' as [-> L']; auto. injection L' as L'. apply app_inv_head in L'.
    apply (split_unique numchar) in L' as [-> L']; auto; [|apply not_num; auto|apply not_num; auto]. injection L' as ->. rewrite (exponent_unique _ _ _ X X'). auto.
Qed.

(** ** Texts without uncertainty *)

Lemma tostring_digits x : x <> 0 -> exists out, tostring (Fin x) = Ret out /\ six_digits out x.
Proof.
  intro H. assert (D := exponent_decade x H). destruct (mantissa_spec x 6 _ D) as (s & e & E & N & F & R & Dg & C). specialize (Dg ltac:(lia)).
  assert (RS : rounded x (e - 5) (IZR (decimal s) * ten (e - 5))).
  { destruct C as [->|(-> & _ & C & Dd)].
    - replace (exponent x - 5)%Z with (exponent x - 6 + 1)%Z by lia. exact R.
    - rewrite Dd, <- ten_IZR, <- ten_add by lia. replace (6 - 1 + (exponent x + 1 - 5))%Z with (exponent x + 1)%Z by lia.
      replace (exponent x + 1 - 5)%Z with (exponent x + 1 - 6 + 1)%Z by lia. apply carry_rounded; auto; lia. }
  unfold tostring. rewrite iszero_false by exact H. rewrite E. cbn [bind].
  assert (Dd : forall q : Z, (0 <= q <= 5)%Z -> digits (IZR (decimal s) * ten (q - 6 + 1)) (Z.to_nat (6 - 1 - q)) 6).
  { intros q Hq. unfold digits. rewrite <- ten_nat, Rmult_assoc, <- ten_add. replace (q - 6 + 1 + Z.of_nat (Z.to_nat (6 - 1 - q)))%Z with 0%Z by lia.
    rewrite ten_0, Rmult_1_r, !ten_IZR by lia. split; [apply IZR_le|apply IZR_lt]; lia. }
  destruct ((6 <=? e) || (e <? -1))%Z eqn:U.
  - eexists. split; [reflexivity|]. exists (insert_dot s 6 0), e, (IZR (decimal s) * ten (0 - 6 + 1)), (Z.to_nat (6 - 1 - 0)).
    apply orb_true_iff in U. split; [right; exists (format_exp e); split; [apply format_exp_text; lia|reflexivity]|].
    split; [apply insert_dot_numeral; auto; lia|]. split; [apply Dd; lia|]. rewrite Rmult_assoc, <- ten_add.
    replace (0 - 6 + 1 + e)%Z with (e - 5)%Z by lia. exact RS.
  - apply orb_false_iff in U as [U1 U2]. eexists. split; [reflexivity|]. exists (insert_dot s 6 e), 0%Z, (IZR (decimal s) * ten (e - 6 + 1)), (Z.to_nat (6 - 1 - e)).
    split; [left; auto|]. split; [apply insert_dot_numeral; auto; lia|]. rewrite ten_0, Rmult_1_r. split.
    + unfold digits. rewrite <- ten_nat, Rmult_assoc, <- ten_add. replace (e - 6 + 1 + Z.of_nat (Z.to_nat (6 - 1 - e)))%Z with 0%Z by lia.
      rewrite ten_0, Rmult_1_r, !ten_IZR by lia. split; [apply IZR_le|apply IZR_lt]; lia.
    + replace (0 - Z.of_nat (Z.to_nat (6 - 1 - e)))%Z with (e - 5)%Z by lia. replace (e - 6 + 1)%Z with (e - 5)%Z by lia. exact RS.
Qed.
Lemma tostring_returns x : exists out, tostring x = Ret out.
Proof.
  destruct x as [r| | |]; try (eexists; reflexivity). destruct (Req_dec r 0) as [->|H].
  - cbn [tostring]. rewrite (proj2 (iszero 0) eq_refl). eauto.
  - destruct (tostring_digits r H) as (out & E & _). eauto.
Qed.

(** ** C40 *)
Lemma C40_format_partial_proof : forall (mu s : xreal) (errdig : R) (sep : str), (forall r, s = Fin r -> 0 <= r) ->
  (format mu s errdig sep = Throw InvalidArgument <-> errdig <= 1) /\ (1 < errdig -> exists out, format mu s errdig sep = Ret out).
Proof.
  intros mu s errdig sep.
  intro Hs. assert (K : 1 < errdig -> exists out, format mu s errdig sep = Ret out).
  { intro He. destruct (tostring_returns mu) as [a Ea], (tostring_returns s) as [b Eb].
    assert (Q : exists out, (a <- tostring mu;; b <- tostring s;; Ret (a ++ sep ++ b)) = Ret out) by (rewrite Ea, Eb; cbn; eauto).
    unfold format. destruct (Rleb_spec errdig 1); [lra|]. destruct mu as [mu| | |]; try exact Q. destruct s as [s| | |]; try exact Q.
    destruct (Rleb s 0 && Rleb 0 s) eqn:Z; [exact Q|].
    assert (0 < s). { specialize (Hs s eq_refl). destruct (Req_dec s 0) as [E|]; [|lra]. apply iszero in E. rewrite E in Z. discriminate. }
    destruct (ndigits_pos s errdig H He) as (nd & s' & En & Hn & Ps').
    destruct (format_general mu s errdig sep nd s' H He En Hn Ps') as (out & ? & ? & ? & ? & ? & ? & ? & E & _).
    unfold format in E. destruct (Rleb_spec errdig 1); [lra|]. rewrite Z in E. eauto. }
  split; [|exact K]. split.
  - intro E. destruct (Rle_lt_dec errdig 1) as [L|L]; [exact L|]. destruct (K L) as [out E']. rewrite E' in E. discriminate.
  - intro L. unfold format. destruct (Rleb_spec errdig 1); [reflexivity|lra].
Qed.
Lemma C40_errdig_one_refuted_proof : exists errdig : R, ~ errdig < 1 /\ forall mu s sep, format mu s errdig sep = Throw InvalidArgument.
Proof. exists 1. split; [lra|]. intros. unfold format. destruct (Rleb_spec 1 1); [reflexivity|lra]. Qed.

(** ** C41, C42, C44 *)
Lemma C41_format_partial_proof : forall (mu s errdig : R) (sep : str), 0 < s -> covered s errdig ->
  exists out M S e vM pM vS pS, format (Fin mu) (Fin s) errdig sep = Ret out /\
    layout out sep (Rltb mu 0) M S e /\ numeral M vM pM /\ numeral S vS pS /\
    let k := (e - Z.of_nat pS)%Z in
    rounded s k (vS * ten e) /\ (k <> 0%Z \/ e <> 0%Z \/ Rabs mu < 1 \/ no_carry mu k -> rounded mu k (vM * ten e)).
Proof.
  intros mu s errdig sep.
  intros Hs C. destruct (format_text mu s errdig sep Hs C) as (out & M & SS & e & vM & pM & vS & pS & n & A & B & D & E & F & G & H & I & J).
  exists out, M, SS, e, vM, pM, vS, pS. auto 10.
Qed.
Lemma C42_aligned_partial_proof : forall (mu s errdig : R) (sep : str), 0 < s -> covered s errdig ->
  exists out M S e vM pM vS pS, format (Fin mu) (Fin s) errdig sep = Ret out /\
    layout out sep (Rltb mu 0) M S e /\ numeral M vM pM /\ numeral S vS pS /\
    let k := (e - Z.of_nat pS)%Z in
    rounded s k (vS * ten e) /\ (Rabs mu < ten k \/ no_carry mu k -> pM = pS /\ rounded mu k (vM * ten e)).
Proof.
  intros mu s errdig sep.
  intros Hs C. destruct (format_text mu s errdig sep Hs C) as (out & M & SS & e & vM & pM & vS & pS & n & A & B & D & E & F & G & H & I & J).
  exists out, M, SS, e, vM, pM, vS, pS. do 5 (split; [assumption|]). intro Q. split; [exact (I Q)|]. apply J. destruct Q as [Q|Q]; [|auto].
  destruct (Z.eq_dec (e - Z.of_nat pS) 0) as [K|K]; [|auto]. rewrite K, ten_0 in Q. auto.
Qed.
Lemma C44_number_of_digits_partial_proof : forall (mu s errdig : R) (sep : str), 0 < s -> covered s errdig ->
  exists out M S e vM pM vS pS n, format (Fin mu) (Fin s) errdig sep = Ret out /\
    layout out sep (Rltb mu 0) M S e /\ numeral M vM pM /\ numeral S vS pS /\
    wanted_digits s errdig n /\ digits vS pS n /\ rounded s (e - Z.of_nat pS) (vS * ten e).
Proof.
  intros mu s errdig sep.
  intros Hs C. destruct (format_text mu s errdig sep Hs C) as (out & M & SS & e & vM & pM & vS & pS & n & A & B & D & E & F & G & H & I & J).
  exists out, M, SS, e, vM, pM, vS, pS, n. auto 10.
Qed.

(** ** C43 *)
Lemma C43_sign_partial_proof : forall (mu s errdig : R) (sep : str), 0 < s -> 1 < errdig ->
  exists out neg M S e vM pM vS pS, format (Fin mu) (Fin s) errdig sep = Ret out /\ layout out sep neg M S e /\ numeral M vM pM /\ numeral S vS pS /\
    (neg = true <-> mu < 0).
Proof.
  intros mu s errdig sep.
  intros Hs He. destruct (ndigits_pos s errdig Hs He) as (nd & s' & En & Hn & Ps').
  destruct (format_general mu s errdig sep nd s' Hs He En Hn Ps') as (out & M & SS & e & vM & pM & vS & pS & A & B & C & D & _).
  exists out, (Rltb mu 0), M, SS, e, vM, pM, vS, pS. do 4 (split; [assumption|]). destruct (Rltb_spec mu 0) as [H|H]; split; auto; try discriminate; contradiction.
Qed.

(** ** C45 *)
Lemma C45_digit_strings_proof :
  (forall (m : R) (z : Z), Rabs m = IZR z -> exists s, int_mantissa_string m = Ret s /\ s <> [] /\ List.Forall is_digit s /\ decimal s = z /\
     (z = 0%Z -> s = lit "0") /\ ((0 < z)%Z -> (10 ^ (Z.of_nat (List.length s) - 1) <= z)%Z)) /\
  (forall (s : str) (n e : Z), s <> [] -> List.Forall is_digit s -> (e <= n - 1)%Z ->
     numeral (insert_dot s n e) (IZR (decimal s) * ten (e - n + 1)) (Z.to_nat (n - 1 - e))) /\
  (forall e : Z, e <> 0%Z -> exponent_text (format_exp e) e).
Proof.
  split; [|split].
  - intros m z E. destruct (ims_spec m z E) as (s & A & B & C & D & F & G). exists s. do 5 (split; [assumption|]). intro H. apply G. exact H.
  - apply insert_dot_numeral.
  - apply format_exp_text.
Qed.

(** ** C51 *)
Lemma C51_no_uncertainty_proof : forall (errdig : R) (sep : str), 1 < errdig ->
  (forall mu, mu <> 0 -> exists M, six_digits M mu /\ format (Fin mu) (Fin 0) errdig sep = Ret (M ++ sep ++ lit "0")) /\
  format (Fin 0) (Fin 0) errdig sep = Ret (lit "0" ++ sep ++ lit "0") /\
  (forall mu s, (mu = PInf \/ mu = NInf \/ mu = NotNum \/ s = PInf \/ s = NotNum) -> exists M D, format mu s errdig sep = Ret (M ++ sep ++ D) /\
     (forall x t, x = mu /\ t = M \/ x = s /\ t = D -> match x with PInf => t = lit "inf" | NInf => t = lit "-inf" | NotNum => t = lit "nan"
        | Fin r => (r = 0 -> t = lit "0") /\ (r <> 0 -> six_digits t r) end)).
Proof.
  intros errdig sep.
  intro He. assert (Z0 := proj2 (iszero 0) eq_refl). assert (T0 : tostring (Fin 0) = Ret (lit "0")) by (cbn [tostring]; now rewrite Z0).
  assert (G : forall x t, tostring x = Ret t -> match x with PInf => t = lit "inf" | NInf => t = lit "-inf" | NotNum => t = lit "nan"
        | Fin r => (r = 0 -> t = lit "0") /\ (r <> 0 -> six_digits t r) end).
  { intros [r| | |] t E; try (cbn in E; now injection E as <-). split.
    - intros ->. rewrite T0 in E. now injection E as <-.
    - intro N. destruct (tostring_digits r N) as (o & E' & D). rewrite E in E'. now injection E' as ->. }
  split; [|split].
  - intros mu Hm. destruct (tostring_digits mu Hm) as (M & E & D). exists M. split; [exact D|]. unfold format. destruct (Rleb_spec errdig 1); [lra|]. rewrite Z0, E, T0. reflexivity.
  - unfold format. destruct (Rleb_spec errdig 1); [lra|]. rewrite Z0, T0. reflexivity.
  - intros mu s H. destruct (tostring_returns mu) as [a Ea], (tostring_returns s) as [b Eb]. exists a, b. split.
    + assert (Q : (a <- tostring mu;; b <- tostring s;; Ret (a ++ sep ++ b)) = Ret (a ++ sep ++ b)) by (rewrite Ea, Eb; reflexivity).
      unfold format. destruct (Rleb_spec errdig 1); [lra|]. destruct mu; try exact Q. destruct s; try exact Q. exfalso. intuition discriminate.
    + intros x t [[-> ->]|[-> ->]]; apply G; assumption.
Qed.
