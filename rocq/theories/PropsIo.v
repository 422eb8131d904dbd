(** * PropsIo: text of a number with uncertainty (C40 - C45, C51)

    Generated from tools/PropsIo.in. *)

From Coq Require Import List ZArith Bool Reals Ascii String Lra Lia.
From Verif Require Import Base Num Io SpecIo IoProofs IoProofs2 IoProofs3 IoProofs4 IoProofs5 IoProofs6 Demo5.
Import ListNotations.
Local Open Scope R_scope.

(** ** C40 *)
Theorem C40_format_partial : forall (mu s : xreal) (errdig : R) (sep : str), (forall r, s = Fin r -> 0 <= r) ->
  (format mu s errdig sep = Throw InvalidArgument <-> errdig <= 1) /\ (1 < errdig -> exists out, format mu s errdig sep = Ret out).
Proof. exact C40_format_partial_proof. Qed.
Print Assumptions C40_format_partial.
Theorem C40_errdig_one_refuted : exists errdig : R, ~ errdig < 1 /\ forall mu s sep, format mu s errdig sep = Throw InvalidArgument.
Proof. exact C40_errdig_one_refuted_proof. Qed.
Print Assumptions C40_errdig_one_refuted.
Example C40_case : (forall r, Fin (34/100) = Fin r -> 0 <= r) /\ format (Fin (-1)) (Fin (34/100)) 2 (lit " pm ") = Ret (lit "-1.00 pm 0.34").
Proof. split; [intros r E; injection E as <-; lra|exact test_24]. Qed.

(** ** C41 *)
Theorem C41_format_partial : forall (mu s errdig : R) (sep : str), 0 < s -> covered s errdig ->
  exists out M S e vM pM vS pS, format (Fin mu) (Fin s) errdig sep = Ret out /\
    layout out sep (Rltb mu 0) M S e /\ numeral M vM pM /\ numeral S vS pS /\
    let k := (e - Z.of_nat pS)%Z in
    rounded s k (vS * ten e) /\ (k <> 0%Z \/ e <> 0%Z \/ Rabs mu < 1 \/ no_carry mu k -> rounded mu k (vM * ten e)).
Proof. exact C41_format_partial_proof. Qed.
Print Assumptions C41_format_partial.
Theorem C41_text_unambiguous : forall (out sep : str) (c : ascii) (sep' : str), sep = c :: sep' -> ~ is_digit c -> c <> "."%char ->
  forall neg M S e vM pM vS pS neg' M' S' e' vM' pM' vS' pS',
  layout out sep neg M S e -> numeral M vM pM -> numeral S vS pS ->
  layout out sep neg' M' S' e' -> numeral M' vM' pM' -> numeral S' vS' pS' ->
  neg = neg' /\ M = M' /\ S = S' /\ e = e' /\ vM = vM' /\ pM = pM' /\ vS = vS' /\ pS = pS'.
Proof. exact C41_text_unambiguous_proof. Qed.
Print Assumptions C41_text_unambiguous.
Theorem C41_mean_refuted : exists (mu s errdig : R) (sep : str), 0 < s /\ covered s errdig /\
  ~ exists out M S e vM pM vS pS, format (Fin mu) (Fin s) errdig sep = Ret out /\
    layout out sep (Rltb mu 0) M S e /\ numeral M vM pM /\ numeral S vS pS /\ rounded mu (e - Z.of_nat pS) (vM * ten e).
Proof. exact C41_mean_refuted_proof. Qed.
Print Assumptions C41_mean_refuted.
Theorem C41_deviation_refuted : exists (mu s errdig : R) (sep : str), 0 < s /\ 1 < errdig /\
  ~ exists out M S e vM pM vS pS, format (Fin mu) (Fin s) errdig sep = Ret out /\
    layout out sep (Rltb mu 0) M S e /\ numeral M vM pM /\ numeral S vS pS /\ rounded s (e - Z.of_nat pS) (vS * ten e).
Proof. exact C41_deviation_refuted_proof. Qed.
Print Assumptions C41_deviation_refuted.
(** Inputs that satisfy the hypotheses and every condition of the conclusion. *)
Example C41_case : 0 < 34/100 /\ covered (34/100) 2 /\ no_carry (-1) (-2).
Proof.
  split; [lra|]. split; [split; [lra|right; left; exists 2%Z; reflexivity]|].
  intros e D. assert (e = 0%Z) as -> by (apply (decade_unique (-1)); [exact D|dec]). abs. evt. lra.
Qed.
(** A number of digits that is not an integer and not below two. *)
Example C41_case_steady : covered 5 (5/2).
Proof.
  assert (R2 : Rpower 10 (/2) < 4) by (rewrite Rpower_sqrt by lra; replace 4 with (sqrt (4 * 4)) by (apply sqrt_square; lra); apply sqrt_lt_1; lra).
  split; [lra|]. right; right. exists 2%Z, (/2), 0%Z. split; [split; lra|]. split; [dec|]. right. exists 5. split.
  - exists 50%Z. evt. abs. lra.
  - evt. lra.
Qed.

(** Without a condition on the number of digits: if it is not covered, the deviation is
    printed a power of ten too large. *)
Theorem C41_every_case_partial : forall (mu s errdig : R) (sep : str), 0 < s -> 1 < errdig ->
  exists out M S e vM pM vS pS, format (Fin mu) (Fin s) errdig sep = Ret out /\
    layout out sep (Rltb mu 0) M S e /\ numeral M vM pM /\ numeral S vS pS /\
    (covered s errdig -> rounded s (e - Z.of_nat pS) (vS * ten e)) /\
    (~ covered s errdig -> exists i f es v, int_frac errdig i f /\ (2 <= i)%Z /\ decade s es /\
       rounded s (es - i + 1) v /\ vS * ten e = ten (i - 1) * v /\ digits vS pS (i + 1)).
Proof. exact C41_every_case_partial_proof. Qed.
Print Assumptions C41_every_case_partial.
Example C41_case_uncovered : 0 < 999/1000 /\ 1 < 5/2 /\ ~ covered (999/1000) (5/2).
Proof.
  assert (R2 : 3 < Rpower 10 (/2)) by (rewrite Rpower_sqrt by lra; replace 3 with (sqrt (3 * 3)) by (apply sqrt_square; lra); apply sqrt_lt_1; lra).
  assert (R4 : Rpower 10 (/2) < 4) by (rewrite Rpower_sqrt by lra; replace 4 with (sqrt (4 * 4)) by (apply sqrt_square; lra); apply sqrt_lt_1; lra).
  split; [lra|]. split; [lra|]. intros [_ [H|[[i E]|(i & f & e & [E F] & D & C)]]]; [lra| |].
  - assert (A : IZR 4 < IZR (2 * i) < IZR 6) by (rewrite mult_IZR; lra). destruct A as [A B]. apply lt_IZR in A, B. lia.
  - assert (I2 : i = 2%Z). { assert (A : IZR 1 < IZR i < IZR 3) by lra. destruct A as [A B]. apply lt_IZR in A, B. lia. } subst i.
    assert (f = / 2) as -> by lra. assert (e = (-1)%Z) as -> by (apply (decade_unique (999/1000)); [exact D|dec]).
    destruct C as [C|(v & (z & -> & Hz) & Hv)].
    + revert C. evt. abs. lra.
    + revert Hz Hv. change (-1 - 2 + 1)%Z with (-2)%Z. evt. abs. intros Hz Hv.
      assert (A : IZR 99 < IZR z) by lra. apply lt_IZR in A. assert (B : IZR 100 <= IZR z) by (apply IZR_le; lia). lra.
Qed.

(** ** C42 *)
Theorem C42_aligned_partial : forall (mu s errdig : R) (sep : str), 0 < s -> covered s errdig ->
  exists out M S e vM pM vS pS, format (Fin mu) (Fin s) errdig sep = Ret out /\
    layout out sep (Rltb mu 0) M S e /\ numeral M vM pM /\ numeral S vS pS /\
    let k := (e - Z.of_nat pS)%Z in
    rounded s k (vS * ten e) /\ (Rabs mu < ten k \/ no_carry mu k -> pM = pS /\ rounded mu k (vM * ten e)).
Proof. exact C42_aligned_partial_proof. Qed.
Print Assumptions C42_aligned_partial.
Theorem C42_every_case_partial : forall (mu s errdig : R) (sep : str), 0 < s -> 1 < errdig ->
  exists out M S e vM pM vS pS, format (Fin mu) (Fin s) errdig sep = Ret out /\
    layout out sep (Rltb mu 0) M S e /\ numeral M vM pM /\ numeral S vS pS /\
    let k := (e - Z.of_nat pS)%Z in
    (Rabs mu < ten k \/ no_carry mu k -> pM = pS /\ rounded mu k (vM * ten e)) /\
    (ten k <= Rabs mu -> ~ no_carry mu k ->
       (pS = (pM + 1)%nat /\ rounded mu k (vM * ten e)) \/
       (pM = 0%nat /\ pS = 0%nat /\ e = 0%Z /\ 1 <= vM /\ rounded mu k (10 * vM))).
Proof. exact C42_every_case_partial_proof. Qed.
Print Assumptions C42_every_case_partial.
Theorem C42_carry_refuted : exists (mu s errdig : R) (sep : str), 0 < s /\ covered s errdig /\
  ~ exists out M S e vM pM vS pS, format (Fin mu) (Fin s) errdig sep = Ret out /\
    layout out sep (Rltb mu 0) M S e /\ numeral M vM pM /\ numeral S vS pS /\ pM = pS.
Proof. exact C42_carry_refuted_proof. Qed.
Print Assumptions C42_carry_refuted.
Example C42_case : format (Fin 2500) (Fin 300) 2 (lit " pm ") = Ret (lit "(2.50 pm 0.30)e+3").
Proof. exact test_58. Qed.
Example C42_case_carry : ten (-2) <= Rabs (9996/1000) /\ ~ no_carry (9996/1000) (-2).
Proof.
  split; [evt; abs; lra|]. intro H. specialize (H 0%Z). assert (D : decade (9996/1000) 0) by dec. specialize (H D). revert H.
  change (0 + 1)%Z with 1%Z. evt. abs. lra.
Qed.

(** ** C43 *)
Theorem C43_sign_partial : forall (mu s errdig : R) (sep : str), 0 < s -> 1 < errdig ->
  exists out neg M S e vM pM vS pS, format (Fin mu) (Fin s) errdig sep = Ret out /\ layout out sep neg M S e /\ numeral M vM pM /\ numeral S vS pS /\
    (neg = true <-> mu < 0).
Proof. exact C43_sign_partial_proof. Qed.
Print Assumptions C43_sign_partial.
Theorem C43_no_uncertainty_refuted : exists (mu errdig : R) (sep : str), mu < 0 /\ 1 < errdig /\
  ~ exists M S, format (Fin mu) (Fin 0) errdig sep = Ret (lit "-" ++ M ++ sep ++ S).
Proof. exact C43_no_uncertainty_refuted_proof. Qed.
Print Assumptions C43_no_uncertainty_refuted.
Theorem C43_sign_lost_partial : forall (mu errdig : R) (s : xreal) (sep : str), s = Fin 0 \/ s = PInf \/ s = NotNum ->
  format (Fin mu) s errdig sep = format (Fin (- mu)) s errdig sep.
Proof. exact C43_sign_lost_partial_proof. Qed.
Print Assumptions C43_sign_lost_partial.
Example C43_case : format (Fin 0) (Fin (996/100000)) 2 (lit " pm ") = Ret (lit "(0.0 pm 1.0)e-2").
Proof. exact test_45. Qed.

(** ** C44 *)
Theorem C44_number_of_digits_partial : forall (mu s errdig : R) (sep : str), 0 < s -> covered s errdig ->
  exists out M S e vM pM vS pS n, format (Fin mu) (Fin s) errdig sep = Ret out /\
    layout out sep (Rltb mu 0) M S e /\ numeral M vM pM /\ numeral S vS pS /\
    wanted_digits s errdig n /\ digits vS pS n /\ rounded s (e - Z.of_nat pS) (vS * ten e).
Proof. exact C44_number_of_digits_partial_proof. Qed.
Print Assumptions C44_number_of_digits_partial.
Theorem C44_number_of_digits_refuted : exists (mu s errdig : R) (sep : str), 0 < s /\ 1 < errdig /\
  ~ exists out M S e vM pM vS pS n, format (Fin mu) (Fin s) errdig sep = Ret out /\
    layout out sep (Rltb mu 0) M S e /\ numeral M vM pM /\ numeral S vS pS /\
    wanted_digits s errdig n /\ digits vS pS n /\ rounded s (e - Z.of_nat pS) (vS * ten e).
Proof. exact C44_number_of_digits_refuted_proof. Qed.
Print Assumptions C44_number_of_digits_refuted.
Example C44_case : covered (99/100) (3/2) /\ format (Fin 1) (Fin (99/100)) (3/2) (lit " pm ") = Ret (lit "1.0 pm 1.0").
Proof. split; [split; [lra|left; lra]|exact test_59]. Qed.

(** ** C45 *)
Theorem C45_digit_strings :
  (forall (m : R) (z : Z), Rabs m = IZR z -> exists s, int_mantissa_string m = Ret s /\ s <> [] /\ List.Forall is_digit s /\ decimal s = z /\
     (z = 0%Z -> s = lit "0") /\ ((0 < z)%Z -> (10 ^ (Z.of_nat (List.length s) - 1) <= z)%Z)) /\
  (forall (s : str) (n e : Z), s <> [] -> List.Forall is_digit s -> (e <= n - 1)%Z ->
     numeral (insert_dot s n e) (IZR (decimal s) * ten (e - n + 1)) (Z.to_nat (n - 1 - e))) /\
  (forall e : Z, e <> 0%Z -> exponent_text (format_exp e) e).
Proof. exact C45_digit_strings_proof. Qed.
Print Assumptions C45_digit_strings.
Example C45_case : Rabs (- IZR 1234) = IZR 1234 /\ List.Forall is_digit (lit "1234") /\ insert_dot (lit "1234") 4 (-2) = lit "0.01234" /\ format_exp (-12) = lit "-12".
Proof. split; [rewrite Rabs_Ropp; apply Rabs_pos_eq; lra|]. split; [digs|]. split; reflexivity. Qed.

(** ** C51 *)
Theorem C51_no_uncertainty : forall (errdig : R) (sep : str), 1 < errdig ->
  (forall mu, mu <> 0 -> exists M, six_digits M mu /\ format (Fin mu) (Fin 0) errdig sep = Ret (M ++ sep ++ lit "0")) /\
  format (Fin 0) (Fin 0) errdig sep = Ret (lit "0" ++ sep ++ lit "0") /\
  (forall mu s, (mu = PInf \/ mu = NInf \/ mu = NotNum \/ s = PInf \/ s = NotNum) -> exists M D, format mu s errdig sep = Ret (M ++ sep ++ D) /\
     (forall x t, x = mu /\ t = M \/ x = s /\ t = D -> match x with PInf => t = lit "inf" | NInf => t = lit "-inf" | NotNum => t = lit "nan"
        | Fin r => (r = 0 -> t = lit "0") /\ (r <> 0 -> six_digits t r) end)).
Proof. exact C51_no_uncertainty_proof. Qed.
Print Assumptions C51_no_uncertainty.
Example C51_case : format (Fin (1234567/100)) (Fin 0) 2 (lit " pm ") = Ret (lit "12345.7 pm 0").
Proof. exact test_28. Qed.
