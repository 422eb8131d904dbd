(** * PropsIo: text of a number with uncertainty (C40 - C45, C51)

    Generated from tools/PropsIo.in. *)

From Coq Require Import List ZArith Bool Reals Ascii String Lra Lia.
From Verif Require Import Base Num Io SpecIo IoProofs IoProofs2 IoProofs3 IoProofs4 IoProofs5 IoProofs6 Demo5.
Import ListNotations.
Local Open Scope R_scope.

(** ** C40 *)
@C40_format_partial
@C40_errdig_one_refuted
Example C40_case : (forall r, Fin (34/100) = Fin r -> 0 <= r) /\ format (Fin (-1)) (Fin (34/100)) 2 (lit " pm ") = Ret (lit "-1.00 pm 0.34").
Proof. split; [intros r E; injection E as <-; lra|exact test_24]. Qed.

(** ** C41 *)
@C41_format_partial
@C41_text_unambiguous
@C41_mean_refuted
@C41_deviation_refuted
(** Inputs that satisfy the hypotheses and every condition of the conclusion. *)
Example C41_case : 0 < 34/100 /\ covered (34/100) 2 /\ no_carry (-1) (-2).
Proof.
  split; [lra|]. split; [split; [lra|right; left; exists 2%Z; reflexivity]|].
  intros e D. assert (e = 0%Z) as -> by (apply (decade_unique (-1)); [exact D|dec]). abs. evt. lra.
Qed.
(** A number of digits that is not an integer and not below two. *)
Example C41_case_steady : covered 5 (5/2).
Proof.
  assert (R2 : Rpower 10 (/2) < 4) by (rewrite Rpower_sqrt by lra; replace 4 with (sqrt (4 * 4)) by (apply sqrt_square; lra); apply sqrt_lt_1; lra).
  split; [lra|]. right; right. exists 2%Z, (/2), 0%Z. split; [split; lra|]. split; [dec|]. right. exists 5. split.
  - exists 50%Z. evt. abs. lra.
  - evt. lra.
Qed.

(** Without a condition on the number of digits: if it is not covered, the deviation is
    printed a power of ten too large. *)
@C41_every_case_partial
Example C41_case_uncovered : 0 < 999/1000 /\ 1 < 5/2 /\ ~ covered (999/1000) (5/2).
Proof.
  assert (R2 : 3 < Rpower 10 (/2)) by (rewrite Rpower_sqrt by lra; replace 3 with (sqrt (3 * 3)) by (apply sqrt_square; lra); apply sqrt_lt_1; lra).
  assert (R4 : Rpower 10 (/2) < 4) by (rewrite Rpower_sqrt by lra; replace 4 with (sqrt (4 * 4)) by (apply sqrt_square; lra); apply sqrt_lt_1; lra).
  split; [lra|]. split; [lra|]. intros [_ [H|[[i E]|(i & f & e & [E F] & D & C)]]]; [lra| |].
  - assert (A : IZR 4 < IZR (2 * i) < IZR 6) by (rewrite mult_IZR; lra). destruct A as [A B]. apply lt_IZR in A, B. lia.
  - assert (I2 : i = 2%Z). { assert (A : IZR 1 < IZR i < IZR 3) by lra. destruct A as [A B]. apply lt_IZR in A, B. lia. } subst i.
    assert (f = / 2) as -> by lra. assert (e = (-1)%Z) as -> by (apply (decade_unique (999/1000)); [exact D|dec]).
    destruct C as [C|(v & (z & -> & Hz) & Hv)].
    + revert C. evt. abs. lra.
    + revert Hz Hv. change (-1 - 2 + 1)%Z with (-2)%Z. evt. abs. intros Hz Hv.
      assert (A : IZR 99 < IZR z) by lra. apply lt_IZR in A. assert (B : IZR 100 <= IZR z) by (apply IZR_le; lia). lra.
Qed.

(** ** C42 *)
@C42_aligned_partial
@C42_every_case_partial
@C42_carry_refuted
Example C42_case : format (Fin 2500) (Fin 300) 2 (lit " pm ") = Ret (lit "(2.50 pm 0.30)e+3").
Proof. exact test_58. Qed.
Example C42_case_carry : ten (-2) <= Rabs (9996/1000) /\ ~ no_carry (9996/1000) (-2).
Proof.
  split; [evt; abs; lra|]. intro H. specialize (H 0%Z). assert (D : decade (9996/1000) 0) by dec. specialize (H D). revert H.
  change (0 + 1)%Z with 1%Z. evt. abs. lra.
Qed.

(** ** C43 *)
@C43_sign_partial
@C43_no_uncertainty_refuted
@C43_sign_lost_partial
Example C43_case : format (Fin 0) (Fin (996/100000)) 2 (lit " pm ") = Ret (lit "(0.0 pm 1.0)e-2").
Proof. exact test_45. Qed.

(** ** C44 *)
@C44_number_of_digits_partial
@C44_number_of_digits_refuted
Example C44_case : covered (99/100) (3/2) /\ format (Fin 1) (Fin (99/100)) (3/2) (lit " pm ") = Ret (lit "1.0 pm 1.0").
Proof. split; [split; [lra|left; lra]|exact test_59]. Qed.

(** ** C45 *)
@C45_digit_strings
Example C45_case : Rabs (- IZR 1234) = IZR 1234 /\ List.Forall is_digit (lit "1234") /\ insert_dot (lit "1234") 4 (-2) = lit "0.01234" /\ format_exp (-12) = lit "-12".
Proof. split; [rewrite Rabs_Ropp; apply Rabs_pos_eq; lra|]. split; [digs|]. split; reflexivity. Qed.

(** ** C51 *)
@C51_no_uncertainty
Example C51_case : format (Fin (1234567/100)) (Fin 0) 2 (lit " pm ") = Ret (lit "12345.7 pm 0").
Proof. exact test_28. Qed.
