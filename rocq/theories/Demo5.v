(** * Demo5: texts expected by the unit tests of the repository (/repo/test/format.cpp) *)

From Coq Require Import List ZArith Bool Reals Ascii String Lra Lia.
From Verif Require Import Base Num Io SpecIo IoProofs IoProofs2 IoProofs3 IoProofs4 IoProofs5.
Import ListNotations.
Local Open Scope R_scope.

Ltac start E := unfold format; destruct (Rleb_spec E 1); [lra|]; rewrite ?iszero_false by lra; unfold format_finite.

(** format.cpp 24 *)
Lemma test_24 : format (Fin (-1)) (Fin (34/100)) 2 (lit " pm ") = Ret (lit "-1.00 pm 0.34").
Proof.
  start 2. rewrite ndigits_integer by lra. rewrite iszero_false by lra. rewrite (decade_exponent (34/100) (-1)) by dec. rewrite (decade_exponent (-1) 0) by dec.
  mant 34%Z. cbn -[mantissa Rltb insert_dot]. mant 100%Z. cbn -[mantissa Rltb insert_dot]. destruct (Rltb_spec (-1) 0); [|lra]. reflexivity.
Qed.
(** format.cpp 45 *)
Lemma test_45 : format (Fin 0) (Fin (996/100000)) 2 (lit " pm ") = Ret (lit "(0.0 pm 1.0)e-2").
Proof.
  start 2. rewrite ndigits_integer by lra. rewrite (proj2 (iszero 0) eq_refl). rewrite (decade_exponent (996/100000) (-3)) by dec.
  mant 100%Z. cbn -[mantissa Rltb insert_dot]. rewrite mantissa_zero by lia. cbn -[Rltb insert_dot]. destruct (Rltb_spec 0 0); [lra|]. reflexivity.
Qed.
(** format.cpp 58 *)
Lemma test_58 : format (Fin 2500) (Fin 300) 2 (lit " pm ") = Ret (lit "(2.50 pm 0.30)e+3").
Proof.
  start 2. rewrite ndigits_integer by lra. rewrite iszero_false by lra. rewrite (decade_exponent 300 2) by dec. rewrite (decade_exponent 2500 3) by dec.
  mant 30%Z. cbn -[mantissa Rltb insert_dot]. mant 250%Z. cbn -[mantissa Rltb insert_dot]. destruct (Rltb_spec 2500 0); [lra|]. reflexivity.
Qed.
(** format.cpp 28 *)
Lemma test_28 : format (Fin (1234567/100)) (Fin 0) 2 (lit " pm ") = Ret (lit "12345.7 pm 0").
Proof.
  unfold format. destruct (Rleb_spec 2 1); [lra|]. rewrite (proj2 (iszero 0) eq_refl). unfold tostring. rewrite (proj2 (iszero 0) eq_refl). rewrite iszero_false by lra.
  rewrite (decade_exponent (1234567/100) 4) by dec. mant 123457%Z. reflexivity.
Qed.
(** format.cpp 59: the deviation is rounded up to the next power of ten, and gets one more digit. *)
Lemma test_59 : format (Fin 1) (Fin (99/100)) (3/2) (lit " pm ") = Ret (lit "1.0 pm 1.0").
Proof.
  assert (IF : int_frac (3/2) 1 (/2)) by (split; lra).
  assert (R1 : 1 < Rpower 10 (/2)) by (rewrite <- Rpower_0; apply Rpower_lt; lra).
  assert (R2 : Rpower 10 (/2) < 9) by (rewrite Rpower_sqrt by lra; replace 9 with (sqrt (9 * 9)) by (apply sqrt_square; lra); apply sqrt_lt_1; lra).
  assert (E : ndigits (99/100) (3/2) = (2%Z, 1)).
  { assert (D : decade (99/100) (-1)) by dec. unfold ndigits. rewrite (decade_exponent _ _ D).
    destruct (naive_eq _ (3/2) _ _ _ D IF) as [_ B]. rewrite B; clear B; [|abs; evt; lra].
    assert (Q : int_mantissa (99/100) 1 (-1) * p10 (-1) = 1).
    { unfold int_mantissa. change p10 with ten. rewrite round_pos by (evt; lra). rewrite (rz_unique _ 10); [evt; lra|]. evt; abs; lra. }
    rewrite Q. destruct (Rltb_spec (99/100) 1); [|lra]. assert (D2 : decade 1 0) by dec.
    destruct (naive_eq _ (3/2) _ _ _ D2 IF) as [A _]. rewrite A; [reflexivity|abs; evt; lra]. }
  start (3/2). rewrite E. rewrite iszero_false by lra. rewrite (decade_exponent 1 0) by dec.
  mant 10%Z. cbn -[mantissa Rltb insert_dot]. mant 10%Z. cbn -[mantissa Rltb insert_dot]. destruct (Rltb_spec 1 0); [lra|]. reflexivity.
Qed.
