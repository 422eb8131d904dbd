(** * SpecShape: deviation, skewness, kurtosis and correlation of UReal2 on doubles (specification for C82) *)

From Coq Require Import List ZArith Reals.
From Verif Require Import Base Num Map UReal2 Ieee SpecIeee SpecAcc2.
Local Open Scope R_scope.

(** The call returns a number, within [e] of [r]. *)
Definition gives (o : outcome DN) (r e : R) : Prop := exists v : double, o = Ret v /\ finite v /\ Rabs (real_of v - r) <= e.
(** The bound of C75 on the error of the moment of order [n], for magnitude [a]. *)
Definition merr (x : ureal2 DN) (n : nat) (a : R) : R := 4 * INR (depth n (n_ids x)) * uround * a.
(** [r] is the moment of order [n] of [x] in exact arithmetic, [e] the bound on the error of m(n). *)
Definition exact_moment (x : ureal2 DN) (n : nat) (r e : R) : Prop :=
  u2_m (exactly x) (Z.of_nat n) = Ret r /\ exists a, u2_m (sized 0 x) (Z.of_nat n) = Ret a /\ e = merr x n a.
(** The variance is not too large or small, and its error is at most one eighth. *)
Definition conditioned (r e : R) : Prop := pow2 (-340) <= r <= pow2 340 /\ e <= r / 8.
(** The relative error of the deviation. *)
Definition dev_err (r e : R) : R := e / r + 2 * uround.
