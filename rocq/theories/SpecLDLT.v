(** * SpecLDLT: what Eigen promises about a pivoted LDL^T decomposition

    Eigen documents [LDLT] as P A P^T = L D L^T with L unit lower triangular, D diagonal
    and P the product of the transpositions (k, T k), k = 0, 1, ..., n - 1, applied in this
    order to the rows. *)

From Coq Require Import List Reals.
From Verif Require Import Base Num UReals Sums.
Import ListNotations.
Local Open Scope R_scope.

(** exchange a and b *)
Definition transpose (a b i : nat) : nat :=
  if Nat.eqb i a then b else if Nat.eqb i b then a else i.
(** The row of A that is row [i] of P A. *)
Definition row_of (T : nat -> nat) (n i : nat) : nat :=
  fold_right (fun k r => transpose k (T k) r) i (seq 0 n).

Definition unit_lower (L : nat -> nat -> R) (i k : nat) : R :=
  if Nat.ltb k i then L i k else if Nat.eqb k i then 1 else 0.

(** [d] is a decomposition of the symmetric matrix [A] with nonnegative [D]. *)
Definition decomposes (n : nat) (A : nat -> nat -> R) (d : ldlt RN) : Prop :=
  (forall k, (k < n)%nat -> (ld_T d k < n)%nat) /\
  (forall k, (k < n)%nat -> 0 <= ld_D d k) /\
  (forall i j, (i < n)%nat -> (j < n)%nat ->
     A (row_of (ld_T d) n i) (row_of (ld_T d) n j)
     = rsum (seq 0 n) (fun k => unit_lower (ld_L d) i k * ld_D d k * unit_lower (ld_L d) j k)).
