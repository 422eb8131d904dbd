(** * SpecCast: casts between numeric types that keep the values *)

From Coq Require Import ZArith.
From Verif Require Import Base Num HessGrad UReal2.

(** The cast commutes with the arithmetic used to compute moments and covariances. *)
Definition keeps_ring {N M : Num} (c : N -> M) : Prop :=
  c n0 = n0 /\ (forall z, c (nofZ z) = nofZ z) /\
  (forall a b, c (nadd a b) = nadd (c a) (c b)) /\
  (forall a b, c (nsub a b) = nsub (c a) (c b)) /\
  (forall a b, c (nmul a b) = nmul (c a) (c b)).
(** And with division by a nonzero number and with the test of equality; the products of
    nonzero numbers are nonzero. *)
Definition keeps_field {N M : Num} (c : N -> M) : Prop :=
  keeps_ring c /\
  (forall a b, neqb b n0 = false -> c (ndiv a b) = ndiv (c a) (c b)) /\
  (forall a b, neqb (c a) (c b) = neqb a b) /\
  (forall a b : N, neqb a n0 = false -> neqb b n0 = false -> neqb (nmul a b) n0 = false).

(** The derivative of [x] with respect to its own id is not zero. *)
Definition varies {N : Num} (x : ureal2 N) : Prop :=
  forall id, u2_indepid x = Ret id -> neqb (dgrad (hg_diag_get (u2hg x) id)) n0 = false.
