(** * SpecIeee2: covariances and correlations on doubles *)

From Coq Require Import List ZArith Reals Bool.
From Verif Require Import Base Num UReal World Ieee SpecIeee.
Import ListNotations.
Local Open Scope R_scope.

(** The independent variables a variable depends on with the coefficients stored for
    them. *)
Definition cells (x : ureal DN) : list (Z * double) :=
  if (0 <? uid x)%Z then [(uid x, usdev x)] else if (uid x <? 0)%Z then usigma x else [].

(** The pairs of coefficients of [x] and [y] for the same independent variable. *)
Definition common (x y : ureal DN) : list (double * double) :=
  flat_map (fun a => map (fun b => (snd a, snd b)) (filter (fun b => (fst a =? fst b)%Z) (cells y))) (cells x).

(** The exact covariance, and the sum of the magnitudes of its terms. *)
Definition sum_prod (l : list (double * double)) : R :=
  fold_right (fun p r => real_of (fst p) * real_of (snd p) + r) 0 l.
Definition sum_abs (l : list (double * double)) : R :=
  fold_right (fun p r => Rabs (real_of (fst p) * real_of (snd p)) + r) 0 l.

Definition finite_pairs (l : list (double * double)) : Prop :=
  List.Forall (fun p => finite (fst p) /\ finite (snd p)) l.
