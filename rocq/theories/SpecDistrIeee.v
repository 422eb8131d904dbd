(** * SpecDistrIeee: the distributions of distr.hpp on doubles *)

From Coq Require Import List ZArith Reals.
From Coquelicot Require Import Coquelicot.
From Verif Require Import Base Num UReal HessGrad CheckMoments UReal2 Ieee SpecIeee SpecMathIeee SpecDistr SpecHankel.
Local Open Scope R_scope.

(** The standardized moment of order [k], from 3 to 8, given to a variable. *)
Definition given (m : moms DN) (k : nat) : double :=
  match k with
  | 3%nat => v3 m | 4%nat => v4 m | 5%nat => v5 m | 6%nat => v6 m | 7%nat => v7 m | _ => v8 m
  end.

(** The parameters of a variable describe the distribution with density [f] between [a] and [b], mean
    [mean] and standard deviation [dev], with relative error [es] on the standard deviation and [em] on
    the standardized moments of order 3 to 8. *)
Definition parameters (f : R -> R) (a b : (R -> Prop) -> Prop) (mean dev es em : R) (s : double) (m : moms DN) : Prop :=
  0 < dev /\ average f a b (fun x => x) mean /\ average f a b (fun x => (x - mean) ^ 2) (dev ^ 2) /\
  close es s dev /\
  forall k, (3 <= k <= 8)%nat -> exists c, average f a b (fun x => ((x - mean) / dev) ^ k) c /\ close em (given m k) c.

(** The moments of order 0 to 8 of a standardized variable. *)
Definition moment (m : moms DN) (k : nat) : double :=
  match k with 0%nat => dofZ 1 | 1%nat => dofZ 0 | 2%nat => dofZ 1 | _ => given m k end.
(** The lower triangle, by rows, of the Hankel matrix of the moments mu_0, ..., mu_8. *)
Definition lower_triangle (mu : nat -> double) : list (list double) :=
  map (fun i => map (fun j => mu (i + j)%nat) (seq 0 (S i))) (seq 0 5).
(** A solver that returns the eigenvalues of every Hankel matrix whose first entry is 1, with absolute error
    [e] times a bound of the entries. *)
Definition solver_close (e : R) (eig : list (list double) -> option (list double)) : Prop :=
  forall (mu : nat -> double) (size : R), mu 0%nat = dofZ 1 ->
    (forall k, (k <= 8)%nat -> finite (mu k) /\ Rabs (real_of (mu k)) <= size) -> size <= pow2 1000 ->
    exists lam exact, eig (lower_triangle mu) = Some lam /\ length lam = 5%nat /\
      eigenvalues (hmat (fun k => real_of (mu k))) exact /\
      forall i, (i < 5)%nat -> finite (nth i lam (dofZ 0)) /\ Rabs (real_of (nth i lam (dofZ 0)) - nth i exact 0) <= e * size.
