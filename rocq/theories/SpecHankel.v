(** * SpecHankel: moment sequences and positive semidefinite Hankel matrices *)

From Coq Require Import List ZArith Bool Reals.
From Verif Require Import Base Num HessGrad Moments CheckMoments Sums SpecProb.
Import ListNotations.
Local Open Scope R_scope.

Definition five : list nat := seq 0 5.

(** Value of the quadratic form of a 5x5 matrix. *)
Definition mform (M : nat -> nat -> R) (x : nat -> R) : R :=
  rsum five (fun i => rsum five (fun j => x i * M i j * x j)).
Definition psd (M : nat -> nat -> R) : Prop := forall x, 0 <= mform M x.

(** The Hankel matrix of the moments mu_0, ..., mu_8. *)
Definition hmat (mu : nat -> R) (i j : nat) : R := mu (i + j)%nat.
(** Its lower triangle, by rows. *)
Definition lower (mu : nat -> R) : list (list R) :=
  [[mu 0%nat];
   [mu 1%nat; mu 2%nat];
   [mu 2%nat; mu 3%nat; mu 4%nat];
   [mu 3%nat; mu 4%nat; mu 5%nat; mu 6%nat];
   [mu 4%nat; mu 5%nat; mu 6%nat; mu 7%nat; mu 8%nat]].

(** Central moments 0, ..., 8 of a variable with the given central moments 2, ..., 8. *)
Definition cenmom (c : cmoms RN) (k : nat) : R :=
  match k with
  | 0%nat => 1 | 1%nat => 0 | 2%nat => c2nd c
  | 3%nat => v3 (cnext c) | 4%nat => v4 (cnext c) | 5%nat => v5 (cnext c)
  | 6%nat => v6 (cnext c) | 7%nat => v7 (cnext c) | 8%nat => v8 (cnext c)
  | _ => 0
  end.
(** They are the moments of some variable. *)
Definition moments_of (mu : nat -> R) (P : prob) (Z : Om P -> R) : Prop :=
  forall k, (k <= 8)%nat -> int P (fun o => Z o ^ k) /\ Ex P (fun o => Z o ^ k) = mu k.

(** [v] are the eigenvalues of the symmetric matrix [M]: the rows of an orthogonal
    matrix are the eigenvectors. *)
Definition delta (i j : nat) : R := if Nat.eqb i j then 1 else 0.
Definition eigenvalues (M : nat -> nat -> R) (v : list R) : Prop :=
  length v = 5%nat /\
  exists Q : nat -> nat -> R,
    (forall k l, (k < 5)%nat -> (l < 5)%nat -> rsum five (fun i => Q k i * Q l i) = delta k l) /\
    (forall i j, (i < 5)%nat -> (j < 5)%nat -> rsum five (fun k => Q k i * Q k j) = delta i j) /\
    (forall k i, (k < 5)%nat -> (i < 5)%nat -> rsum five (fun j => M i j * Q k j) = nth k v 0 * Q k i).

Definition smallest (lo : R) (v : list R) : Prop := In lo v /\ forall a, In a v -> lo <= a.
Definition largest (hi : R) (v : list R) : Prop := In hi v /\ forall a, In a v -> a <= hi.

(** A solver that returns the eigenvalues of every Hankel matrix. *)
Definition solver_correct (eig : list (list R) -> option (list R)) : Prop :=
  forall mu, exists lam, eig (lower mu) = Some lam /\ eigenvalues (hmat mu) lam.
