(** * SpecProb: probability spaces, independent standardized variables and the
    random variable a UReal2 stands for

    A probability space is a set of outcomes with an expectation defined on some class
    of functions; nothing else is needed to speak about moments. *)

From Coq Require Import List ZArith Bool Reals.
From Verif Require Import Base Num Map HessGrad Sums SpecU2.
Import ListNotations.
Local Open Scope R_scope.

(** Linear expectations. *)
Record expect : Type := mkExpect {
  Om : Type;
  int : (Om -> R) -> Prop;
  Ex : (Om -> R) -> R;
  Ex_ext : forall f g, (forall o, f o = g o) -> int f -> int g /\ Ex f = Ex g;
  Ex_const : forall c, int (fun _ => c) /\ Ex (fun _ => c) = c;
  Ex_plus : forall f g, int f -> int g ->
    int (fun o => f o + g o) /\ Ex (fun o => f o + g o) = Ex f + Ex g;
  Ex_scal : forall c f, int f -> int (fun o => c * f o) /\ Ex (fun o => c * f o) = c * Ex f
}.
(** Probability spaces: the expectation of a nonnegative variable is nonnegative. *)
Record prob : Type := mkProb {
  expect_of :> expect;
  Ex_pos : forall f, int expect_of f -> (forall o, 0 <= f o) -> 0 <= Ex expect_of f
}.

Fixpoint rprod {A : Type} (l : list A) (f : A -> R) : R :=
  match l with
  | [] => 1
  | a :: l' => f a * rprod l' f
  end.

(** The variables X_i, i in [ids], are independent and have moments E(X_i^k) = V i k. *)
Definition independent (P : expect) (ids : list Z) (X : Z -> Om P -> R) (V : Z -> nat -> R) : Prop :=
  forall (L : list Z) (k : Z -> nat), NoDup L -> incl L ids -> (forall i, In i L -> (k i <= 8)%nat) ->
    int P (fun o => rprod L (fun i => X i o ^ k i)) /\
    Ex P (fun o => rprod L (fun i => X i o ^ k i)) = rprod L (fun i => V i (k i)).

(** Moments 0, ..., 8 of a standardized variable with the given moments 3, ..., 8. *)
Definition stdmom (m : moms RN) (k : nat) : R :=
  match k with
  | 0%nat => 1 | 1%nat => 0 | 2%nat => 1
  | 3%nat => v3 m | 4%nat => v4 m | 5%nat => v5 m | 6%nat => v6 m | 7%nat => v7 m | 8%nat => v8 m
  | _ => 0
  end.

(** The quadratic polynomial sum_i g_i X_i + sum_ij h_ij X_i X_j. *)
Definition quad {O : Type} (ids : list Z) (g : Z -> R) (h : Z -> Z -> R) (X : Z -> O -> R) (o : O) : R :=
  rsum ids (fun i => g i * X i o) + rsum ids (fun i => rsum ids (fun j => h i j * X i o * X j o)).
