(** * SpecAcc2: magnitudes and numbers of roundings in a computation on doubles

    The functions of the model are generic in the numeric type.  Run on these types they do
    not compute a result but how large the terms of the computation are and how many
    roundings they go through. *)

From Coq Require Import List ZArith Bool Reals.
From Flocq Require Import Core BinarySingleNaN.
From Verif Require Import Base Num Map HessGrad UReal2 World2 SpecU2 Ieee SpecIeee.
Import ListNotations.
Local Open Scope R_scope.

(** Magnitudes: signs are dropped, differences become sums.  A product which is not zero is
    increased by [eta], the largest error due to underflow. *)
Definition mag (eta : R) : Num := {|
  T := R; n0 := 0; n1 := 1;
  nadd := Rplus; nsub := Rplus;
  nmul := fun a b => if Req_EM_T (a * b) 0 then 0 else a * b + eta;
  ndiv := Rdiv; nopp := fun a => a;
  nltb := Rltb; nleb := Rleb; neqb := Reqb;
  nabs := Rabs; nsqrt := R_sqrt.sqrt; nofZ := fun z => Rabs (IZR z) |}.

(** Numbers of roundings: those of the terms of a sum do not add up, those of the factors of a
    product do.  Integers up to 2^53 are exact. *)
Definition roundings : Num := {|
  T := nat; n0 := 0%nat; n1 := 0%nat;
  nadd := fun a b => S (Nat.max a b); nsub := fun a b => S (Nat.max a b);
  nmul := fun a b => S (a + b); ndiv := fun a b => S (a + b); nopp := fun a => a;
  nltb := Nat.ltb; nleb := Nat.leb; neqb := Nat.eqb;
  nabs := fun a => a; nsqrt := S;
  nofZ := fun z => if (Z.abs z <=? 2 ^ 53)%Z then 0%nat else 1%nat |}.

(** The variable with the same numbers, as real numbers; and as magnitudes. *)
Definition exactly (x : ureal2 DN) : ureal2 RN := u2_convert (N := DN) (M := RN) real_of x.
Definition sized (eta : R) (x : ureal2 DN) : ureal2 (mag eta) := u2_convert (N := DN) (M := mag eta) (fun d : double => Rabs (real_of d)) x.
(** Half of the smallest positive double. *)
Definition tiny : R := pow2 (-1075).

(** [d] approximates [r]; [a] is the size of the terms of [r], [b] the same including what is
    lost by underflow, [k] the number of roundings. *)
Definition approximates (d : double) (r a b : R) (k : nat) : Prop :=
  Rabs r <= a <= b /\ Rabs (real_of d - r) <= (1 + uround) ^ k * b - a.

(** Roundings in the n-th moment of a variable that depends on [i] independent variables, in the
    covariance of variables that depend on [i] and [j], and in the mean. *)
Definition depth (n i : nat) : nat :=
  match n with
  | 1 => i
  | 2 => 7 + 3 * i + i * i
  | 3 => 11 + 4 * i + 15 * i * i + 2 * i * i * i + i * i * i * i
  | _ => 16 + 5 * i + 37 * i * i + 34 * i * i * i + 6 * i * i * i * i
  end.
Definition depth_cov (i j : nat) : nat := 7 + 4 * (i + j) + i * i + j * j + i * j.
Definition depth_mean (i : nat) : nat := i + 2.
Definition n_ids (x : ureal2 DN) : nat := length (diagmap (u2hg x)).

(** The standardized moments stored by [x] for the independent variable [i] are [m]. *)
Definition has_moments (x : ureal2 DN) (i : Z) (m : moms RN) : Prop :=
  forall d p, mfind i (diagmap (u2hg x)) = Some d -> dmom d = Some p -> moms_convert (N := DN) (M := RN) real_of p = m.

(** The numbers stored by a variable, other than the value. *)
Definition numbers (x : ureal2 DN) : list double :=
  flat_map (fun kd : Z * diag DN => let d := snd kd in
    dgrad d :: dhh d :: match dmom d with Some p => [v3 p; v4 p; v5 p; v6 p; v7 p; v8 p] | None => [] end) (diagmap (u2hg x)) ++
  map snd (trimap (u2hg x)).
(** Far from overflow and underflow. *)
Definition moderate (d : double) : Prop := finite d /\ (real_of d = 0 \/ pow2 (-170) <= Rabs (real_of d) <= pow2 150).
Definition ordinary (x : ureal2 DN) : Prop := List.Forall moderate (numbers x) /\ (n_ids x <= 1024)%nat.
