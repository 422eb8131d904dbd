(** * SpecDistr: distributions with a density *)

From Coq Require Import List ZArith Bool Reals.
From Coquelicot Require Import Coquelicot.
From Verif Require Import Base Num UReal HessGrad CheckMoments UReal2.
Local Open Scope R_scope.

(** The average of [g] under the distribution with density proportional to [f] between
    the ends [a] and [b] is [m]. *)
Definition average (f : R -> R) (a b : (R -> Prop) -> Prop) (g : R -> R) (m : R) : Prop :=
  exists total, 0 < total /\ is_RInt_gen f a b total /\ is_RInt_gen (fun x => g x * f x) a b (m * total).

(** Normal distribution with mean [mu] and standard deviation [sigma], on the real line. *)
Definition minus_infinity : (R -> Prop) -> Prop := Rbar_locally m_infty.
Definition plus_infinity : (R -> Prop) -> Prop := Rbar_locally p_infty.
Definition normal_density (mu sigma x : R) : R := exp (- ((x - mu) / sigma) ^ 2 / 2).
(** Chi-square distribution with [k] degrees of freedom, on the positive numbers. *)
Definition zero_plus : (R -> Prop) -> Prop := at_right 0.
Definition chisquare_density (k x : R) : R := Rpower x (k / 2 - 1) * exp (- x / 2).
(** Uniform distribution, on an interval. *)
Definition uniform_density (x : R) : R := 1.

(** What the queries of a variable say about a distribution with density [f] between [a]
    and [b] and mean [mean]: its value is the mean in both modes and its central moments
    are those of the distribution. *)
Definition describes (f : R -> R) (a b : (R -> Prop) -> Prop) (mean : R) (x : ureal2 RN) : Prop :=
  average f a b (fun t => t) mean /\
  u2_first_order_n x = mean /\ (forall p, u2_n p x = Ret (mean : RN)) /\
  (forall k, (1 <= k <= 4)%nat -> exists c : R, average f a b (fun t => (t - mean) ^ k) c /\ u2_m x (Z.of_nat k) = Ret (c : RN)) /\
  (exists s c3 c4 : R, 0 < s /\ average f a b (fun t => (t - mean) ^ 2) (s ^ 2) /\ u2_s x = Ret (s : RN) /\
     average f a b (fun t => ((t - mean) / s) ^ 3) c3 /\ u2_skew x = Ret (c3 : RN) /\
     average f a b (fun t => ((t - mean) / s) ^ 4) c4 /\ u2_kurt x = Ret (c4 : RN)).
