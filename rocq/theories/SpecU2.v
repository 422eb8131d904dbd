(** * SpecU2: second-order values

    What a [UReal2] stands for: a mean, the set of independent variables it was
    computed from, and the first and second derivatives with respect to them (the
    variables being measured in units of their standard deviations, and the second
    derivatives halved, so that the value is the polynomial
    mean + sum_i g_i x_i + sum_ij h_ij x_i x_j). *)

From Coq Require Import List ZArith Bool Reals.
From Verif Require Import Base Num Map HessGrad UReal2.
Import ListNotations.
Local Open Scope R_scope.

Record jet : Type := mkJ {
  j_mean : R;
  j_dep : Z -> Prop;
  j_g : Z -> R;
  j_h : Z -> Z -> R
}.

(** ** Rules of second-order propagation *)
Definition jet_const (n : R) : jet := mkJ n (fun _ => False) (fun _ => 0) (fun _ _ => 0).
Definition jet_fresh (id : Z) (n s : R) : jet :=
  mkJ n (fun i => i = id) (fun i => if Z.eqb i id then s else 0) (fun _ _ => 0).
(** f(x) with value [f], first derivative [f1] and second derivative [f2] *)
Definition jet_unary (x : jet) (f f1 f2 : R) : jet :=
  mkJ f (j_dep x) (fun i => f1 * j_g x i)
    (fun i j => f1 * j_h x i j + f2 / 2 * (j_g x i * j_g x j)).
(** f(x, y) *)
Definition jet_binary (x y : jet) (f fx fy fxx fyy fxy : R) : jet :=
  mkJ f (fun i => j_dep x i \/ j_dep y i) (fun i => fx * j_g x i + fy * j_g y i)
    (fun i j => fx * j_h x i j + fy * j_h y i j
                + fxx / 2 * (j_g x i * j_g x j) + fyy / 2 * (j_g y i * j_g y j)
                + fxy / 2 * (j_g x i * j_g y j + j_g x j * j_g y i)).

(** ** What is stored in a variable *)
Definition jet_of (x : ureal2 RN) : jet :=
  mkJ (u2mu x)
    (fun i => In i (map fst (diagmap (u2hg x))))
    (fun i => match mfind i (diagmap (u2hg x)) with Some d => dgrad d | None => 0 end)
    (fun i j => if Z.eqb i j
                then match mfind i (diagmap (u2hg x)) with Some d => dhh d | None => 0 end
                else match mfind (Z.min i j, Z.max i j) (trimap (u2hg x)) with Some h => h | None => 0 end).

(** Equality of values. *)
Definition jet_eq (a b : jet) : Prop :=
  j_mean a = j_mean b /\ (forall i, j_dep a i <-> j_dep b i) /\
  (forall i, j_g a i = j_g b i) /\ (forall i j, j_h a i j = j_h b i j).
(** Equality apart from the mixed second derivatives. *)
Definition jet_eq_diag (a b : jet) : Prop :=
  j_mean a = j_mean b /\ (forall i, j_dep a i <-> j_dep b i) /\
  (forall i, j_g a i = j_g b i) /\ (forall i, j_h a i i = j_h b i i).

(** The value depends on at most one independent variable. *)
Definition single (a : jet) : Prop := forall i j, j_dep a i -> j_dep a j -> i = j.
