(** * SpecAcc5: exact values and sizes of the numbers of a program of +, - and * (C83)

    Independent of the way UReal stores its numbers: values are the linear forms of SpecLin. *)

From Coq Require Import List ZArith Bool Reals.
From Flocq Require Import Core BinarySingleNaN.
From Verif Require Import Base Num UReal World Sums SpecLin Ieee SpecIeee SpecAcc2 SpecAcc3 SpecAcc4.
Import ListNotations.
Local Open Scope R_scope.

(** The exact values: SpecLin on the real numbers. *)
Definition exact_run (cs : list (call DN)) : sworld := spec_run s_init (map exact_ucall cs).

(** Size of a product: [eta] is what an underflow can add to it. *)
Definition times (eta a b : R) : R := if Req_EM_T (a * b) 0 then 0 else a * b + eta.
Definition size_unary (eta : R) (x : lin) (m d : R) : lin :=
  mkLin m (l_dep x) (fun i => times eta (l_coef x i) d).
Definition size_binary (eta : R) (x y : lin) (m dx dy : R) : lin :=
  mkLin m (fun i => l_dep x i \/ l_dep y i) (fun i => times eta dx (l_coef x i) + times eta dy (l_coef y i)).
(** v op= v multiplies the coefficients by the sum of the derivatives *)
Definition size_assign (eta : R) (self : bool) (x y : lin) (m dx dy : R) : lin :=
  if self then size_unary eta x m (dx + dy) else size_binary eta x y m dx dy.

(** Sums of absolute values instead of sums and differences. *)
Definition size_exec (eta : R) (w : sworld) (c : call DN) : sworld :=
  let g := s_var w in
  let m := fun v => l_mean (g v) in
  let size := fun d : double => Rabs (real_of d) in
  match c with
  | CNew v n s => s_set (mkS (s_last w + 1) g) v (lin_fresh (s_last w + 1) (size n) (size s))
  | CConst v n => s_set w v (lin_number (size n))
  | CDefault v => s_set w v (lin_number 0)
  | CCopy v x => s_set w v (g x)
  | CChangeNom v x n => s_set w v (mkLin (size n) (l_dep (g x)) (l_coef (g x)))
  | CNeg v x => s_set w v (size_unary eta (g x) (m x) 1)
  | CAdd v x y | CSub v x y => s_set w v (size_binary eta (g x) (g y) (m x + m y) 1 1)
  | CMul v x y => s_set w v (size_binary eta (g x) (g y) (times eta (m x) (m y)) (m y) (m x))
  | CAddA v x | CSubA v x => s_set w v (size_assign eta (Nat.eqb v x) (g v) (g x) (m v + m x) 1 1)
  | CMulA v x => s_set w v (size_assign eta (Nat.eqb v x) (g v) (g x) (times eta (m v) (m x)) (m x) (m v))
  | _ => w
  end.
Definition size_run (eta : R) (cs : list (call DN)) : sworld := fold_left (size_exec eta) cs s_init.

(** Size of a covariance of two variables whose numbers have [ku] and [kv] roundings. *)
Definition size_cov (eta : R) (last : Z) (ku kv : nat) (x y : lin) : R :=
  sum_ids last (fun i => times eta ((1 + uround) ^ ku * l_coef x i) ((1 + uround) ^ kv * l_coef y i)).
(** Size of the rounding errors of the coefficients of a variable: Euclidean norm. *)
Definition size_error (last : Z) (k : nat) (a b : lin) : R :=
  sqrt (sum_ids last (fun i => ((1 + uround) ^ k * l_coef b i - l_coef a i) * ((1 + uround) ^ k * l_coef b i - l_coef a i))).
