(** * SpecEst: functions of measurements computed with UReal2 *)

From Coq Require Import List ZArith Bool Reals.
From Verif Require Import Base Num Map UReal World HessGrad Moments CheckMoments UReal2 World2 SpecProb.
Import ListNotations.
Local Open Scope R_scope.

(** Polynomial functions of some variables. *)
Inductive qexp : Type :=
| QVar (v : nat)
| QConst (c : R)
| QNeg (a : qexp)
| QAdd (a b : qexp)
| QSub (a b : qexp)
| QMul (a b : qexp).

Fixpoint qeval (e : qexp) (t : nat -> R) : R :=
  match e with
  | QVar v => t v
  | QConst c => c
  | QNeg a => - qeval a t
  | QAdd a b => qeval a t + qeval b t
  | QSub a b => qeval a t - qeval b t
  | QMul a b => qeval a t * qeval b t
  end.
Fixpoint qdeg (e : qexp) : nat :=
  match e with
  | QVar _ => 1
  | QConst _ => 0
  | QNeg a => qdeg a
  | QAdd a b | QSub a b => Nat.max (qdeg a) (qdeg b)
  | QMul a b => qdeg a + qdeg b
  end.
Fixpoint qvars_below (k : nat) (e : qexp) : Prop :=
  match e with
  | QVar v => (v < k)%nat
  | QConst _ => True
  | QNeg a => qvars_below k a
  | QAdd a b | QSub a b | QMul a b => qvars_below k a /\ qvars_below k b
  end.

(** The same function computed with the operators of UReal2. *)
Fixpoint qcalc (x : nat -> ureal2 RN) (e : qexp) : outcome (ureal2 RN) :=
  match e with
  | QVar v => Ret (x v)
  | QConst c => Ret (u2_const (c : RN))
  | QNeg a => za <- qcalc x a;; u2_neg za
  | QAdd a b => za <- qcalc x a;; zb <- qcalc x b;; u2_add za zb
  | QSub a b => za <- qcalc x a;; zb <- qcalc x b;; u2_sub za zb
  | QMul a b => za <- qcalc x a;; zb <- qcalc x b;; u2_mul za zb
  end.

(** Construction of the results of the measurements 0, ..., k-1: estimates [a],
    standard deviations [s], standardized moments [m]. *)
Definition measure (k : nat) (a s : nat -> R) (m : nat -> moms RN) (thr : nat -> R) : list (call2 RN) :=
  map (fun v => ENewStd v (a v : RN) (s v : RN) (m v) (thr v : RN)) (seq 0 k).

(** Uncorrelated standardized errors. *)
Definition uncorrelated (P : expect) (k : nat) (X : nat -> Om P -> R) : Prop :=
  (forall v, (v < k)%nat -> int P (X v) /\ Ex P (X v) = 0) /\
  forall u v, (u < k)%nat -> (v < k)%nat ->
    int P (fun o => X u o * X v o) /\ Ex P (fun o => X u o * X v o) = if Nat.eqb u v then 1 else 0.
