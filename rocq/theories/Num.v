(** * Num: the template parameter [Real]

    The library is generic in the numeric type.  The model is generic in a
    record of the operations the code uses.  Comparisons are separate boolean
    functions ([<], [<=], [==]) because for floating point numbers they are not
    related by the usual laws. *)

From Coq Require Import ZArith QArith Qabs Reals Bool List.
From Coq Require Import Lra.

Record Num : Type := mkNum {
  T :> Type;
  n0 : T;                       (* Real(0) *)
  n1 : T;                       (* Real(1) *)
  nadd : T -> T -> T;
  nsub : T -> T -> T;
  nmul : T -> T -> T;
  ndiv : T -> T -> T;
  nopp : T -> T;
  nltb : T -> T -> bool;        (* a < b *)
  nleb : T -> T -> bool;        (* a <= b *)
  neqb : T -> T -> bool;        (* a == b *)
  nabs : T -> T;                (* std::abs *)
  nsqrt : T -> T;               (* std::sqrt *)
  nofZ : Z -> T                 (* conversion of an integer literal *)
}.
Arguments n0 {_}.
Arguments n1 {_}.
Arguments nadd {_}.
Arguments nsub {_}.
Arguments nmul {_}.
Arguments ndiv {_}.
Arguments nopp {_}.
Arguments nltb {_}.
Arguments nleb {_}.
Arguments neqb {_}.
Arguments nabs {_}.
Arguments nsqrt {_}.
Arguments nofZ {_}.

Declare Scope num_scope.
Delimit Scope num_scope with num.
Notation "x + y" := (nadd x y) : num_scope.
Notation "x - y" := (nsub x y) : num_scope.
Notation "x * y" := (nmul x y) : num_scope.
Notation "x / y" := (ndiv x y) : num_scope.
Notation "- x" := (nopp x) : num_scope.
Notation "x <? y" := (nltb x y) : num_scope.
Notation "x <=? y" := (nleb x y) : num_scope.
Notation "x =? y" := (neqb x y) : num_scope.

(** ** The reals: the numbers of the theorems *)

Definition Rltb (x y : R) : bool := if Rlt_dec x y then true else false.
Definition Rleb (x y : R) : bool := if Rle_dec x y then true else false.
Definition Reqb (x y : R) : bool := if Req_EM_T x y then true else false.

Canonical Structure RN : Num := {|
  T := R; n0 := 0%R; n1 := 1%R;
  nadd := Rplus; nsub := Rminus; nmul := Rmult; ndiv := Rdiv; nopp := Ropp;
  nltb := Rltb; nleb := Rleb; neqb := Reqb;
  nabs := Rabs; nsqrt := R_sqrt.sqrt; nofZ := IZR |}.

Lemma Rltb_spec x y : Bool.reflect (x < y)%R (Rltb x y).
Proof. unfold Rltb; destruct (Rlt_dec x y); constructor; assumption. Qed.
Lemma Rleb_spec x y : Bool.reflect (x <= y)%R (Rleb x y).
Proof. unfold Rleb; destruct (Rle_dec x y); constructor; assumption. Qed.
Lemma Reqb_spec x y : Bool.reflect (x = y)%R (Reqb x y).
Proof. unfold Reqb; destruct (Req_EM_T x y); constructor; assumption. Qed.

Lemma Rltb_true x y : Rltb x y = true <-> (x < y)%R.
Proof. destruct (Rltb_spec x y); intuition congruence. Qed.
Lemma Rltb_false x y : Rltb x y = false <-> (y <= x)%R.
Proof. destruct (Rltb_spec x y); split; intro; try congruence; lra. Qed.
Lemma Rleb_true x y : Rleb x y = true <-> (x <= y)%R.
Proof. destruct (Rleb_spec x y); intuition congruence. Qed.
Lemma Rleb_false x y : Rleb x y = false <-> (y < x)%R.
Proof. destruct (Rleb_spec x y); split; intro; try congruence; lra. Qed.
Lemma Reqb_true x y : Reqb x y = true <-> x = y.
Proof. destruct (Reqb_spec x y); intuition congruence. Qed.
Lemma Reqb_false x y : Reqb x y = false <-> x <> y.
Proof. destruct (Reqb_spec x y); intuition congruence. Qed.

(** ** Rationals: used to run the model.  The square root is a stub: it is
    only exact on squares of rationals with reduced representation. *)

Definition Qsqrt (q : Q) : Q :=
  let r := Qred q in Qmake (Z.sqrt (Qnum r)) (Pos.sqrt (Qden r)).

Canonical Structure QN : Num := {|
  T := Q; n0 := 0%Q; n1 := 1%Q;
  nadd := fun a b => Qred (Qplus a b); nsub := fun a b => Qred (Qminus a b);
  nmul := fun a b => Qred (Qmult a b); ndiv := fun a b => Qred (Qdiv a b);
  nopp := Qopp;
  nltb := fun a b => negb (Qle_bool b a); nleb := Qle_bool; neqb := Qeq_bool;
  nabs := Qabs; nsqrt := Qsqrt; nofZ := inject_Z |}.
