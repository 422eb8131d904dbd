(** * SpecIeee: what is promised when the numeric type is double *)

From Coq Require Import List ZArith Reals Bool.
From Flocq Require Import Core BinarySingleNaN.
From Verif Require Import Base Num UReal World SpecObs HessGrad World2 Ieee.
Import ListNotations.

(** Histories on doubles: enough derivatives for nary and ids not exhausted.  Nothing is
    required of the numbers: they may be infinite or NaN. *)
Definition dlegal (cs : list (call DN)) : Prop :=
  List.Forall nary_ok cs /\ (count_new cs <= max_new)%nat.
Definition dreachable (w : world DN) : Prop := exists cs, dlegal cs /\ run w_init cs = Ret w.

(** Two ways of writing the same operation: operands of a commutative operation exchanged
    (with the derivatives, for binary), or a compound assignment from another variable
    written out. *)
Inductive rewritten : call DN -> call DN -> Prop :=
| rw_same c : rewritten c c
| rw_add v x y : rewritten (CAdd v x y) (CAdd v y x)
| rw_mul v x y : rewritten (CMul v x y) (CMul v y x)
| rw_binary v x y f fx fy :
    rewritten (CBinary v x y f fx fy) (CBinary v y x (fun b a => f a b) (fun b a => fy a b) (fun b a => fx a b))
| rw_add_assign v x : v <> x -> rewritten (CAddA v x) (CAdd v v x)
| rw_sub_assign v x : v <> x -> rewritten (CSubA v x) (CSub v v x)
| rw_mul_assign v x : v <> x -> rewritten (CMulA v x) (CMul v v x)
| rw_div_assign v x : v <> x -> rewritten (CDivA v x) (CDiv v v x)
| rw_assign v x f ft fx : v <> x -> rewritten (CAssign v x f ft fx) (CBinary v v x f ft fx).

(** A compound assignment from the variable itself: v += v, ... *)
Definition self_assign (c : call DN) : bool :=
  match c with
  | CAssign v x _ _ _ | CAddA v x | CSubA v x | CMulA v x | CDivA v x => Nat.eqb v x
  | _ => false
  end.

(** The real number denoted by a finite double, and rounding to nearest, ties to even. *)
Definition real_of (a : double) : R := B2R a.
Definition nearest (r : R) : R := round radix2 (FLT_exp (-1074) 53) ZnearestE r.
Definition finite (a : double) : Prop := is_finite a = true.
(** not below zero: zero, positive, +infinity or NaN *)
Definition not_negative (a : double) : Prop := Bltb a (B754_zero false) = false.
Definition pow2 (e : Z) : R := bpow radix2 e.

(** The coefficients (derivative times standard deviation) a variable stores, and the exact
    sum of their squares. *)
Definition coefs (x : ureal DN) : list double :=
  if (0 <? uid x)%Z then [usdev x] else if (uid x <? 0)%Z then map snd (usigma x) else [].
Definition sum_sq (l : list double) : R := fold_right (fun c r => (real_of c * real_of c + r)%R) 0%R l.
(** no coefficient is so small that its square underflows *)
Definition no_underflow (l : list double) : Prop :=
  List.Forall (fun c => finite c /\ (real_of c = 0 \/ pow2 (-510) <= Rabs (real_of c))%R) l.
(** the unit roundoff of double *)
Definition uround : R := pow2 (-53).
(** the correctly rounded result does not overflow *)
Definition no_overflow (r : R) : Prop := (Rabs (nearest r) < pow2 1024)%R.
(** a standard deviation which can be squared without overflow or loss by underflow *)
Definition safe_dev (s : double) : Prop :=
  finite s /\ (real_of s = 0 \/ pow2 (-511) <= Rabs (real_of s) <= pow2 511)%R.

(** The arguments of a UReal2 constructor are exactly the mean, the standard deviation and the
    standardized moments of a variable equal to [a] with probability [p] and to [b] otherwise. *)
Definition two_point (p a b : R) (n s : double) (m : moms DN) : Prop :=
  let mu := (p * a + (1 - p) * b)%R in
  let sd := real_of s in
  let std k := ((p * (a - mu) ^ k + (1 - p) * (b - mu) ^ k) / sd ^ k)%R in
  finite n /\ finite s /\ real_of n = mu /\ (0 < sd)%R /\ std 2%nat = 1%R /\
  List.Forall finite [v3 m; v4 m; v5 m; v6 m; v7 m; v8 m] /\
  real_of (v3 m) = std 3%nat /\ real_of (v4 m) = std 4%nat /\ real_of (v5 m) = std 5%nat /\
  real_of (v6 m) = std 6%nat /\ real_of (v7 m) = std 7%nat /\ real_of (v8 m) = std 8%nat.

(** Programs on UReal2 which only add, subtract, change sign, and multiply or divide by
    variables without uncertainty; [K] are the variables used only as numbers. *)
Definition linear2 (K : nat -> bool) (c : call2 DN) : Prop :=
  match c with
  | E1 _ | EConst _ _ | EDefault _ => True
  | ENew v _ _ _ | ENewStd v _ _ _ _ | EAdd v _ _ | ESub v _ _ | ENeg v _ => K v = false
  | ECopy v x => K v = true -> K x = true
  | EMul v x y => K v = false /\ (K x = true \/ K y = true)
  | EDiv v x y => K v = false /\ K y = true
  | EUnary _ _ _ _ _ | EBinary _ _ _ _ _ _ _ _ _ => False
  end.
