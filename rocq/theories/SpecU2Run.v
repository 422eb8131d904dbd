(** * SpecU2Run: histories and states the theorems on UReal2 speak about *)

From Coq Require Import List ZArith Bool Reals.
From Verif Require Import Base Num Map UReal World SpecObs HessGrad Moments CheckMoments UReal2 World2 SpecU2.
Import ListNotations.

(** The threshold of the moment check is not a NaN. *)
Definition thr_number {N : Num} (c : call2 N) : Prop :=
  match c with
  | ENew _ _ _ thr | ENewStd _ _ _ _ thr => nltb thr n0 = false -> nleb n0 thr = true
  | _ => True
  end.

(** Histories that respect the documented preconditions. *)
Definition legal2 {N : Num} (cs : list (call2 N)) : Prop :=
  List.Forall nary_ok2 cs /\ List.Forall thr_number cs /\ (count_new2 cs <= max_new)%nat.

Definition reachable2 {N : Num} (eig : list (list N) -> option (list N)) (w : world2 N) : Prop :=
  exists cs, legal2 cs /\ run2 eig w2_init cs = Ret w.

(** The id reported by the variable a construction was assigned to. *)
Definition new_id {N : Num} (w : world2 N) (c : call2 N) : outcome Z :=
  match c with
  | E1 (CNew v _ _) => u_indepid (w_var (w2_w w) v)
  | ENew v _ _ _ | ENewStd v _ _ _ _ => u2_indepid (w2_var w v)
  | _ => UB
  end.

(** ** Sums, differences and products of second-order polynomials *)
Local Open Scope R_scope.
Definition jet_neg (x : jet) : jet :=
  mkJ (- j_mean x) (j_dep x) (fun i => - j_g x i) (fun i j => - j_h x i j).
Definition jet_add (x y : jet) : jet :=
  mkJ (j_mean x + j_mean y) (fun i => j_dep x i \/ j_dep y i)
    (fun i => j_g x i + j_g y i) (fun i j => j_h x i j + j_h y i j).
Definition jet_sub (x y : jet) : jet :=
  mkJ (j_mean x - j_mean y) (fun i => j_dep x i \/ j_dep y i)
    (fun i => j_g x i - j_g y i) (fun i j => j_h x i j - j_h y i j).
(** product of the polynomials, without the terms of degree 3 and 4 *)
Definition jet_mul (x y : jet) : jet :=
  mkJ (j_mean x * j_mean y) (fun i => j_dep x i \/ j_dep y i)
    (fun i => j_mean x * j_g y i + j_mean y * j_g x i)
    (fun i j => j_mean x * j_h y i j + j_mean y * j_h x i j
                + (j_g x i * j_g y j + j_g x j * j_g y i) / 2).

(** ** Calls on second-order values *)

(** The variable assigned and the value it gets, for a call that does not throw; [g]
    are the values of the variables and [last] the number of ids issued so far. *)
Definition jet_call (g : nat -> jet) (last : Z) (c : call2 RN) : option (nat * jet) :=
  let m := fun v => j_mean (g v) in
  match c with
  | E1 _ => None
  | ENew v n p _ => Some (v, jet_fresh (last + 1) n (sqrt (c2nd p)))
  | ENewStd v n s _ _ => Some (v, jet_fresh (last + 1) n s)
  | EConst v n => Some (v, jet_const n)
  | EDefault v => Some (v, jet_const 0)
  | ECopy v x => Some (v, g x)
  | EUnary v x f f1 f2 => Some (v, jet_unary (g x) (f (m x)) (f1 (m x)) (f2 (m x)))
  | EBinary v x y f fx fy fxx fyy fxy =>
      Some (v, jet_binary (g x) (g y) (f (m x) (m y)) (fx (m x) (m y)) (fy (m x) (m y))
                 (fxx (m x) (m y)) (fyy (m x) (m y)) (fxy (m x) (m y)))
  | ENeg v x => Some (v, jet_neg (g x))
  | EAdd v x y => Some (v, jet_add (g x) (g y))
  | ESub v x y => Some (v, jet_sub (g x) (g y))
  | EMul v x y => Some (v, jet_mul (g x) (g y))
  | EDiv v x y =>
      Some (v, jet_binary (g x) (g y) (m x / m y) (/ m y) (- m x / m y ^ 2) 0 (2 * m x / m y ^ 3) (- / m y ^ 2))
  end.

(** Calls whose mixed second derivatives are propagated (see C27): no pure second
    derivative with respect to an operand that depends on more than one variable. *)
Definition jet_covered (g : nat -> jet) (c : call2 RN) : Prop :=
  let m := fun v => j_mean (g v) in
  match c with
  | EUnary _ x _ _ f2 => f2 (m x) = 0 \/ single (g x)
  | EBinary _ x y _ _ _ fxx fyy _ =>
      (fxx (m x) (m y) = 0 \/ single (g x)) /\ (fyy (m x) (m y) = 0 \/ single (g y))
  | EDiv _ x y => m x = 0 \/ single (g y)
  | _ => True
  end.

(** ** The same program with UReal in place of UReal2 *)
Definition first_call (c : call2 RN) : call RN :=
  match c with
  | E1 c => c
  | ENew v n p _ => CNew v n (sqrt (c2nd p))
  | ENewStd v n s _ _ => CNew v n s
  | EConst v n => CConst v n
  | EDefault v => CDefault v
  | ECopy v x => CCopy v x
  | EUnary v x f f1 _ => CUnary v x f f1
  | EBinary v x y f fx fy _ _ _ => CBinary v x y f fx fy
  | ENeg v x => CNeg v x
  | EAdd v x y => CAdd v x y
  | ESub v x y => CSub v x y
  | EMul v x y => CMul v x y
  | EDiv v x y => CDiv v x y
  end.
Definition only2 (c : call2 RN) : Prop := match c with E1 _ => False | _ => True end.

(** No call of the history throws. *)
Fixpoint accepted (eig : list (list RN) -> option (list RN)) (w : world2 RN) (cs : list (call2 RN)) : Prop :=
  match cs with
  | [] => True
  | c :: cs' => snd (exec2 eig w c) = Ret tt /\ accepted eig (fst (exec2 eig w c)) cs'
  end.
