(** * World2Assign: histories that also call binary_assign of UReal2 *)

From Coq Require Import List ZArith Bool.
From Verif Require Import Base Num Map UReal World HessGrad Moments CheckMoments UReal2 UReal2Self World2.
Import ListNotations.

Section World2Assign.
  Context {N : Num}.
  Variable eig : list (list N) -> option (list N).

  (** A call of a history (World2.v), or ureal2.hpp 906-986: [binary_assign(v, x, f(a, b),
      fx(a, b), ...)] where [a] and [b] are the values of [first_order_n()] of [v] and [x],
      which may be the same object. *)
  Inductive call3 : Type :=
  | F2 (c : call2 N)
  | FAssign (v x : nat) (f fx fy fxx fyy fxy : N -> N -> N).

  (** ureal2.hpp 906-986; the object [v] is modified in place, here it is replaced. *)
  Definition exec3 (w : world2 N) (c : call3) : world2 N * outcome unit :=
    match c with
    | F2 c => exec2 eig w c
    | FAssign v x f fx fy fxx fyy fxy =>
        let a := u2mu (w2_var w v) in let b := u2mu (w2_var w x) in
        assign2 w v (if Nat.eqb v x
                     then u2_self_assign (w2_var w v) (f a b) (fx a b) (fy a b) (fxx a b) (fyy a b) (fxy a b)
                     else u2_binary_assign (w2_var w v) (w2_var w x)
                            (f a b) (fx a b) (fy a b) (fxx a b) (fyy a b) (fxy a b))
    end.
  (** As [run2] (World2.v): an exception is caught and the history goes on. *)
  Fixpoint run3 (w : world2 N) (cs : list call3) : outcome (world2 N) :=
    match cs with
    | [] => Ret w
    | c :: cs' =>
        match exec3 w c with
        | (w', Ret _) => run3 w' cs'
        | (w', Throw _) => run3 w' cs'
        | (_, UB) => UB
        | (_, Assert) => Assert
        end
    end.
End World2Assign.
Arguments call3 N : clear implicits.
