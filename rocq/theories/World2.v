(** * World2: histories of calls of both classes

    UReal and UReal2 share the id counter internal::last_id (impl.hpp 46), so the
    state of World.v is extended with the variables of type [UReal2].  Calls of
    [binary_assign] on UReal2, which is marked as not finished in the code
    (ureal2.hpp 912), are not part of these histories. *)

From Coq Require Import List ZArith Bool.
From Verif Require Import Base Num Map UReal World HessGrad Moments CheckMoments UReal2.
Import ListNotations.

Section World2.
  Context {N : Num}.
  (** Eigen::SelfAdjointEigenSolver (checkmoments.hpp 62-66). *)
  Variable eig : list (list N) -> option (list N).

  Record world2 : Type := mkW2 { w2_w : world N; w2_var : nat -> ureal2 N }.
  Definition w2_last (w : world2) : Z := w_last (w2_w w).
  Definition w2_init : world2 := mkW2 w_init (fun _ => u2_default).

  Definition upd2 (f : nat -> ureal2 N) (v : nat) (x : ureal2 N) : nat -> ureal2 N :=
    fun u => if Nat.eqb u v then x else f u.

  Inductive call2 : Type :=
  | E1 (c : call N)                                       (* a call of UReal *)
  | ENew (v : nat) (n : N) (m : cmoms N) (thr : N)        (* v = UReal2(n, moments, thr) *)
  | ENewStd (v : nat) (n s : N) (m : moms N) (thr : N)    (* v = UReal2(n, s, std_moments, thr) *)
  | EConst (v : nat) (n : N)                              (* v = UReal2(n) *)
  | EDefault (v : nat)                                    (* v = UReal2() *)
  | ECopy (v x : nat)                                     (* v = x, v = +x *)
  | EUnary (v x : nat) (f f1 f2 : N -> N)                 (* v = unary(x, f(mu), f1(mu), f2(mu)) *)
  | EBinary (v x y : nat) (f fx fy fxx fyy fxy : N -> N -> N)
  | ENeg (v x : nat)
  | EAdd (v x y : nat)
  | ESub (v x y : nat)
  | EMul (v x y : nat)
  | EDiv (v x y : nat).

  Definition set_last (w : world2) (last : Z) : world2 :=
    mkW2 (mkW last (w_var (w2_w w))) (w2_var w).
  Definition assign2 (w : world2) (v : nat) (o : outcome (ureal2 N)) : world2 * outcome unit :=
    match o with
    | Ret x => (mkW2 (w2_w w) (upd2 (w2_var w) v x), Ret tt)
    | Throw e => (w, Throw e)
    | UB => (w, UB)
    | Assert => (w, Assert)
    end.

  Definition exec2 (w : world2) (c : call2) : world2 * outcome unit :=
    let g := w2_var w in
    match c with
    | E1 c => let '(w1, o) := exec (w2_w w) c in (mkW2 w1 g, o)
    | ENew v n m thr =>
        let '(last, o) := u2_new eig (w2_last w) n m thr in assign2 (set_last w last) v o
    | ENewStd v n s m thr =>
        let '(last, o) := u2_new_std eig (w2_last w) n s m thr in assign2 (set_last w last) v o
    | EConst v n => assign2 w v (Ret (u2_const n))
    | EDefault v => assign2 w v (Ret u2_default)
    | ECopy v x => assign2 w v (Ret (u2_pos (g x)))
    | EUnary v x f f1 f2 =>
        let a := u2mu (g x) in assign2 w v (u2_unary (g x) (f a) (f1 a) (f2 a))
    | EBinary v x y f fx fy fxx fyy fxy =>
        let a := u2mu (g x) in let b := u2mu (g y) in
        assign2 w v (u2_binary (g x) (g y) (f a b) (fx a b) (fy a b) (fxx a b) (fyy a b) (fxy a b))
    | ENeg v x => assign2 w v (u2_neg (g x))
    | EAdd v x y => assign2 w v (u2_add (g x) (g y))
    | ESub v x y => assign2 w v (u2_sub (g x) (g y))
    | EMul v x y => assign2 w v (u2_mul (g x) (g y))
    | EDiv v x y => assign2 w v (u2_div (g x) (g y))
    end.

  Fixpoint run2 (w : world2) (cs : list call2) : outcome world2 :=
    match cs with
    | [] => Ret w
    | c :: cs' =>
        match exec2 w c with
        | (w', Ret _) => run2 w' cs'
        | (w', Throw _) => run2 w' cs'
        | (_, UB) => UB
        | (_, Assert) => Assert
        end
    end.

  Definition is_new2 (c : call2) : bool :=
    match c with E1 c => is_new c | ENew _ _ _ _ | ENewStd _ _ _ _ _ => true | _ => false end.
  (** Number of constructions of independent variables attempted. *)
  Definition count_new2 (cs : list call2) : nat := length (filter is_new2 cs).
  Definition nary_ok2 (c : call2) : Prop := match c with E1 c => nary_ok c | _ => True end.
End World2.
Arguments world2 N : clear implicits.
Arguments call2 N : clear implicits.
