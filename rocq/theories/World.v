(** * World: histories of library calls

    A program that uses the library is modelled by the sequence of the calls it
    makes (whatever control flow chose them).  The state is the id counter
    internal::last_id (impl.hpp 46) and the contents of the program's variables. *)

From Coq Require Import List ZArith Bool.
From Verif Require Import Base Num Map UReal.
Import ListNotations.

Section World.
  Context {N : Num}.

  (** Every variable exists from the start as a default constructed [UReal]. *)
  Record world : Type := mkW { w_last : Z; w_var : nat -> ureal N }.

  Definition w_init : world := mkW 0 (fun _ => u_default).

  Definition upd (f : nat -> ureal N) (v : nat) (x : ureal N) : nat -> ureal N :=
    fun u => if Nat.eqb u v then x else f u.
  Definition w_set (w : world) (v : nat) (x : ureal N) : world :=
    mkW (w_last w) (upd (w_var w) v x).

  (** One library call.  In the calls that take means and derivatives, these are
      arbitrary functions of the means of the operands: this covers math.hpp,
      functions.hpp and user code calling unary/binary/nary directly. *)
  Inductive call : Type :=
  | CNew (v : nat) (n s : N)                              (* v = UReal(n, s) *)
  | CConst (v : nat) (n : N)                              (* v = UReal(n) *)
  | CDefault (v : nat)                                    (* v = UReal() *)
  | CCopy (v x : nat)                                     (* v = x, v = +x *)
  | CChangeNom (v x : nat) (n : N)                        (* v = change_nom(x, n) *)
  | CUnary (v x : nat) (f df : N -> N)                    (* v = unary(x, f(x.n()), df(x.n())) *)
  | CBinary (v x y : nat) (f dfdx dfdy : N -> N -> N)     (* v = binary(x, y, ...) *)
  | CNary (v : nat) (xs : list nat) (f : list N -> N) (dfs : list N -> list N)
                                                          (* v = nary(xs, ...) *)
  | CAssign (v x : nat) (f dfdt dfdx : N -> N -> N)       (* v.binary_assign(x, ...) *)
  | CNeg (v x : nat)                                      (* v = -x *)
  | CAdd (v x y : nat)                                    (* v = x + y *)
  | CSub (v x y : nat)
  | CMul (v x y : nat)
  | CDiv (v x y : nat)
  | CAddA (v x : nat)                                     (* v += x *)
  | CSubA (v x : nat)
  | CMulA (v x : nat)
  | CDivA (v x : nat)
  | CS (v : nat)                                          (* v.s(), non-const *)
  | CVar (v : nat).                                       (* var(v), non-const *)

  Definition assign_result (w : world) (v : nat) (o : outcome (ureal N)) :
    world * outcome unit :=
    match o with
    | Ret x => (w_set w v x, Ret tt)
    | Throw e => (w, Throw e)
    | UB => (w, UB)
    | Assert => (w, Assert)
    end.

  (** The state after the call, and how the call ended. *)
  Definition exec (w : world) (c : call) : world * outcome unit :=
    let g := w_var w in
    match c with
    | CNew v n s =>
        let '(last, o) := u_new (w_last w) n s in
        assign_result (mkW last g) v o
    | CConst v n => (w_set w v (u_const n), Ret tt)
    | CDefault v => (w_set w v u_default, Ret tt)
    | CCopy v x => (w_set w v (u_pos (g x)), Ret tt)
    | CChangeNom v x n => (w_set w v (u_change_nom (g x) n), Ret tt)
    | CUnary v x f df =>
        (w_set w v (u_unary (g x) (f (u_n (g x))) (df (u_n (g x)))), Ret tt)
    | CBinary v x y f dfdx dfdy =>
        let a := u_n (g x) in let b := u_n (g y) in
        assign_result w v (u_binary (g x) (g y) (f a b) (dfdx a b) (dfdy a b))
    | CNary v xs f dfs =>
        let ms := map (fun x => u_n (g x)) xs in
        assign_result w v (u_nary (map g xs) (f ms) (dfs ms))
    | CAssign v x f dfdt dfdx =>
        let a := u_n (g v) in let b := u_n (g x) in
        (w_set w v (u_assign_gen (Nat.eqb v x) (g v) (g x) (f a b) (dfdt a b) (dfdx a b)), Ret tt)
    | CNeg v x => (w_set w v (u_neg (g x)), Ret tt)
    | CAdd v x y => assign_result w v (u_add (g x) (g y))
    | CSub v x y => assign_result w v (u_sub (g x) (g y))
    | CMul v x y => assign_result w v (u_mul (g x) (g y))
    | CDiv v x y => assign_result w v (u_div (g x) (g y))
    | CAddA v x => (w_set w v (u_add_assign (Nat.eqb v x) (g v) (g x)), Ret tt)
    | CSubA v x => (w_set w v (u_sub_assign (Nat.eqb v x) (g v) (g x)), Ret tt)
    | CMulA v x => (w_set w v (u_mul_assign (Nat.eqb v x) (g v) (g x)), Ret tt)
    | CDivA v x => (w_set w v (u_div_assign (Nat.eqb v x) (g v) (g x)), Ret tt)
    | CS v => (w_set w v (snd (u_s_caching (g v))), Ret tt)
    | CVar v => (w_set w v (snd (u_var_caching (g v))), Ret tt)
    end.

  (** A history: exceptions are caught by the program and execution goes on;
      undefined behaviour and failed assertions end it. *)
  Fixpoint run (w : world) (cs : list call) : outcome world :=
    match cs with
    | [] => Ret w
    | c :: cs' =>
        match exec w c with
        | (w', Ret _) => run w' cs'
        | (w', Throw _) => run w' cs'
        | (_, UB) => UB
        | (_, Assert) => Assert
        end
    end.

  Definition is_new (c : call) : bool := match c with CNew _ _ _ => true | _ => false end.
  (** Number of UReal(n, s) constructions attempted. *)
  Definition count_new (cs : list call) : nat := length (filter is_new cs).

  (** The derivative ranges given to nary are long enough: the documented
      precondition of [nary]. *)
  Definition nary_ok (c : call) : Prop :=
    match c with
    | CNary _ xs _ dfs => forall ms, length ms = length xs -> length xs <= length (dfs ms)
    | _ => True
    end.
End World.
Arguments world N : clear implicits.
Arguments call N : clear implicits.
