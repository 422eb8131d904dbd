(** * FunEff: functions.hpp with user functions that have side effects and throw

    Functions.v takes the std::function arguments of the factories to be total and
    without side effects.  Here they can do anything: modify variables, construct new
    ones, call the library, keep a state of their own (in the type of exceptions or
    in variables), throw.  [X] is the type of their exceptions.

    C++ does not say in which order the arguments of a call are evaluated:
    [unary(x, f(x.n()), df(x.n()))] may call df before f.  Where the code does that the
    order is an argument of the model, any permutation; where it stores the values
    in named constants the calls are made in the order of the statements. *)

From Coq Require Import List ZArith Bool.
From Verif Require Import Base Num UReal World HessGrad UReal2 World2.
Import ListNotations.

Section FunEff.
  Context {N : Num} {X : Type}.
  Local Open Scope num_scope.

  (** A user function is identified by its position among the arguments of the factory;
      called in a state with some arguments it leaves a state and returns or throws. *)
  Definition user : Type := nat -> list N -> world2 N -> world2 N * (N + X).
  (** The calls of user functions made. *)
  Definition log : Type := list (nat * list N).
  (** Position of the function and arguments, which are read when the call is made
      (n() and first_order_n() return references). *)
  Definition query : Type := (nat * (world2 N -> list N))%type.

  (** The queries in the order [ord]; stops at the first exception.  The function
      returned gives the answer to the query at each position. *)
  Fixpoint ask_all (U : user) (qs : list query) (ord : list nat) (a : nat -> N) (w : world2 N) (l : log) :
    (world2 N * log) * ((nat -> N) + X) :=
    match ord with
    | [] => ((w, l), inl a)
    | j :: ord' =>
        match nth_error qs j with
        | None => ask_all U qs ord' a w l
        | Some (i, args) =>
            let p := args w in
            match U i p w with
            | (w', inl r) => ask_all U qs ord' (fun k => if Nat.eqb k j then r else a k) w' (l ++ [(i, p)])
            | (w', inr e) => ((w', l ++ [(i, p)]), inr e)
            end
        end
    end.

  (** A call [v = g(x)] or [v = g(x, y)], [g] the function returned by a factory.
      [ord] is the order of evaluation of the arguments, where it is not specified. *)
  Inductive fcall : Type :=
  | GUnary (ord : list nat) (v x : nat)                 (* uunary(f, df) *)
  | GBinary (ord : list nat) (v x y : nat)              (* ubinary(f, dfdx, dfdy) *)
  | GUnaryStep (v x : nat) (step : N)                   (* uunary(f, step) *)
  | GBinaryStep (v x y : nat) (step : N)                (* ubinary(f, step) *)
  | GUnary2 (ord : list nat) (v x : nat)                (* uunary2(f, dfdx, ddfdxdx) *)
  | GBinary2 (ord : list nat) (v x y : nat)             (* ubinary2(f, dfdx, dfdy, ddfdxdx, ddfdydy, ddfdxdy) *)
  | GUnary2Deriv (v x : nat) (step : N)                 (* uunary2(f, dfdx, step) *)
  | GUnary2Step (v x : nat) (step : N)                  (* uunary2(f, step) *)
  | GBinary2Deriv (v x y : nat) (step : N)              (* ubinary2(f, dfdx, dfdy, step) *)
  | GBinary2Step (v x y : nat) (step : N).              (* ubinary2(f, step) *)

  Definition at1 (x : nat) (d : N -> N) (w : world2 N) : list N := [d (u_n (w_var (w2_w w) x))].
  Definition at2 (x y : nat) (d e : N -> N) (w : world2 N) : list N :=
    [d (u_n (w_var (w2_w w) x)); e (u_n (w_var (w2_w w) y))].
  Definition bt1 (x : nat) (d : N -> N) (w : world2 N) : list N := [d (u2_first_order_n (w2_var w x))].
  Definition bt2 (x y : nat) (d e : N -> N) (w : world2 N) : list N :=
    [d (u2_first_order_n (w2_var w x)); e (u2_first_order_n (w2_var w y))].
  Definition same : N -> N := fun a => a.

  (** The calls of user functions, in the order of the text.  Simplification: in 346-349 the
      code computes xr, xl, yr, yl after the first call, here they are computed
      when they are used, which matters only if the user functions modify x or y. *)
  Definition queries (c : fcall) : list query :=
    match c with
    | GUnary _ _ x => [(0, at1 x same); (1, at1 x same)]                                  (* functions.hpp 99 *)
    | GBinary _ _ x y => [(0, at2 x y same same); (1, at2 x y same same); (2, at2 x y same same)]   (* 116 *)
    | GUnaryStep _ x s => [(0, at1 x same); (0, at1 x (fun a => a + s))]                  (* 146-148 *)
    | GBinaryStep _ x y s =>                                                             (* 173-176 *)
        [(0, at2 x y same same); (0, at2 x y (fun a => a + s) same); (0, at2 x y same (fun a => a + s))]
    | GUnary2 _ _ x => [(0, bt1 x same); (1, bt1 x same); (2, bt1 x same)]                (* 207 *)
    | GBinary2 _ _ x y =>                                                                (* 224-226 *)
        [(0, bt2 x y same same); (1, bt2 x y same same); (2, bt2 x y same same);
         (3, bt2 x y same same); (4, bt2 x y same same); (5, bt2 x y same same)]
    | GUnary2Deriv _ x s => [(1, bt1 x same); (1, bt1 x (fun a => a + s)); (0, bt1 x same)]   (* 247-249 *)
    | GUnary2Step _ x s => [(0, bt1 x same); (0, bt1 x (fun a => a + s)); (0, bt1 x (fun a => a - s))]   (* 271-273 *)
    | GBinary2Deriv _ x y s =>                                                           (* 304-309 *)
        [(1, bt2 x y same same); (2, bt2 x y same same); (1, bt2 x y (fun a => a + s) same);
         (2, bt2 x y same (fun a => a + s)); (1, bt2 x y same (fun a => a + s)); (0, bt2 x y same same)]
    | GBinary2Step _ x y s =>                                                            (* 345-355 *)
        [(0, bt2 x y same same); (0, bt2 x y (fun a => a + s) same); (0, bt2 x y (fun a => a - s) same);
         (0, bt2 x y same (fun a => a + s)); (0, bt2 x y same (fun a => a - s));
         (0, bt2 x y (fun a => a + s) (fun a => a + s)); (0, bt2 x y (fun a => a - s) (fun a => a - s))]
    end.
  Definition order (c : fcall) : list nat :=
    match c with
    | GUnary ord _ _ | GBinary ord _ _ _ | GUnary2 ord _ _ | GBinary2 ord _ _ _ => ord
    | _ => seq 0 (length (queries c))
    end.

  Definition put1 (w : world2 N) (v : nat) (o : outcome (ureal N)) : world2 N * outcome unit :=
    let '(w1, r) := assign_result (w2_w w) v o in (mkW2 w1 (w2_var w), r).

  (** What is computed from the answers [a], and the assignment to [v]. *)
  Definition finish (c : fcall) (a : nat -> N) (w : world2 N) : world2 N * outcome unit :=
    let g := w_var (w2_w w) in
    let h := w2_var w in
    match c with
    | GUnary _ v x => put1 w v (Ret (u_unary (g x) (a 0%nat) (a 1%nat)))                                        (* 99 *)
    | GBinary _ v x y => put1 w v (u_binary (g x) (g y) (a 0%nat) (a 1%nat) (a 2%nat))                          (* 116 *)
    | GUnaryStep v x s => put1 w v (Ret (u_unary (g x) (a 0%nat) ((a 1%nat - a 0%nat) / s)))                    (* 148-149 *)
    | GBinaryStep v x y s =>                                                                                    (* 175-177 *)
        put1 w v (u_binary (g x) (g y) (a 0%nat) ((a 1%nat - a 0%nat) / s) ((a 2%nat - a 0%nat) / s))
    | GUnary2 _ v x => assign2 w v (u2_unary (h x) (a 0%nat) (a 1%nat) (a 2%nat))                               (* 207 *)
    | GBinary2 _ v x y =>                                                                                       (* 224-226 *)
        assign2 w v (u2_binary (h x) (h y) (a 0%nat) (a 1%nat) (a 2%nat) (a 3%nat) (a 4%nat) (a 5%nat))
    | GUnary2Deriv v x s => assign2 w v (u2_unary (h x) (a 2%nat) (a 0%nat) ((a 1%nat - a 0%nat) / s))          (* 248-249 *)
    | GUnary2Step v x s =>                                                                                      (* 274-276 *)
        assign2 w v (u2_unary (h x) (a 0%nat) ((a 1%nat - a 2%nat) / (nofZ 2 * s))
                       ((a 1%nat + a 2%nat - nofZ 2 * a 0%nat) / (s * s)))
    | GBinary2Deriv v x y s =>                                                                                  (* 306-311 *)
        assign2 w v (u2_binary (h x) (h y) (a 5%nat) (a 0%nat) (a 1%nat)
                       ((a 2%nat - a 0%nat) / s) ((a 3%nat - a 1%nat) / s) ((a 4%nat - a 0%nat) / s))
    | GBinary2Step v x y s =>                                                                                   (* 356-368 *)
        assign2 w v (u2_binary (h x) (h y) (a 0%nat) ((a 1%nat - a 2%nat) / (nofZ 2 * s)) ((a 3%nat - a 4%nat) / (nofZ 2 * s))
                       ((a 1%nat + a 2%nat - nofZ 2 * a 0%nat) / (s * s))
                       ((a 3%nat + a 4%nat - nofZ 2 * a 0%nat) / (s * s))
                       ((a 5%nat + a 6%nat - (a 1%nat + a 2%nat) - (a 3%nat + a 4%nat) + nofZ 2 * a 0%nat) / (nofZ 2 * (s * s))))
    end.

  (** The call: the state left, the calls of user functions made, and how it ended; [inr] is
      an exception thrown by a user function. *)
  Definition exec_f (U : user) (c : fcall) (w : world2 N) : (world2 N * log) * (outcome unit + X) :=
    match ask_all U (queries c) (order c) (fun _ => n0) w [] with
    | ((w', l), inl a) => let '(w2, o) := finish c a w' in ((w2, l), inl o)
    | ((w', l), inr e) => ((w', l), inr e)
    end.
End FunEff.
Arguments user N X : clear implicits.
Arguments log N : clear implicits.
Arguments fcall N : clear implicits.
