(** * SpecFunEff: vocabulary for the statements about user functions with side effects *)

From Coq Require Import List ZArith Bool Permutation.
From Verif Require Import Base Num UReal World HessGrad UReal2 World2 Functions FunEff.
Import ListNotations.

Section Spec.
  Context {N : Num} {X : Type}.
  Local Open Scope num_scope.

  (** A user function whose answer, a number or an exception, depends on its arguments
      only; [E] is what it does to the state. *)
  Definition behaves (U : user N X) (F : nat -> list N -> N + X) (E : nat -> list N -> world2 N -> world2 N) : Prop :=
    forall i p w, U i p w = (E i p w, F i p).

  (** It does not modify the variables the call uses. *)
  Definition operands_f (c : fcall N) : list nat :=
    match c with
    | GUnary _ _ x | GUnaryStep _ x _ | GUnary2 _ _ x | GUnary2Deriv _ x _ | GUnary2Step _ x _ => [x]
    | GBinary _ _ x y | GBinaryStep _ x y _ | GBinary2 _ _ x y | GBinary2Deriv _ x y _ | GBinary2Step _ x y _ => [x; y]
    end.
  Definition first_order (c : fcall N) : bool :=
    match c with GUnary _ _ _ | GBinary _ _ _ _ | GUnaryStep _ _ _ | GBinaryStep _ _ _ _ => true | _ => false end.
  Definition spares (E : nat -> list N -> world2 N -> world2 N) (c : fcall N) : Prop :=
    forall i p w x, In x (operands_f c) ->
      if first_order c then w_var (w2_w (E i p w)) x = w_var (w2_w w) x else w2_var (E i p w) x = w2_var w x.

  (** The points where the functions are needed. *)
  Definition points (c : fcall N) (w : world2 N) : log N :=
    let n x := u_n (w_var (w2_w w) x) in
    let m x := u2_first_order_n (w2_var w x) in
    match c with
    | GUnary _ _ x => [(0, [n x]); (1, [n x])]
    | GBinary _ _ x y => [(0, [n x; n y]); (1, [n x; n y]); (2, [n x; n y])]
    | GUnaryStep _ x s => [(0, [n x]); (0, [n x + s])]
    | GBinaryStep _ x y s => [(0, [n x; n y]); (0, [n x + s; n y]); (0, [n x; n y + s])]
    | GUnary2 _ _ x => [(0, [m x]); (1, [m x]); (2, [m x])]
    | GBinary2 _ _ x y => map (fun i => (i, [m x; m y])) [0; 1; 2; 3; 4; 5]
    | GUnary2Deriv _ x s => [(1, [m x]); (1, [m x + s]); (0, [m x])]
    | GUnary2Step _ x s => [(0, [m x]); (0, [m x + s]); (0, [m x - s])]
    | GBinary2Deriv _ x y s =>
        [(1, [m x; m y]); (2, [m x; m y]); (1, [m x + s; m y]); (2, [m x; m y + s]); (1, [m x; m y + s]); (0, [m x; m y])]
    | GBinary2Step _ x y s =>
        [(0, [m x; m y]); (0, [m x + s; m y]); (0, [m x - s; m y]); (0, [m x; m y + s]); (0, [m x; m y - s]);
         (0, [m x + s; m y + s]); (0, [m x - s; m y - s])]
    end.
  (** The order of the evaluations is specified by the language. *)
  Definition in_sequence (c : fcall N) : bool :=
    match c with GUnary _ _ _ | GBinary _ _ _ _ | GUnary2 _ _ _ | GBinary2 _ _ _ _ => false | _ => true end.
  (** The order is an order of all the arguments. *)
  Definition good_order (c : fcall N) : Prop :=
    match c with
    | GUnary ord _ _ => Permutation ord (seq 0 2)
    | GBinary ord _ _ _ | GUnary2 ord _ _ => Permutation ord (seq 0 3)
    | GBinary2 ord _ _ _ => Permutation ord (seq 0 6)
    | _ => True
    end.

  (** The result with functions without side effects [F], see Functions.v. *)
  Definition without_effects (c : fcall N) (F : nat -> list N -> N) (w : world2 N) : world2 N * outcome unit :=
    let g := w_var (w2_w w) in
    let h := w2_var w in
    let f1 i := fun a => F i [a] in
    let f2 i := fun a b => F i [a; b] in
    let put v o := let r := assign_result (w2_w w) v o in (mkW2 (fst r) (w2_var w), snd r) in
    match c with
    | GUnary _ v x => put v (Ret (uunary (f1 0) (f1 1) (g x)))
    | GBinary _ v x y => put v (ubinary (f2 0) (f2 1) (f2 2) (g x) (g y))
    | GUnaryStep v x s => put v (Ret (uunary_step (f1 0) s (g x)))
    | GBinaryStep v x y s => put v (ubinary_step (f2 0) s (g x) (g y))
    | GUnary2 _ v x => assign2 w v (uunary2 (f1 0) (f1 1) (f1 2) (h x))
    | GBinary2 _ v x y => assign2 w v (ubinary2 (f2 0) (f2 1) (f2 2) (f2 3) (f2 4) (f2 5) (h x) (h y))
    | GUnary2Deriv v x s => assign2 w v (uunary2_deriv (f1 0) (f1 1) s (h x))
    | GUnary2Step v x s => assign2 w v (uunary2_step (f1 0) s (h x))
    | GBinary2Deriv v x y s => assign2 w v (ubinary2_deriv (f2 0) (f2 1) (f2 2) s (h x) (h y))
    | GBinary2Step v x y s => assign2 w v (ubinary2_step (f2 0) s (h x) (h y))
    end.

  (** The state after the calls of [l], in order. *)
  Definition after (E : nat -> list N -> world2 N -> world2 N) (l : log N) (w : world2 N) : world2 N :=
    fold_left (fun w p => E (fst p) (snd p) w) l w.
End Spec.
