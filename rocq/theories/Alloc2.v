(** * Alloc2: the functions of ureal2.hpp when memory runs out

    As Alloc.v, for histories with both classes.  A variable of type UReal2
    contains two std::map (hessgrad.hpp 121, 124), each of which allocates one
    node per element.  Not modelled: the allocations of Eigen in the check of the
    moments and those of the messages of the exceptions.  An operation on maps
    that do not agree (which only a failed [v = x] leaves) is taken to stop at the
    assertion, whatever the memory. *)

From Coq Require Import List ZArith Bool.
From Verif Require Import Base Num Map UReal World HessGrad Moments CheckMoments UReal2 World2 Alloc.
Import ListNotations.

(** Alloc.map_lib for any type of key. *)
Record tree_lib {K V : Type} : Type := mkTreeLib {
  cq_count : list (K * V) -> list (K * V) -> nat;
  cq_left : list (K * V) -> list (K * V) -> nat -> list (K * V)
}.
Arguments tree_lib K V : clear implicits.

(** The three maps the library uses: UReal::sigma, HessGrad::diagmap, HessGrad::trimap. *)
Record libs {N : Num} : Type := mkLibs {
  lib_sigma : map_lib N;
  lib_diag : tree_lib Z (diag N);
  lib_tri : tree_lib (Z * Z) N
}.
Arguments libs N : clear implicits.

Section Alloc2.
  Context {N : Num}.
  Variable eig : list (list N) -> option (list N).
  Variable L : libs N.

  (** Constructors (ureal2.hpp 519-570: [hg.diag(id)] allocates one node, after
      the counter was incremented), unary (787-806), binary (819-895): the maps of
      the new object are filled element by element and elements are never removed,
      so the call allocates as many nodes as the object has.  If that fails the
      object is destroyed. *)
  Definition a2_nodes (o : outcome (ureal2 N)) : nat :=
    match o with
    | Ret z => (length (diagmap (u2hg z)) + length (trimap (u2hg z)))%nat
    | _ => O
    end.
  Definition a2_result (k : nat) (w : world2 N) (v : nat) (o : outcome (ureal2 N)) : world2 N * option (outcome unit) :=
    if (a2_nodes o <=? k)%nat
    then let '(w', r) := assign2 w v o in (w', Some r)
    else (w, None).

  (** [v = x]: the assignment the compiler generates for the members of
      ureal2.hpp 489-490, in the order of declaration [hg], [mu]; that of HessGrad
      (hessgrad.hpp 121, 124) in the order [diagmap], [trimap]. *)
  Definition a2_copy_assign (k : nat) (alias : bool) (this x : ureal2 N) : ureal2 N * option nat :=
    if alias then (this, Some k)
    else
      let nd := cq_count (lib_diag L) (diagmap (u2hg this)) (diagmap (u2hg x)) in
      if (nd <=? k)%nat then
        let nt := cq_count (lib_tri L) (trimap (u2hg this)) (trimap (u2hg x)) in
        if (nt <=? k - nd)%nat then (x, Some (k - nd - nt)%nat)
        else (mkU2 (mkHG (diagmap (u2hg x)) (cq_left (lib_tri L) (trimap (u2hg this)) (trimap (u2hg x)) (k - nd)))
                   (u2mu this), None)
      else (mkU2 (mkHG (cq_left (lib_diag L) (diagmap (u2hg this)) (diagmap (u2hg x)) k) (trimap (u2hg this)))
                 (u2mu this), None).

  (** The state after a call in which [k] allocations succeed, and how it ended;
      [None] is std::bad_alloc.  Compare World2.exec2. *)
  Definition exec2_a (k : nat) (w : world2 N) (c : call2 N) : world2 N * option (outcome unit) :=
    let g := w2_var w in
    match c with
    | E1 c => let '(w1, o) := exec_a (lib_sigma L) k (w2_w w) c in (mkW2 w1 g, o)
    | ENew v n m thr =>
        let '(last, o) := u2_new eig (w2_last w) n m thr in a2_result k (set_last w last) v o
    | ENewStd v n s m thr =>
        let '(last, o) := u2_new_std eig (w2_last w) n s m thr in a2_result k (set_last w last) v o
    | EConst v n => a2_result k w v (Ret (u2_const n))
    | EDefault v => a2_result k w v (Ret u2_default)
    | ECopy v x =>
        let r := a2_copy_assign k (Nat.eqb v x) (g v) (g x) in
        (mkW2 (w2_w w) (upd2 g v (fst r)), match snd r with Some _ => Some (Ret tt) | None => None end)
    | EUnary v x f f1 f2 =>
        let a := u2mu (g x) in a2_result k w v (u2_unary (g x) (f a) (f1 a) (f2 a))
    | EBinary v x y f fx fy fxx fyy fxy =>
        let a := u2mu (g x) in let b := u2mu (g y) in
        a2_result k w v (u2_binary (g x) (g y) (f a b) (fx a b) (fy a b) (fxx a b) (fyy a b) (fxy a b))
    | ENeg v x => a2_result k w v (u2_neg (g x))
    | EAdd v x y => a2_result k w v (u2_add (g x) (g y))
    | ESub v x y => a2_result k w v (u2_sub (g x) (g y))
    | EMul v x y => a2_result k w v (u2_mul (g x) (g y))
    | EDiv v x y => a2_result k w v (u2_div (g x) (g y))
    end.

  (** A history; the program catches std::bad_alloc and goes on. *)
  Fixpoint run2_a (w : world2 N) (cs : list (call2 N * nat)) : outcome (world2 N) :=
    match cs with
    | [] => Ret w
    | (c, k) :: cs' =>
        match exec2_a k w c with
        | (w', None) | (w', Some (Ret _)) | (w', Some (Throw _)) => run2_a w' cs'
        | (_, Some UB) => UB
        | (_, Some Assert) => Assert
        end
    end.
End Alloc2.
