(** * Alloc: the functions of ureal.hpp when memory runs out

    The std::map of a dependent variable allocates one node per element, and an
    allocation can throw std::bad_alloc.  The functions of UReal.v are given here
    with a budget [k]: the number of allocations of the call that succeed; the
    next one throws.  Real numbers are assumed not to allocate (float, double).
    A map without elements, and the objects themselves, do not allocate; moving
    a map does not allocate (libstdc++, libc++). *)

From Coq Require Import List ZArith Bool.
From Verif Require Import Base Num Map UReal World.
Import ListNotations.

(** What the implementation of std::map does in the assignment [m = m'] (copy):
    the number of nodes it allocates (it may reuse those of [m]), and what is
    left in [m] if only [k] of the allocations succeed, which the standard does
    not say. *)
Record map_lib {V : Type} : Type := mkMapLib {
  cp_count : list (Z * V) -> list (Z * V) -> nat;
  cp_left : list (Z * V) -> list (Z * V) -> nat -> list (Z * V)
}.
Arguments map_lib V : clear implicits.

Section Alloc.
  Context {N : Num}.
  Local Open Scope num_scope.
  Notation smap := (list (Z * N)).

  (** [m[key]] used as a reference that is then modified with [f]: a missing
      element is allocated, and if this fails the map is unchanged.  The second
      component is the budget left, or [None] for std::bad_alloc. *)
  Definition a_upd (k : nat) (key : Z) (f : N -> N) (m : smap) : smap * option nat :=
    match mfind key m with
    | Some _ => (mupd n0 key f m, Some k)
    | None =>
        match k with
        | O => (m, None)
        | S k' => (mupd n0 key f m, Some k')
        end
    end.

  (** ureal.hpp 765-767: [for (const auto &it : x.sigma) this->sigma[it.first] += dx * it.second]. *)
  Fixpoint a_add_scaled (k : nat) (d : N) (s z : smap) : smap * option nat :=
    match s with
    | [] => (z, Some k)
    | (i, c) :: s' =>
        match a_upd k i (fun p => p + d * c) z with
        | (z', Some k') => a_add_scaled k' d s' z'
        | (z', None) => (z', None)
        end
    end.

  (** ureal.hpp 752-772: [binary_assign] when [&x != this]; the members are modified
      in the order of the code, [sdev] and [mu] last. *)
  Definition a_binary_assign (k : nat) (this x : ureal N) (mu dt dx : N) : ureal N * option nat :=
    match (if (0 <? uid this)%Z then a_upd k (uid this) (fun _ => usdev this) (usigma this)   (* 753-755 *)
           else (usigma this, Some k)) with
    | (s0, None) => (mkU (uid this) (usdev this) (umu this) s0, None)
    | (s0, Some k0) =>
        (* 756: this->id = invalid_id *)
        let s1 := if negb (dt =? n1) then mmap (fun v => v * dt) s0 else s0 in               (* 757-761 *)
        match (if (0 <? uid x)%Z then a_upd k0 (uid x) (fun p => p + dx * usdev x) s1         (* 762-763 *)
               else if (uid x <? 0)%Z then a_add_scaled k0 dx (usigma x) s1                   (* 764-767 *)
               else (s1, Some k0)) with
        | (s2, None) => (mkU invalid_id (usdev this) (umu this) s2, None)
        | (s2, Some k2) => (mkU invalid_id (nopp n1) mu s2, Some k2)                          (* 769, 771 *)
        end
    end.

  (** ureal.hpp 742-773: [binary_assign]; with [&x == this] nothing is allocated. *)
  Definition a_assign_gen (k : nat) (alias : bool) (this x : ureal N) (mu dt dx : N) : ureal N * option nat :=
    if alias then (u_binary_assign_self this mu dt dx, Some k) else a_binary_assign k this x mu dt dx.
  (** ureal.hpp 795-808: the compound operators. *)
  Definition a_add_assign (k : nat) (alias : bool) (this x : ureal N) : ureal N * option nat :=
    a_assign_gen k alias this x (umu this + umu x) n1 n1.
  Definition a_sub_assign (k : nat) (alias : bool) (this x : ureal N) : ureal N * option nat :=
    a_assign_gen k alias this x (umu this - umu x) n1 (nopp n1).
  Definition a_mul_assign (k : nat) (alias : bool) (this x : ureal N) : ureal N * option nat :=
    a_assign_gen k alias this x (umu this * umu x) (umu x) (umu this).
  Definition a_div_assign (k : nat) (alias : bool) (this x : ureal N) : ureal N * option nat :=
    let inv_x := n1 / umu x in
    let mu := umu this * inv_x in
    a_assign_gen k alias this x mu inv_x (- mu * inv_x).

  (** [v = x]: the assignment the compiler generates for the members of
      ureal.hpp 291-294, in the order of declaration id, sdev, mu, sigma. *)
  Definition a_copy_assign (L : map_lib N) (k : nat) (alias : bool) (this x : ureal N) : ureal N * option nat :=
    if alias then (this, Some k)
    else if (cp_count L (usigma this) (usigma x) <=? k)%nat
    then (x, Some (k - cp_count L (usigma this) (usigma x))%nat)
    else (mkU (uid x) (usdev x) (umu x) (cp_left L (usigma this) (usigma x) k), None).

  (** The functions that return a new object (unary 604-632, binary 645-696, nary
      711-728, change_nom 464-468): the map of the result is filled element by
      element and elements are never removed, so the call allocates as many nodes
      as the result has.  If that fails the result is destroyed. *)
  Definition a_nodes (o : outcome (ureal N)) : nat :=
    match o with Ret z => length (usigma z) | _ => O end.
  Definition a_result (k : nat) (w : world N) (v : nat) (o : outcome (ureal N)) : world N * option (outcome unit) :=
    if (a_nodes o <=? k)%nat
    then let '(w', r) := assign_result w v o in (w', Some r)
    else (w, None).
  Definition a_store (w : world N) (v : nat) (r : ureal N * option nat) : world N * option (outcome unit) :=
    (w_set w v (fst r), match snd r with Some _ => Some (Ret tt) | None => None end).

  (** The state after a call in which [k] allocations succeed, and how it ended;
      [None] is std::bad_alloc.  Compare World.exec. *)
  Definition exec_a (L : map_lib N) (k : nat) (w : world N) (c : call N) : world N * option (outcome unit) :=
    let g := w_var w in
    match c with
    | CCopy v x => a_store w v (a_copy_assign L k (Nat.eqb v x) (g v) (g x))
    | CChangeNom v x n => a_result k w v (Ret (u_change_nom (g x) n))
    | CUnary v x f df => a_result k w v (Ret (u_unary (g x) (f (u_n (g x))) (df (u_n (g x)))))
    | CBinary v x y f dfdx dfdy =>
        let a := u_n (g x) in let b := u_n (g y) in
        a_result k w v (u_binary (g x) (g y) (f a b) (dfdx a b) (dfdy a b))
    | CNary v xs f dfs =>
        let ms := map (fun x => u_n (g x)) xs in
        a_result k w v (u_nary (map g xs) (f ms) (dfs ms))
    | CNeg v x => a_result k w v (Ret (u_neg (g x)))
    | CAdd v x y => a_result k w v (u_add (g x) (g y))
    | CSub v x y => a_result k w v (u_sub (g x) (g y))
    | CMul v x y => a_result k w v (u_mul (g x) (g y))
    | CDiv v x y => a_result k w v (u_div (g x) (g y))
    | CAssign v x f dfdt dfdx =>
        let a := u_n (g v) in let b := u_n (g x) in
        a_store w v (a_assign_gen k (Nat.eqb v x) (g v) (g x) (f a b) (dfdt a b) (dfdx a b))
    | CAddA v x => a_store w v (a_add_assign k (Nat.eqb v x) (g v) (g x))
    | CSubA v x => a_store w v (a_sub_assign k (Nat.eqb v x) (g v) (g x))
    | CMulA v x => a_store w v (a_mul_assign k (Nat.eqb v x) (g v) (g x))
    | CDivA v x => a_store w v (a_div_assign k (Nat.eqb v x) (g v) (g x))
    | CNew _ _ _ | CConst _ _ | CDefault _ | CS _ | CVar _ =>      (* nothing is allocated *)
        let '(w', r) := exec w c in (w', Some r)
    end.

  (** A history; the program catches std::bad_alloc and goes on. *)
  Fixpoint run_a (L : map_lib N) (w : world N) (cs : list (call N * nat)) : outcome (world N) :=
    match cs with
    | [] => Ret w
    | (c, k) :: cs' =>
        match exec_a L k w c with
        | (w', None) | (w', Some (Ret _)) | (w', Some (Throw _)) => run_a L w' cs'
        | (_, Some UB) => UB
        | (_, Some Assert) => Assert
        end
    end.
End Alloc.
