(** * UReals: model of /repo/uncertainties/ureals.hpp *)

From Coq Require Import List ZArith Bool.
From Verif Require Import Base Num UReal Stat.
Import ListNotations.

Section UReals.
  Context {N : Num}.
  Local Open Scope num_scope.

  (** What the code reads of an Eigen::LDLT object (ureals.hpp 98-131): info() == Success,
      isPositive(), the strictly lower part of matrixL(), vectorD(),
      transpositionsP().indices(). *)
  Record ldlt : Type := mkLDLT {
    ld_ok : bool;
    ld_pos : bool;
    ld_L : nat -> nat -> N;
    ld_D : nat -> N;
    ld_T : nat -> nat
  }.

  (** ureals.hpp 93-97: the entries written to the matrix [V], as ((row, column), value).
      The entries above the diagonal are never written. *)
  Definition lower_indices (n : nat) : list (nat * nat) :=
    flat_map (fun j => map (fun i => (i, j)) (seq j (n - j))) (seq 0 n).
  Definition ureals_V (n : nat) (cov : list N) : outcome (list ((nat * nat) * N)) :=
    omapM (fun ij => c <- buf_get (fst ij + n * snd ij) cov;; Ret (ij, c)) (lower_indices n).

  (** ureals.hpp 113-119: the independent variables.  [last] is the id counter. *)
  Fixpoint ureals_x (D : nat -> N) (is : list nat) (last : Z) (x : list (ureal N)) :
    Z * outcome (list (ureal N)) :=
    match is with
    | [] => (last, Ret x)
    | i :: is' =>
        if n0 <=? D i then
          let '(last', o) := u_new last n0 (nsqrt (D i)) in
          match o with
          | Ret u => ureals_x D is' last' (x ++ [u])
          | Throw e => (last', Throw e)
          | UB => (last', UB)
          | Assert => (last', Assert)
          end
        else (last, Assert)
    end.

  (** ureals.hpp 121-127: row [i] of [L * x], computed in a default constructed variable;
      [L(i, j) * x[j]] converts the number to a UReal (ureal.hpp 362). *)
  Definition ureals_row (L : nat -> nat -> N) (x : list (ureal N)) (i : nat) : outcome (ureal N) :=
    y <- ofold (fun y j => xj <- buf_get j x;;
                           p <- u_mul (u_const (L i j)) xj;;
                           Ret (u_add_assign false y p)) (seq 0 i) u_default;;
    xi <- buf_get i x;;
    Ret (u_add_assign false y xi).

  (** std::swap(out[a], out[b]) *)
  Definition swap {A : Type} (a b : nat) (l : list A) : outcome (list A) :=
    x <- buf_get a l;;
    y <- buf_get b l;;
    l1 <- buf_set a y l;;
    buf_set b x l1.

  (** ureals.hpp 128-132 *)
  Definition ureals_permute {A : Type} (T : nat -> nat) (n : nat) (l : list A) : outcome (list A) :=
    ofold (fun l i => swap (i - 1) (T (i - 1)%nat) l) (rev (seq 1 n)) l.

  (** ureals.hpp 133-135 *)
  Definition ureals_shift (mu : list N) (n : nat) (l : list (ureal N)) : outcome (list (ureal N)) :=
    ofold (fun l i => y <- buf_get i l;; m <- buf_get i mu;;
                      buf_set i (u_add_assign false y (u_const m)) l) (seq 0 n) l.

  (** ureals.hpp 71-137.  [eigen n V] is the decomposition Eigen computes from the
      written entries of V (Eigen::LDLT reads the lower triangle only). *)
  Definition ureals (eigen : nat -> list ((nat * nat) * N) -> ldlt) (last : Z)
             (mu cov : list N) : Z * outcome (list (ureal N)) :=
    let n := length mu in
    if (if negb (n =? 0)%nat
        then negb (length cov mod n =? 0)%nat || negb (length cov / n =? n)%nat
        else negb (length cov =? 0)%nat)
    then (last, Throw InvalidArgument)
    else if (n =? 0)%nat then (last, Ret [])
    else
      match ureals_V n cov with
      | Ret V =>
          let d := eigen n V in
          if negb (ld_ok d) then (last, Throw RuntimeError)
          else if negb (ld_pos d) then (last, Throw RuntimeError)
          else
            let '(last', ox) := ureals_x (ld_D d) (seq 0 n) last [] in
            (last',
             x <- ox;;
             out <- omapM (ureals_row (ld_L d) x) (seq 0 n);;
             out <- ureals_permute (ld_T d) n out;;
             ureals_shift mu n out)
      | Throw e => (last, Throw e)
      | UB => (last, UB)
      | Assert => (last, Assert)
      end.
End UReals.
Arguments ldlt N : clear implicits.
