(** * Stat2: model of /repo/uncertainties/stat.hpp instantiated with UReal2

    As Stat.v, but the operation applied to two elements is a call that can fail
    (cov and corr of UReal2 walk iterators). *)

From Coq Require Import List ZArith Bool.
From Verif Require Import Base Num Map UReal HessGrad Moments CheckMoments UReal2 Stat.
Import ListNotations.

Section Outer.
  Context {A B : Type} (op : A -> A -> outcome B).

  (** stat.hpp 89-92: the loop over [j]. *)
  Fixpoint oouter_row (x : A) (ys : list A) (st : list B * nat) : outcome (list B * nat) :=
    match ys with
    | [] => Ret st
    | y :: ys' =>
        c <- op x y;;
        m <- buf_set (snd st) c (fst st);;
        oouter_row x ys' (m, S (snd st))
    end.
  (** stat.hpp 88-93: the loop over [i]. *)
  Fixpoint oouter_rows (xs ys : list A) (st : list B * nat) : outcome (list B * nat) :=
    match xs with
    | [] => Ret st
    | x :: xs' =>
        st' <- oouter_row x ys st;;
        oouter_rows xs' ys st'
    end.
  (** stat.hpp 85-95: [outer] on iterators. *)
  Definition oouter_it (xs : list A) (matrix : list B) : outcome (list B) :=
    omap fst (oouter_rows xs xs (matrix, O)).
  (** stat.hpp 97-103: [outer] on vectors. *)
  Definition oouter_vec (b0 : B) (xs : list A) : outcome (list B) :=
    oouter_it xs (repeat b0 (length xs * length xs)).
End Outer.

Section Stat2.
  Context {N : Num}.

  (** stat.hpp 115-121, ureal2.hpp 711-713 *)
  Definition cov_matrix2_it (xs : list (ureal2 N)) (matrix : list N) : outcome (list N) :=
    oouter_it u2_cov xs matrix.
  (** stat.hpp 130-136 *)
  Definition cov_matrix2 (xs : list (ureal2 N)) : outcome (list N) := oouter_vec u2_cov n0 xs.
  (** stat.hpp 148-154, ureal2.hpp 718-720 *)
  Definition corr_matrix2_it (xs : list (ureal2 N)) (matrix : list N) : outcome (list N) :=
    oouter_it u2_corr xs matrix.
  (** stat.hpp 163-169 *)
  Definition corr_matrix2 (xs : list (ureal2 N)) : outcome (list N) := oouter_vec u2_corr n0 xs.
  (** stat.hpp 213-220, ureal2.hpp 1071-1074: [nom_vector]; [push_back] at the end. *)
  Fixpoint nom_vector2_loop (prop : propmode) (xs : list (ureal2 N)) (mu : list N) : outcome (list N) :=
    match xs with
    | [] => Ret mu
    | x :: xs' => m <- u2_n prop x;; nom_vector2_loop prop xs' (mu ++ [m])
    end.
  Definition nom_vector2 (prop : propmode) (xs : list (ureal2 N)) : outcome (list N) :=
    nom_vector2_loop prop xs [].
End Stat2.
