(** * Stat: model of /repo/uncertainties/stat.hpp

    Sequences are lists.  An output sequence of fixed size is a list of the same
    length; writing outside of it is [UB]. *)

From Coq Require Import List ZArith Bool.
From Verif Require Import Base Num UReal.
Import ListNotations.

Section Buffers.
  Context {A : Type}.
  (** [buf[k] = a] *)
  Fixpoint buf_set (k : nat) (a : A) (buf : list A) : outcome (list A) :=
    match buf, k with
    | [], _ => UB
    | _ :: buf', O => Ret (a :: buf')
    | b :: buf', S k' => omap (cons b) (buf_set k' a buf')
    end.
  (** [buf[k]], read *)
  Definition buf_get (k : nat) (buf : list A) : outcome A :=
    match nth_error buf k with Some a => Ret a | None => UB end.
End Buffers.

Section Outer.
  Context {A B : Type} (op : A -> A -> B).

  (** stat.hpp 89-92: the loop over [j]; [pos] is the position of the output iterator. *)
  Fixpoint outer_row (x : A) (ys : list A) (st : list B * nat) : outcome (list B * nat) :=
    match ys with
    | [] => Ret st
    | y :: ys' =>
        m <- buf_set (snd st) (op x y) (fst st);;
        outer_row x ys' (m, S (snd st))
    end.
  (** stat.hpp 88-93: the loop over [i]. *)
  Fixpoint outer_rows (xs ys : list A) (st : list B * nat) : outcome (list B * nat) :=
    match xs with
    | [] => Ret st
    | x :: xs' =>
        st' <- outer_row x ys st;;
        outer_rows xs' ys st'
    end.
  (** stat.hpp 85-95: [outer] on iterators; [matrix] is the output sequence. *)
  Definition outer_it (xs : list A) (matrix : list B) : outcome (list B) :=
    omap fst (outer_rows xs xs (matrix, O)).
  (** stat.hpp 97-103: [outer] on vectors; [b0] is the default value the constructor
      [OutVector(n * n)] fills the vector with. *)
  Definition outer_vec (b0 : B) (xs : list A) : outcome (list B) :=
    outer_it xs (repeat b0 (length xs * length xs)).
End Outer.

Section Stat.
  Context {N : Num}.
  Local Open Scope num_scope.

  (** stat.hpp 115-121, iterator version *)
  Definition cov_matrix_it (xs : list (ureal N)) (matrix : list N) : outcome (list N) :=
    outer_it u_cov xs matrix.
  (** stat.hpp 130-136 *)
  Definition cov_matrix (xs : list (ureal N)) : outcome (list N) := outer_vec u_cov n0 xs.
  (** stat.hpp 148-154, iterator version *)
  Definition corr_matrix_it (xs : list (ureal N)) (matrix : list N) : outcome (list N) :=
    outer_it u_corr xs matrix.
  (** stat.hpp 163-169 *)
  Definition corr_matrix (xs : list (ureal N)) : outcome (list N) := outer_vec u_corr n0 xs.

  (** stat.hpp 197-201: the two loops of [corr2cov], over the index pairs in order. *)
  Definition corr2cov_entry (n : nat) (sigma corr : list N) (buf : outcome (list N))
             (ij : nat * nat) : outcome (list N) :=
    let '(i, j) := ij in
    b <- buf;;
    si <- buf_get i sigma;;
    sj <- buf_get j sigma;;
    c <- buf_get (n * i + j) corr;;
    buf_set (n * i + j) (si * sj * c) b.
  Definition index_pairs (n : nat) : list (nat * nat) :=
    flat_map (fun i => map (fun j => (i, j)) (seq 0 n)) (seq 0 n).
  (** stat.hpp 185-203: [corr2cov]. *)
  Definition corr2cov (sigma corr : list N) : outcome (list N) :=
    let n := length sigma in
    if negb (length corr =? n * n)%nat then Throw InvalidArgument
    else fold_left (corr2cov_entry n sigma corr) (index_pairs n) (Ret (repeat n0 (n * n))).

  (** stat.hpp 213-220: [nom_vector]. *)
  Definition nom_vector (xs : list (ureal N)) : list N :=
    fold_left (fun mu x => mu ++ [u_n x]) xs [].
End Stat.
