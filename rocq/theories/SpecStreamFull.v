(** * SpecStreamFull: buffers and chains of both classes, for C89 *)

From Coq Require Import List ZArith Bool Reals Ascii String.
From Verif Require Import Base Num Map UReal World HessGrad Moments UReal2 World2 Io SpecIo Stream SpecStream StreamFull.
Import ListNotations.
Local Open Scope R_scope.

(** A buffer that takes everything, and one with place for [n] characters. *)
Definition endless : str -> str -> nat := fun _ t => List.length t.
Definition room (n : nat) : str -> str -> nat := fun b _ => (n - List.length b)%nat.
Definition prefix (a b : str) : Prop := exists c, b = a ++ c.

(** [t] shows a UReal2 of mean [n] and variance [m2] (a NaN is printed for a negative one). *)
Definition shows2 (t : str) (n m2 : R) : Prop :=
  (0 <= m2 -> shows t n (sqrt m2)) /\
  (m2 < 0 -> exists M, (n = 0 -> M = lit "0") /\ (n <> 0 -> six_digits M n) /\ t = M ++ plus_minus ++ lit "nan").
(** The text of one item of a chain that sets no width. *)
Definition piece2 (prop : propmode) (w : world2 RN) (i : item2) (t : str) : Prop :=
  match i with
  | IOne i => piece (w2_w w) i t
  | IVar2 v => exists n m2, u2_n prop (w2_var w v) = Ret n /\ u2_var (w2_var w v) = Ret m2 /\ shows2 t n m2
  end.
