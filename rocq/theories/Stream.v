(** * Stream: model of the output operators of /repo/uncertainties/io.hpp (lines 191-206)

    Simplifications: the stream is one of characters of type char (for another type the
    operators cannot be instantiated, since format returns a std::string); its buffer takes
    every character, so that inserting a string does not fail; a stream whose state is not
    good does not throw.  The numbers are real numbers as in Io.v. *)

From Coq Require Import List ZArith Bool Reals Ascii String.
From Verif Require Import Base Num Map UReal World HessGrad Moments UReal2 World2 Io.
Import ListNotations.
Local Open Scope R_scope.

(** std::ios_base::adjustfield; [AdjNone] if no bit is set *)
Inductive adjust : Type := AdjLeft | AdjRight | AdjInternal | AdjNone.

(** The parts of a std::ostream that its operations read or write: the characters received so
    far, whether the state is good, and the settings made by setw, setfill, std::left and
    so on, setprecision, std::fixed and so on (as a number), std::showpos. *)
Record ostream : Type := mkOs {
  os_buf : str; os_good : bool; os_width : Z; os_fill : ascii; os_adjust : adjust;
  os_precision : Z; os_float : nat; os_showpos : bool }.

Definition set_buf (os : ostream) (b : str) (w : Z) : ostream :=
  mkOs b (os_good os) w (os_fill os) (os_adjust os) (os_precision os) (os_float os) (os_showpos os).

(** operator<< of std::ostream with a std::string ([string.io] in the standard): a formatted
    output function, which does nothing if the stream is not good; otherwise pads the string to
    the width, after it if the adjustment is left and before it if not, writes it and calls
    width(0). *)
Definition insert_string (os : ostream) (t : str) : ostream :=
  if os_good os then
    let fill := repeat (os_fill os) (Z.to_nat (os_width os) - List.length t) in
    let seq := match os_adjust os with AdjLeft => t ++ fill | _ => fill ++ t end in
    set_buf os (os_buf os ++ seq) 0
  else os.

(** core.hpp 95-97: the default arguments of [format].  The separator is written in UTF-8 in
    the source: space, the two bytes of the plus-minus sign, space. *)
Definition default_errdig : R := 3 / 2.
Definition default_sep : str := [" "; ascii_of_nat 194; ascii_of_nat 177; " "]%char.

(** io.hpp 196-200: [operator<<] of a UReal; nom and sdev are in ureal.hpp 817-829. *)
Definition print_ureal (os : ostream) (x : ureal RN) : outcome ostream :=
  t <- format (Fin (u_n x)) (Fin (u_s x)) default_errdig default_sep;;
  Ret (insert_string os t).

(** io.hpp 202-206: [operator<<] of a UReal2; nom and sdev are in ureal2.hpp 1072-1082.  The
    square root of a negative variance, which is 0 in the model of s(), is a NaN here. *)
Definition sdev_ureal2 (x : ureal2 RN) : outcome xreal :=
  m2 <- u2_m x 2;; s <- u2_s x;; Ret (if Rltb m2 0 then NotNum else Fin s).
Definition print_ureal2 (prop : propmode) (os : ostream) (x : ureal2 RN) : outcome ostream :=
  n <- u2_n prop x;; s <- sdev_ureal2 x;;
  t <- format (Fin n) s default_errdig default_sep;;
  Ret (insert_string os t).

(** A chain [os << a << b << ...], whose items are variables, strings and manipulators. *)
Inductive item : Type :=
| IVar (v : nat) | IText (t : str) | IWidth (w : Z) | IFill (c : ascii) | IAdjust (a : adjust)
| IPrecision (n : Z) | IFloat (f : nat) | IShowpos (b : bool).
Definition put (w : world RN) (os : ostream) (i : item) : outcome ostream :=
  let 'mkOs b g wd c a p f s := os in
  match i with
  | IVar v => print_ureal os (w_var w v)
  | IText t => Ret (insert_string os t)
  | IWidth wd => Ret (mkOs b g wd c a p f s)
  | IFill c => Ret (mkOs b g wd c a p f s)
  | IAdjust a => Ret (mkOs b g wd c a p f s)
  | IPrecision p => Ret (mkOs b g wd c a p f s)
  | IFloat f => Ret (mkOs b g wd c a p f s)
  | IShowpos s => Ret (mkOs b g wd c a p f s)
  end.
Fixpoint chain (w : world RN) (os : ostream) (is : list item) : outcome ostream :=
  match is with
  | [] => Ret os
  | i :: is => os' <- put w os i;; chain w os' is
  end.
