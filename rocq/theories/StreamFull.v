(** * StreamFull: the output operators of /repo/uncertainties/io.hpp (lines 191-206) on a stream whose buffer can fail

    As Stream.v, for any buffer: [takes b seq] is the number of characters of [seq] it takes
    when it has already received [b].  If it does not take all of them the state of the stream
    stops being good.  The width is then not specified by the standard (libstdc++ resets it,
    libc++ does not); here it is any number [wfail].  The stream does not throw, except in
    [chain_throwing]. *)

From Coq Require Import List ZArith Bool Reals Ascii String.
From Verif Require Import Base Num Map UReal World HessGrad Moments UReal2 World2 Io Stream.
Import ListNotations.

Section StreamFull.
  Variable takes : str -> str -> nat.
  Variable wfail : Z.

  (** operator<< of std::ostream with a std::string ([string.io] in the standard) *)
  Definition insert_on (os : ostream) (t : str) : ostream :=
    if os_good os then
      let fill := repeat (os_fill os) (Z.to_nat (os_width os) - List.length t) in
      let seq := match os_adjust os with AdjLeft => t ++ fill | _ => fill ++ t end in
      let k := takes (os_buf os) seq in
      if (List.length seq <=? k)%nat then set_buf os (os_buf os ++ seq) 0
      else mkOs (os_buf os ++ firstn k seq) false wfail (os_fill os) (os_adjust os)
             (os_precision os) (os_float os) (os_showpos os)
    else os.

  (** io.hpp 196-200: [operator<<] of a UReal *)
  Definition print_ureal_on (os : ostream) (x : ureal RN) : outcome ostream :=
    t <- format (Fin (u_n x)) (Fin (u_s x)) default_errdig default_sep;;
    Ret (insert_on os t).
  (** io.hpp 202-206: [operator<<] of a UReal2 *)
  Definition print_ureal2_on (prop : propmode) (os : ostream) (x : ureal2 RN) : outcome ostream :=
    n <- u2_n prop x;; s <- sdev_ureal2 x;;
    t <- format (Fin n) s default_errdig default_sep;;
    Ret (insert_on os t).

  (** A chain [os << a << b << ...] whose variables may be of both classes; the UReal2 have
      the propagation mode [prop]. *)
  Inductive item2 : Type := IOne (i : item) | IVar2 (v : nat).
  Variable prop : propmode.
  Definition put_on (w : world2 RN) (os : ostream) (i : item2) : outcome ostream :=
    match i with
    | IOne (IVar v) => print_ureal_on os (w_var (w2_w w) v)
    | IOne (IText t) => Ret (insert_on os t)
    | IOne i => put (w2_w w) os i
    | IVar2 v => print_ureal2_on prop os (w2_var w v)
    end.
  Fixpoint chain_on (w : world2 RN) (os : ostream) (is : list item2) : outcome ostream :=
    match is with
    | [] => Ret os
    | i :: is => os' <- put_on w os i;; chain_on w os' is
    end.
  (** The same on a stream that throws when its state stops being good (std::ios::exceptions): the
      rest of the chain is not evaluated.  Also returns whether it has thrown.  The stream is good
      when the chain begins. *)
  Fixpoint chain_throwing (w : world2 RN) (os : ostream) (is : list item2) : outcome (ostream * bool) :=
    match is with
    | [] => Ret (os, false)
    | i :: is => os' <- put_on w os i;; if os_good os' then chain_throwing w os' is else Ret (os', true)
    end.
End StreamFull.
