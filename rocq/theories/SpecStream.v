(** * SpecStream: what a stream receives *)

From Coq Require Import List ZArith Bool Reals Ascii String.
From Verif Require Import Base Num Map UReal World Io SpecIo Stream.
Import ListNotations.
Local Open Scope R_scope.

(** The plus-minus sign between spaces, in UTF-8. *)
Definition plus_minus : str := [" "; "194"; "177"; " "]%char.

(** [t] shows the mean [mu] and the deviation [s].  A deviation that is not 0 has two digits
    if its mantissa is less than the square root of ten, after rounding, and otherwise one.
    The mean is rounded to the same place, except where it has no digits after the dot and no
    exponent and its rounding carries. *)
Definition shows (t : str) (mu s : R) : Prop :=
  (s <> 0 -> exists M S e vM pM vS pS n, layout t plus_minus (Rltb mu 0) M S e /\
     numeral M vM pM /\ numeral S vS pS /\
     let k := (e - Z.of_nat pS)%Z in
     rounded s k (vS * ten e) /\ wanted_digits s (3 / 2) n /\ digits vS pS n /\
     (k <> 0%Z \/ e <> 0%Z \/ Rabs mu < 1 \/ no_carry mu k -> rounded mu k (vM * ten e))) /\
  (s = 0 -> mu <> 0 -> exists M, six_digits M mu /\ t = M ++ plus_minus ++ lit "0") /\
  (s = 0 -> mu = 0 -> t = lit "0" ++ plus_minus ++ lit "0").

(** [t] brought to [w] characters. *)
Definition padded (left : bool) (c : ascii) (w : Z) (t out : str) : Prop :=
  exists p, List.Forall (eq c) p /\ out = (if left then t ++ p else p ++ t) /\
    Z.of_nat (List.length out) = Z.max w (Z.of_nat (List.length t)).

Definition is_left (a : adjust) : bool := match a with AdjLeft => true | _ => false end.

(** The stream [os'] is [os] after it received [out]: the width is used up, everything else is
    as it was. *)
Definition received (os os' : ostream) (out : str) : Prop :=
  os_buf os' = os_buf os ++ out /\ os_width os' = 0%Z /\ os_good os' = os_good os /\
  os_fill os' = os_fill os /\ os_adjust os' = os_adjust os /\ os_precision os' = os_precision os /\
  os_float os' = os_float os /\ os_showpos os' = os_showpos os.

(** The settings that change what is written. *)
Definition same_layout (a b : ostream) : Prop :=
  os_good a = os_good b /\ os_width a = os_width b /\ os_fill a = os_fill b /\ os_adjust a = os_adjust b.

(** The text of one item of a chain that sets no width. *)
Definition piece (w : world RN) (i : item) (t : str) : Prop :=
  match i with
  | IVar v => shows t (u_n (w_var w v)) (u_s (w_var w v))
  | IText t' => t = t'
  | IWidth _ => False
  | _ => t = []
  end.

(** Characters of a text in UTF-8: the bytes that do not continue one. *)
Definition continues (c : ascii) : bool := (128 <=? nat_of_ascii c)%nat && (nat_of_ascii c <? 192)%nat.
Definition characters (t : str) : Z := Z.of_nat (List.length (filter (fun c => negb (continues c)) t)).
