(** * PropsStream: output of UReal and UReal2 on streams (C89)

    Generated from tools/PropsStream.in. *)

From Coq Require Import List ZArith Bool Reals Ascii String Lra Lia.
From Verif Require Import Base Num Map UReal World HessGrad Moments CheckMoments UReal2 World2 SpecObs SpecU2Run Io SpecIo
  Stream SpecStream StreamProofs StreamFull SpecStreamFull Demo2 Demo3 StreamDemo StreamFullProofs.
Import ListNotations.
Local Open Scope R_scope.

(** ** C89: [os << x] writes one text that shows the mean and the deviation, the same on every stream, padded as a string
    would be; it uses up the width and changes nothing else; if the stream is not good it does nothing. *)
@C89_ureal
(** The same for a UReal2, with n() and s() of its propagation mode. *)
@C89_ureal2
Example C89_case_negative : exists w, run2 no_eig w2_init impossible = Ret w /\ reachable2 no_eig w /\ u2_var (w2_var w 1%nat) = Ret (-1).
Proof. exact negative_variance. Qed.
(** Chains: the texts one after the other, whatever settings other than the width are between them; a width applies to the
    variable that follows it only. *)
@C89_chain
@C89_width_used_once
(** Variables printed alike have deviations, and means, that differ by less than a unit of the last digit, and this unit is
    at most twice the deviation.  Missing: means whose rounding carries when the last digit is that of the units. *)
@C89_same_text_partial
(** 9.6 +- 12 and 1.2 +- 12 are both printed as 1 +- 12. *)
@C89_same_text_refuted
(** The width counts bytes, of which the plus-minus sign has two.  So a field of width n has n - 1 characters, unless the
    text is longer.  Missing: n characters, see the next theorem. *)
@C89_characters_partial
@C89_characters_refuted
Example C89_case : exists w, reachable w /\ u_s (w_var w 0%nat) <> 0 /\ u_s (w_var w 1%nat) <> 0 /\
  os_good cout = true /\ os_width cout = 0%Z /\ continues (os_fill cout) = false /\
  (forall n, ~ In (IWidth n) [IPrecision 3; IVar 0%nat; IText (lit ", "); IVar 1%nat]) /\
  chain w cout [IWidth 10; IAdjust AdjLeft; IPrecision 3; IVar 0%nat; IText (lit ", "); IShowpos true; IVar 1%nat]
  = Ret (mkOs (lit "1" ++ plus_minus ++ lit "12   , 1" ++ plus_minus ++ lit "12") true 0 " "%char AdjLeft 3 0 true).
Proof. exact stream_case. Qed.
(** Chains with variables of both classes. *)
@C89_chain_both_classes
(** Any buffer: the stream holds the beginning of what it would hold if the buffer had taken everything; if it is still good
    nothing is missing.  A buffer with place for n characters holds the first n. *)
@C89_any_buffer
@C89_endless_as_before
(** A stream that throws has received the same text as one that does not, and throws exactly if a part of it is missing. *)
@C89_throwing_stream
Example C89_case_full : exists w os', reachable2 no_eig w /\ os_good cout = true /\ (os_width cout <= 0)%Z /\
  (forall n, ~ In (IOne (IWidth n)) [IVar2 1%nat; IOne (IText (lit ", ")); IOne (IVar 0%nat)]) /\
  chain_on (room 3) 0 PropEst w cout [IVar2 1%nat; IOne (IText (lit ", ")); IOne (IVar 0%nat)] = Ret os' /\
  List.length (os_buf os') = 3%nat /\ os_good os' = false.
Proof. exact full_case. Qed.
