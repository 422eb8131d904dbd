(** * PropsStream: output of UReal and UReal2 on streams (C89)

    Generated from tools/PropsStream.in. *)

From Coq Require Import List ZArith Bool Reals Ascii String Lra Lia.
From Verif Require Import Base Num Map UReal World HessGrad Moments CheckMoments UReal2 World2 SpecObs SpecU2Run Io SpecIo
  Stream SpecStream StreamProofs StreamFull SpecStreamFull Demo2 Demo3 StreamDemo StreamFullProofs.
Import ListNotations.
Local Open Scope R_scope.

(** ** C89: [os << x] writes one text that shows the mean and the deviation, the same on every stream, padded as a string
    would be; it uses up the width and changes nothing else; if the stream is not good it does nothing. *)
Theorem C89_ureal : forall w, reachable w -> forall v, let x := w_var w v in
  exists t, shows t (u_n x) (u_s x) /\
  forall os, exists os', print_ureal os x = Ret os' /\
    (os_good os = true -> exists out,
       padded (is_left (os_adjust os)) (os_fill os) (os_width os) t out /\ received os os' out) /\
    (os_good os = false -> os' = os).
Proof. exact C89_ureal_proof. Qed.
Print Assumptions C89_ureal.
(** The same for a UReal2, with n() and s() of its propagation mode. *)
Theorem C89_ureal2 : forall eig (w : world2 RN), reachable2 eig w -> forall p v, let x := w2_var w v in
  exists n m2 t, u2_n p x = Ret n /\ u2_var x = Ret m2 /\
    (0 <= m2 -> u2_s x = Ret (sqrt m2) /\ shows t n (sqrt m2)) /\
    (m2 < 0 -> exists M, (n = 0 -> M = lit "0") /\ (n <> 0 -> six_digits M n) /\ t = M ++ plus_minus ++ lit "nan") /\
  forall os, exists os', print_ureal2 p os x = Ret os' /\
    (os_good os = true -> exists out,
       padded (is_left (os_adjust os)) (os_fill os) (os_width os) t out /\ received os os' out) /\
    (os_good os = false -> os' = os).
Proof. exact C89_ureal2_proof. Qed.
Print Assumptions C89_ureal2.
Example C89_case_negative : exists w, run2 no_eig w2_init impossible = Ret w /\ reachable2 no_eig w /\ u2_var (w2_var w 1%nat) = Ret (-1).
Proof. exact negative_variance. Qed.
(** Chains: the texts one after the other, whatever settings other than the width are between them; a width applies to the
    variable that follows it only. *)
Theorem C89_chain : forall w, reachable w -> forall os is, os_good os = true -> (os_width os <= 0)%Z ->
  (forall n, ~ In (IWidth n) is) ->
  exists os' ts, chain w os is = Ret os' /\ List.Forall2 (piece w) is ts /\ os_buf os' = os_buf os ++ List.concat ts.
Proof. exact C89_chain_proof. Qed.
Print Assumptions C89_chain.
Theorem C89_width_used_once : forall w, reachable w -> forall os n v is, os_good os = true ->
  (forall n, ~ In (IWidth n) is) ->
  exists os' t out ts, chain w os (IWidth n :: IVar v :: is) = Ret os' /\
    shows t (u_n (w_var w v)) (u_s (w_var w v)) /\
    padded (is_left (os_adjust os)) (os_fill os) n t out /\
    List.Forall2 (piece w) is ts /\ os_buf os' = os_buf os ++ out ++ List.concat ts.
Proof. exact C89_width_used_once_proof. Qed.
Print Assumptions C89_width_used_once.
(** Variables printed alike have deviations, and means, that differ by less than a unit of the last digit, and this unit is
    at most twice the deviation.  Missing: means whose rounding carries when the last digit is that of the units. *)
Theorem C89_same_text_partial : forall w, reachable w -> forall u v os os1 os2,
  os_good os = true -> (os_width os <= 0)%Z ->
  let x := w_var w u in let y := w_var w v in u_s x <> 0 -> u_s y <> 0 ->
  print_ureal os x = Ret os1 -> print_ureal os y = Ret os2 -> os_buf os1 = os_buf os2 ->
  exists k, ten k <= 2 * u_s x /\ Rabs (u_s x - u_s y) < ten k /\
    (k <> 0%Z \/ no_carry (u_n x) k /\ no_carry (u_n y) k -> Rabs (u_n x - u_n y) < ten k).
Proof. exact C89_same_text_partial_proof. Qed.
Print Assumptions C89_same_text_partial.
(** 9.6 +- 12 and 1.2 +- 12 are both printed as 1 +- 12. *)
Theorem C89_same_text_refuted : exists w u v os os1 os2, reachable w /\ os_good os = true /\ os_width os = 0%Z /\
  print_ureal os (w_var w u) = Ret os1 /\ print_ureal os (w_var w v) = Ret os2 /\ os_buf os1 = os_buf os2 /\
  os_buf os1 = lit "1" ++ plus_minus ++ lit "12" /\
  u_s (w_var w u) = 12 /\ u_s (w_var w v) = 12 /\ u_n (w_var w u) - u_n (w_var w v) = 84 / 10.
Proof. exact C89_same_text_refuted_proof. Qed.
Print Assumptions C89_same_text_refuted.
(** The width counts bytes, of which the plus-minus sign has two.  So a field of width n has n - 1 characters, unless the
    text is longer.  Missing: n characters, see the next theorem. *)
Theorem C89_characters_partial : forall w, reachable w -> forall v os os', os_good os = true ->
  continues (os_fill os) = false -> print_ureal os (w_var w v) = Ret os' ->
  exists out, os_buf os' = os_buf os ++ out /\ characters out = (Z.of_nat (List.length out) - 1)%Z /\
    (os_width os <= Z.of_nat (List.length out))%Z /\
    ((os_width os <= characters out)%Z \/ characters out = (os_width os - 1)%Z).
Proof. exact C89_characters_partial_proof. Qed.
Print Assumptions C89_characters_partial.
Theorem C89_characters_refuted : exists w v os os', reachable w /\ os_good os = true /\ os_width os = 10%Z /\
  print_ureal os (w_var w v) = Ret os' /\
  os_buf os' = os_buf os ++ lit "   1" ++ plus_minus ++ lit "12" /\
  characters (lit "   1" ++ plus_minus ++ lit "12") = 9%Z.
Proof. exact C89_characters_refuted_proof. Qed.
Print Assumptions C89_characters_refuted.
Example C89_case : exists w, reachable w /\ u_s (w_var w 0%nat) <> 0 /\ u_s (w_var w 1%nat) <> 0 /\
  os_good cout = true /\ os_width cout = 0%Z /\ continues (os_fill cout) = false /\
  (forall n, ~ In (IWidth n) [IPrecision 3; IVar 0%nat; IText (lit ", "); IVar 1%nat]) /\
  chain w cout [IWidth 10; IAdjust AdjLeft; IPrecision 3; IVar 0%nat; IText (lit ", "); IShowpos true; IVar 1%nat]
  = Ret (mkOs (lit "1" ++ plus_minus ++ lit "12   , 1" ++ plus_minus ++ lit "12") true 0 " "%char AdjLeft 3 0 true).
Proof. exact stream_case. Qed.
(** Chains with variables of both classes. *)
Theorem C89_chain_both_classes : forall eig (w : world2 RN), reachable2 eig w -> forall prop os is wf, os_good os = true -> (os_width os <= 0)%Z ->
  (forall n, ~ In (IOne (IWidth n)) is) ->
  exists os' ts, chain_on endless wf prop w os is = Ret os' /\ List.Forall2 (piece2 prop w) is ts /\ os_buf os' = os_buf os ++ List.concat ts.
Proof. exact C89_chain_both_classes_proof. Qed.
Print Assumptions C89_chain_both_classes.
(** Any buffer: the stream holds the beginning of what it would hold if the buffer had taken everything; if it is still good
    nothing is missing.  A buffer with place for n characters holds the first n. *)
Theorem C89_any_buffer : forall eig (w : world2 RN), reachable2 eig w -> forall prop os is, os_good os = true ->
  exists os0, (forall wf, chain_on endless wf prop w os is = Ret os0) /\ os_good os0 = true /\
  forall takes wfail, exists os', chain_on takes wfail prop w os is = Ret os' /\
    prefix (os_buf os) (os_buf os') /\ prefix (os_buf os') (os_buf os0) /\
    (os_good os' = true -> os' = os0) /\
    ((forall b t, (List.length t <= takes b t)%nat) -> os' = os0) /\
    (forall n, takes = room n -> (List.length (os_buf os) <= n)%nat ->
       os_buf os' = firstn n (os_buf os0) /\ (os_good os' = true <-> (List.length (os_buf os0) <= n)%nat)).
Proof. exact C89_any_buffer_proof. Qed.
Print Assumptions C89_any_buffer.
Theorem C89_endless_as_before : forall (w : world2 RN) wf prop os is,
  chain_on endless wf prop w os (List.map IOne is) = chain (w2_w w) os is.
Proof. exact C89_endless_as_before_proof. Qed.
Print Assumptions C89_endless_as_before.
(** A stream that throws has received the same text as one that does not, and throws exactly if a part of it is missing. *)
Theorem C89_throwing_stream : forall eig (w : world2 RN), reachable2 eig w -> forall takes wfail prop os is, os_good os = true ->
  exists os1 os2 thrown, chain_throwing takes wfail prop w os is = Ret (os1, thrown) /\ chain_on takes wfail prop w os is = Ret os2 /\
    os_buf os1 = os_buf os2 /\ thrown = negb (os_good os2) /\ os_good os1 = os_good os2 /\ (thrown = false -> os1 = os2).
Proof. exact C89_throwing_stream_proof. Qed.
Print Assumptions C89_throwing_stream.
Example C89_case_full : exists w os', reachable2 no_eig w /\ os_good cout = true /\ (os_width cout <= 0)%Z /\
  (forall n, ~ In (IOne (IWidth n)) [IVar2 1%nat; IOne (IText (lit ", ")); IOne (IVar 0%nat)]) /\
  chain_on (room 3) 0 PropEst w cout [IVar2 1%nat; IOne (IText (lit ", ")); IOne (IVar 0%nat)] = Ret os' /\
  List.length (os_buf os') = 3%nat /\ os_good os' = false.
Proof. exact full_case. Qed.
