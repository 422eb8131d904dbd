(** * SpecAffine: programs of sums, differences and products with numbers, for C90 *)

From Coq Require Import List ZArith Reals.
From Verif Require Import Base Num UReal World SpecAD.
Import ListNotations.
Local Open Scope R_scope.

(** The result does not depend on the independent variables: a number. *)
Definition a_number (f : env -> R) : Prop := forall e e', f e = f e'.
(** Sums and differences; products if a factor is a number; divisions by a number. *)
Definition affine_call (w : adworld) (c : call RN) : Prop :=
  let F := ad_fun w in
  match c with
  | CNew _ _ _ | CConst _ _ | CDefault _ | CCopy _ _ | CNeg _ _ | CAdd _ _ _ | CSub _ _ _
  | CAddA _ _ | CSubA _ _ | CS _ | CVar _ => True
  | CMul _ x y | CMulA x y => a_number (F x) \/ a_number (F y)
  | CDiv _ _ y | CDivA _ y => a_number (F y)
  | _ => False
  end.
Fixpoint affine_run (w : adworld) (cs : list (call RN)) : Prop :=
  match cs with
  | [] => True
  | c :: cs' => affine_call w c /\ affine_run (ad_exec w c) cs'
  end.
