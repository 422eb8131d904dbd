(** * SpecMove: what a program that moves variables may expect

    A program that does not look at a variable after moving it away, before
    assigning it again, cannot distinguish moves from copies. *)

From Coq Require Import List ZArith Bool.
From Verif Require Import Base Num Map UReal World HessGrad Moments CheckMoments UReal2 World2 Move SpecOrder.
Import ListNotations.

Section Spec.
  Context {N : Num}.
  Variable eig : list (list N) -> option (list N).

  (** The same program with copies in place of moves. *)
  Definition copied (e : event N) : call2 N :=
    match e with
    | VCall c => c
    | VMove1 v x _ => E1 (CCopy v x)
    | VMove2 v x _ _ => ECopy v x
    end.

  (** The variables that were moved away: those of type UReal and those of type
      UReal2. *)
  Record gone : Type := mkG { gone1 : nat -> Prop; gone2 : nat -> Prop }.
  Definition nothing_gone : gone := mkG (fun _ => False) (fun _ => False).

  (** The event does not look at a variable which was moved away. *)
  Definition looks_ok (g : gone) (e : event N) : Prop :=
    match copied e with
    | E1 c => forall u, In u (reads c) -> ~ gone1 g u
    | c => forall u, In u (reads2 c) -> ~ gone2 g u
    end.

  (** The variables moved away after the event, in the state [w] of the program
      that copies.  A call that throws assigns nothing. *)
  Definition gone_after (w : world2 N) (g : gone) (e : event N) : gone :=
    match e with
    | VMove1 v x _ => mkG (fun u => u = x \/ u <> v /\ gone1 g u) (gone2 g)
    | VMove2 v x _ _ => mkG (gone1 g) (fun u => u = x \/ u <> v /\ gone2 g u)
    | VCall c =>
        match snd (exec2 eig w c) with
        | Ret _ => match c with
                   | E1 c => mkG (fun u => u <> writes c /\ gone1 g u) (gone2 g)
                   | c => mkG (gone1 g) (fun u => u <> writes2 c /\ gone2 g u)
                   end
        | _ => g
        end
    end.

  Fixpoint clean (w : world2 N) (g : gone) (es : list (event N)) : Prop :=
    match es with
    | [] => True
    | e :: es' => looks_ok g e /\ clean (fst (exec2 eig w (copied e))) (gone_after w g e) es'
    end.
  Fixpoint gone_end (w : world2 N) (g : gone) (es : list (event N)) : gone :=
    match es with
    | [] => g
    | e :: es' => gone_end (fst (exec2 eig w (copied e))) (gone_after w g e) es'
    end.

  (** Equal outcomes; if both return, the same counter and the same variables
      apart from those moved away. *)
  Definition same_but (g : gone) (a b : outcome (world2 N)) : Prop :=
    match a, b with
    | Ret w, Ret w' => w2_last w = w2_last w' /\
        (forall u, ~ gone1 g u -> w_var (w2_w w) u = w_var (w2_w w') u) /\
        (forall u, ~ gone2 g u -> w2_var w u = w2_var w' u)
    | UB, UB | Assert, Assert => True
    | _, _ => False
    end.

  (** Nothing is left in the containers that were moved away. *)
  Definition empties (e : event N) : Prop :=
    match e with VCall _ => True | VMove1 _ _ r => r = [] | VMove2 _ _ r s => r = [] /\ s = [] end.
End Spec.
Arguments gone : clear implicits.
