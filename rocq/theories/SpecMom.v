(** * SpecMom: the distributions given by a program to its independent variables *)

From Coq Require Import List ZArith Bool Reals.
From Verif Require Import Base Num Map UReal World HessGrad Moments CheckMoments UReal2 World2 Sums SpecU2 SpecProb.
Import ListNotations.
Local Open Scope R_scope.

(** Standardized moments 3 to 8 of a variable with central moments 2 to 8 [p]. *)
Definition std_of (p : cmoms RN) : moms RN :=
  let s := sqrt (c2nd p) in
  let c := cnext p in
  mkM (v3 c / s ^ 3 : RN) (v4 c / s ^ 4 : RN) (v5 c / s ^ 5 : RN) (v6 c / s ^ 6 : RN) (v7 c / s ^ 7 : RN) (v8 c / s ^ 8 : RN).

(** Standard deviation and standardized moments asked for by a construction. *)
Definition made (c : call2 RN) : option (R * moms RN) :=
  match c with
  | ENew _ _ p _ => Some (sqrt (c2nd p), std_of p)
  | ENewStd _ _ s m _ => Some (s, m)
  | _ => None
  end.

(** Standard deviation and standardized moments of the independent variable with the
    given id, in the history [cs] started in [w]. *)
Fixpoint given (eig : list (list RN) -> option (list RN)) (w : world2 RN) (cs : list (call2 RN)) (id : Z) : option (R * moms RN) :=
  match cs with
  | [] => None
  | c :: cs' =>
      let '(w', o) := exec2 eig w c in
      match made c, o with
      | Some sm, Ret _ => if Z.eqb (w2_last w') id then Some sm else given eig w' cs' id
      | _, _ => given eig w' cs' id
      end
  end.

(** These moments are the standardized moments of some distribution. *)
Definition realizable (m : moms RN) : Prop :=
  exists (P : prob) (Z : Om P -> R), forall k, (k <= 8)%nat ->
    int P (fun o => Z o ^ k) /\ Ex P (fun o => Z o ^ k) = stdmom m k.

(** The random variable a UReal2 stands for: its polynomial in the standardized
    independent variables. *)
Definition value {P : expect} (j : jet) (ids : list Z) (X : Z -> Om P -> R) (o : Om P) : R :=
  j_mean j + quad ids (j_g j) (j_h j) X o.
(** The polynomial involves only the variables in [ids]. *)
Definition involves_only (j : jet) (ids : list Z) : Prop :=
  forall i, ~ In i ids -> j_g j i = 0 /\ forall k, j_h j i k = 0.
