(** * SpecObs: what a user can observe of UReal variables

    [same_obs w1 w2]: no sequence of the (non modifying) query functions n, s, var,
    cov, corr, isindep, indepid can tell the two states apart.  [grad] is left out
    because it is not a function of the value of a variable (see C15). *)

From Coq Require Import List ZArith Reals Lia.
Import ListNotations.
From Verif Require Import Base Num UReal World Sums SpecLin.
Local Open Scope R_scope.

Definition same_obs {N : Num} (w1 w2 : world N) : Prop :=
  forall u v : nat,
    u_n (w_var w1 u) = u_n (w_var w2 u) /\
    u_s (w_var w1 u) = u_s (w_var w2 u) /\
    u_var (w_var w1 u) = u_var (w_var w2 u) /\
    u_isindep (w_var w1 u) = u_isindep (w_var w2 u) /\
    u_indepid (w_var w1 u) = u_indepid (w_var w2 u) /\
    u_cov (w_var w1 u) (w_var w1 v) = u_cov (w_var w2 u) (w_var w2 v) /\
    u_corr (w_var w1 u) (w_var w1 v) = u_corr (w_var w2 u) (w_var w2 v).

(** The largest number of constructions the library supports (C46, C47). *)
Definition max_new : nat := Z.to_nat 2147483646.

Lemma max_new_Z n : (n <= max_new)%nat <-> (Z.of_nat n <= 2147483646)%Z.
Proof. unfold max_new. lia. Qed.
#[global] Opaque max_new.

(** Histories that respect the documented preconditions: enough derivatives for
    nary, no division by a variable of mean zero, and ids not exhausted. *)
Definition legal (cs : list (call RN)) : Prop :=
  List.Forall nary_ok cs /\ divisions_ok s_init cs /\ (count_new cs <= max_new)%nat.

(** A state some legal history leads to. *)
Definition reachable (w : world RN) : Prop :=
  exists cs, legal cs /\ run w_init cs = Ret w.

(** Two values are indistinguishable by the query functions, in the presence of the
    variables of [w]. *)
Definition same_value (w : world RN) (x y : ureal RN) : Prop :=
  u_n x = u_n y /\ u_s x = u_s y /\ u_var x = u_var y /\
  u_isindep x = u_isindep y /\ u_indepid x = u_indepid y /\
  (forall t, u_cov x (w_var w t) = u_cov y (w_var w t)) /\
  (forall t, u_corr x (w_var w t) = u_corr y (w_var w t)).

(** Queries that may modify the cache. *)
Definition is_query {N : Num} (c : call N) : bool :=
  match c with CS _ | CVar _ => true | _ => false end.
(** A history with the caching queries left out. *)
Definition without_queries {N : Num} (cs : list (call N)) : list (call N) :=
  List.filter (fun c => negb (is_query c)) cs.

(** Accumulating into [z0] with binary_assign, keeping the mean: derivative 1 for the
    accumulator and [snd p] for the variable number [fst p]. *)
Definition accumulate (w : world RN) (l : list (nat * R)) (z0 : ureal RN) : ureal RN :=
  fold_left (fun z p => u_binary_assign z (w_var w (fst p)) (umu z) 1 (snd p)) l z0.

(** A numeric conversion from [N] that commutes with the arithmetic used by cov *)
Definition hom {N : Num} (c : N -> R) : Prop :=
  c n0 = 0 /\ (forall a b, c (nadd a b) = c a + c b) /\ (forall a b, c (nmul a b) = c a * c b).
