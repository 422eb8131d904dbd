(** * SpecAlloc: vocabulary for the statements about std::bad_alloc *)

From Coq Require Import List ZArith Bool Reals.
From Verif Require Import Base Num Map UReal World SpecLin Alloc.
Import ListNotations.

(** An implementation of std::map: copying allocates at most one node per element,
    exactly that if there are no nodes to reuse; a failed copy leaves a map whose
    keys come from the two maps. *)
Definition good_map_lib {V : Type} (L : map_lib V) : Prop :=
  forall m m' : list (Z * V),
    (cp_count L m m' <= length m')%nat /\ cp_count L [] m' = length m' /\
    (msorted m -> msorted m' -> forall k,
       msorted (cp_left L m m' k) /\
       forall i, In i (map fst (cp_left L m m' k)) -> In i (map fst m) \/ In i (map fst m')).

(** [v = x] and the compound assignments modify [v] in place; all the other calls
    compute a new object which is then moved to [v]. *)
Definition in_place {N : Num} (c : call N) : bool :=
  match c with
  | CCopy _ _ | CAssign _ _ _ _ _ | CAddA _ _ | CSubA _ _ | CMulA _ _ | CDivA _ _ => true
  | _ => false
  end.

(** The part of a linear form up to the variable [j] excluded. *)
Definition lin_before (j : Z) (a : lin) : lin :=
  mkLin (l_mean a) (fun i => l_dep a i /\ (i < j)%Z)
        (fun i => if Z_lt_dec i j then l_coef a i else 0%R).

(** The std::map of libc++: nodes are reused; what is left are the elements copied so far. *)
Definition reusing_lib (V : Type) : map_lib V :=
  mkMapLib V (fun m m' => (length m' - length m)%nat)
           (fun m m' k => firstn (length m + k) m').
