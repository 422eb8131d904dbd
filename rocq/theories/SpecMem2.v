(** * SpecMem2: vocabulary for the statements about the memory used by UReal2

    A variable of type UReal2 holds a node for each independent variable it depends on
    and one for each mixed derivative it has recorded. *)

From Coq Require Import List ZArith Bool Reals.
From Verif Require Import Base Num Map HessGrad UReal2 World2 SpecU2 SpecU2Mixed Alloc2.
Import ListNotations.

(** The pairs recorded in [x] that a function leaves in its result, if [f2] is its
    second derivative with respect to [x]. *)
Definition keeps (f2 : R) (x : ureal2 RN) (i j : Z) : Prop :=
  (f2 = 0%R /\ recorded x i j) \/
  (f2 <> 0%R /\ follows (jet_of x) i j /\ exists k, recorded x i k).
(** The pairs made by a variable of [x] and a different one of [y]. *)
Definition crossed (x y : ureal2 RN) (i j : Z) : Prop :=
  (i < j)%Z /\
  ((j_dep (jet_of x) i /\ j_dep (jet_of y) j) \/ (j_dep (jet_of x) j /\ j_dep (jet_of y) i)).

(** [x] depends on [d] variables and has [p] recorded pairs. *)
Definition size_of (x : ureal2 RN) (d p : nat) : Prop :=
  (exists l : list Z, NoDup l /\ length l = d /\ forall i, In i l <-> j_dep (jet_of x) i) /\
  (exists l : list (Z * Z), NoDup l /\ length l = p /\ forall i j, In (i, j) l <-> recorded x i j).

(** The call performs exactly [n] allocations: it throws std::bad_alloc if and only if
    less than [n] of them succeed. *)
Definition allocates2 (eig : list (list RN) -> option (list RN)) (L : libs RN) (w : world2 RN) (c : call2 RN) (n : nat) : Prop :=
  forall k, snd (exec2_a eig L k w c) = None <-> (k < n)%nat.

(** Copying a map allocates one node for each element the destination does not have
    already, whatever the keys; libstdc++ and libc++ do so. *)
Definition reuses {K V : Type} (T : tree_lib K V) : Prop :=
  forall m m', cq_count T m m' = (length m' - length m)%nat.

(** Programs on UReal2 that only create variables, copy, negate and multiply. *)
Definition products_only (c : call2 RN) : Prop :=
  match c with
  | EUnary _ _ _ _ _ | EBinary _ _ _ _ _ _ _ _ _ | EAdd _ _ _ | ESub _ _ _ | EDiv _ _ _ => False
  | _ => True
  end.
Definition computes2 {N : Num} (c : call2 N) : bool :=
  match c with E1 _ | ECopy _ _ => false | _ => true end.
