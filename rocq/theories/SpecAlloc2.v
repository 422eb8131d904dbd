(** * SpecAlloc2: vocabulary for the statements about std::bad_alloc with UReal2 *)

From Coq Require Import List ZArith Bool.
From Verif Require Import Base Num Map UReal World SpecOrder HessGrad Moments CheckMoments UReal2 World2 Alloc SpecAlloc Alloc2.
Import ListNotations.

(** An implementation of std::map: copying allocates at most one node per element.
    Nothing is assumed about what a failed copy leaves in a UReal2. *)
Definition good_libs {N : Num} (L : libs N) : Prop :=
  good_map_lib (lib_sigma L) /\
  (forall m m', cq_count (lib_diag L) m m' <= length m')%nat /\
  (forall m m', cq_count (lib_tri L) m m' <= length m')%nat.

(** The std::map of libstdc++ (nodes are reused, a failed copy leaves nothing) and
    that of libc++ (nodes are reused, what is left are the elements copied so far). *)
Definition libstdcxx (N : Num) : libs N :=
  mkLibs N (mkMapLib N (fun m m' => (length m' - length m)%nat) (fun _ _ _ => []))
           (mkTreeLib Z (diag N) (fun m m' => (length m' - length m)%nat) (fun _ _ _ => []))
           (mkTreeLib (Z * Z) N (fun m m' => (length m' - length m)%nat) (fun _ _ _ => [])).
Definition libcxx (N : Num) : libs N :=
  mkLibs N (reusing_lib N)
           (mkTreeLib Z (diag N) (fun m m' => (length m' - length m)%nat) (fun m m' k => firstn (length m + k) m'))
           (mkTreeLib (Z * Z) N (fun m m' => (length m' - length m)%nat) (fun m m' k => firstn (length m + k) m')).

(** The variables of type UReal2 a call uses. *)
Definition used2 {N : Num} (c : call2 N) : list nat := match c with E1 _ => [] | c => reads2 c end.

(** The number of nodes that is always enough, for a call with operands that depend
    on [n] independent variables in total: [n] and one for each pair. *)
Definition room (n : nat) : nat := (n + n * (n - 1) / 2)%nat.
Definition operands {N : Num} (w : world2 N) (c : call2 N) : nat :=
  fold_right (fun x n => (length (diagmap (u2hg (w2_var w x))) + n)%nat) O (used2 c).

Section Careful.
  Context {N : Num}.
  Variable eig : list (list N) -> option (list N).
  Variable L : libs N.

  (** The variables that were the left hand side of a failed [v = x] and were not
      assigned since. *)
  Definition broken_after (bad : nat -> bool) (c : call2 N) (o : option (outcome unit)) : nat -> bool :=
    match c, o with
    | E1 _, _ => bad
    | ECopy v _, None => fun u => Nat.eqb u v || bad u
    | _, Some (Ret _) => fun u => negb (Nat.eqb u (writes2 c)) && bad u
    | _, _ => bad
    end.
  Fixpoint broken_by (bad : nat -> bool) (w : world2 N) (cs : list (call2 N * nat)) : nat -> bool :=
    match cs with
    | [] => bad
    | (c, k) :: cs' =>
        broken_by (broken_after bad c (snd (exec2_a eig L k w c))) (fst (exec2_a eig L k w c)) cs'
    end.
  (** They are not used. *)
  Fixpoint careful (bad : nat -> bool) (w : world2 N) (cs : list (call2 N * nat)) : Prop :=
    match cs with
    | [] => True
    | (c, k) :: cs' =>
        (forall u, In u (used2 c) -> bad u = false) /\
        careful (broken_after bad c (snd (exec2_a eig L k w c))) (fst (exec2_a eig L k w c)) cs'
    end.
End Careful.
Definition none_broken : nat -> bool := fun _ => false.

(** A call that either succeeds or has no effect at all: it does not modify a variable
    in place and does not take an id. *)
Definition all_or_nothing {N : Num} (c : call2 N) : bool :=
  match c with
  | E1 c => negb (in_place c)
  | ENew _ _ _ _ | ENewStd _ _ _ _ _ | ECopy _ _ => false
  | _ => true
  end.
Section Done.
  Context {N : Num}.
  Variable eig : list (list N) -> option (list N).
  Variable L : libs N.
  (** The calls of a history that did not run out of memory. *)
  Fixpoint done_calls (w : world2 N) (cs : list (call2 N * nat)) : list (call2 N) :=
    match cs with
    | [] => []
    | (c, k) :: cs' =>
        let r := exec2_a eig L k w c in
        match snd r with None => done_calls (fst r) cs' | Some _ => c :: done_calls (fst r) cs' end
    end.
  (** All those that did are of the kind above. *)
  Fixpoint fails_well (w : world2 N) (cs : list (call2 N * nat)) : Prop :=
    match cs with
    | [] => True
    | (c, k) :: cs' =>
        let r := exec2_a eig L k w c in
        (snd r = None -> all_or_nothing c = true) /\ fails_well (fst r) cs'
    end.
End Done.
