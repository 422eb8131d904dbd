(** * Moments: model of /repo/uncertainties/internal/moments.hpp

    The loops are transcribed one by one: each [m += e] of the C++ text is one
    [let m := m + e in], in the same order, with the label of the C++ comment.
    [for_each], [for_tails] and [for_while] are the loop shapes.  The loop bodies are
    separate definitions.  Where the C++ text iterates with a ConstTriIt, the
    list of its visits is computed first (the loops do not modify the storage). *)

From Coq Require Import List ZArith Bool.
From Verif Require Import Base Num Map HessGrad.
Import ListNotations.

(** [for (it = l.begin(); it != l.end(); ++it)] *)
Definition for_each {A S : Type} (f : A -> S -> S) (l : list A) (m : S) : S :=
  fold_left (fun m a => f a m) l m.
(** The same, where the body also starts another loop at [it + 1]. *)
Fixpoint for_tails {A S : Type} (f : A -> list A -> S -> S) (l : list A) (m : S) : S :=
  match l with
  | [] => m
  | a :: l' => for_tails f l' (f a l' m)
  end.
Fixpoint ofor_tails {A S : Type} (f : A -> list A -> S -> outcome S) (l : list A) (m : S) : outcome S :=
  match l with
  | [] => Ret m
  | a :: l' => m' <- f a l' m;; ofor_tails f l' m'
  end.
(** [for (; it != end && test(it); ++it)] *)
Fixpoint ofor_while {A S : Type} (test : A -> bool) (f : A -> S -> outcome S) (l : list A) (m : S) : outcome S :=
  match l with
  | [] => Ret m
  | a :: l' => if test a then m' <- f a m;; ofor_while test f l' m' else Ret m
  end.

Section Moments.
  Context {N : Num}.
  Local Open Scope num_scope.

  (** A [Diag] whose moments are initialised. *)
  Record rdiag : Type := mkRD { G : N; H : N; M : moms N }.
  (** Entry of the diagonal map: it->first, it->second. *)
  Definition dentry : Type := (Z * rdiag)%type.
  (** Visit of a ConstTriIt: id1(), id2(), diag1(), diag2(), *it. *)
  Record tentry : Type := mkT { id1 : Z; id2 : Z; diag1 : rdiag; diag2 : rdiag; val : N }.

  (** Reading uninitialised moments is undefined behaviour.  compute_m2, m3 and m4
      read the moments of every variable in their first loop; the model reads them
      all beforehand. *)
  Definition read_diag (d : diag N) : outcome rdiag :=
    match dmom d with
    | Some p => Ret (mkRD (dgrad d) (dhh d) p)
    | None => UB
    end.
  Definition read_entry (kd : Z * diag N) : outcome dentry :=
    d <- read_diag (snd kd);; Ret (fst kd, d).
  Definition read_visit (v : visit N) : outcome tentry :=
    d1 <- read_diag (vd1 v);; d2 <- read_diag (vd2 v);;
    Ret (mkT (vid1 v) (vid2 v) d1 d2 (vval v)).

  (** moments.hpp 41-51 *)
  Definition compute_m1 (hg : hessgrad N) : N :=
    for_each (fun it m => m + dhh (snd it)) (diagmap hg) n0.

  (** moments.hpp 71-77 *)
  Definition m2_A (it : dentry) (m : N) : N :=
    let d := snd it in
    let m := m + G d * G d in (* A1 *)
    let m := m + nofZ 2 * G d * H d * v3 (M d) in (* A2 *)
    let m := m + H d * H d * v4 (M d) in (* A3 *)
    m.
  (** moments.hpp 79-86 *)
  Definition m2_B (it : tentry) (m : N) : N :=
    let d1 := diag1 it in
    let d2 := diag2 it in
    let hhess := val it in
    let m := m + nofZ 2 * (H d1 * H d2 + nofZ 2 * hhess * hhess) in (* B2, B1 *)
    m.
  (** moments.hpp 54-89 *)
  Definition m2_loops (ds : list dentry) (ts : list tentry) : N :=
    for_each m2_B ts (for_each m2_A ds n0).
  Definition compute_m2 (hg : hessgrad N) : outcome N :=
    ds <- omapM read_entry (diagmap hg);;
    ts0 <- tri_visits hg false;;
    ts <- omapM read_visit ts0;;
    Ret (m2_loops ds ts).

  (** moments.hpp 142-149 *)
  Definition m3_C (hhess hhess2 : N) (it3 : dentry) (m : N) : N :=
    let hhess3 := H (snd it3) in
    let m := m + nofZ 6 * hhess * hhess2 * hhess3 in (* C1 *)
    m.
  (** moments.hpp 129-149 *)
  Definition m3_B (it : rdiag) (it2 : dentry) (rest : list dentry) (m : N) : N :=
    let grad := G it in
    let hhess := H it in
    let mom := M it in
    let grad2 := G (snd it2) in
    let hhess2 := H (snd it2) in
    let mom2 := M (snd it2) in
    let m := m + nofZ 3 * grad2 * grad2 * hhess in (* B1(i, j) *)
    let m := m + nofZ 3 * grad * grad * hhess2 in (* B1(j, i) *)
    let m := m + nofZ 6 * grad * hhess * hhess2 * v3 mom in (* B2(i, j) *)
    let m := m + nofZ 6 * grad2 * hhess2 * hhess * v3 mom2 in (* B2(j, i) *)
    let m := m + nofZ 3 * hhess * hhess * hhess2 * v4 mom in (* B3(i, j) *)
    let m := m + nofZ 3 * hhess2 * hhess2 * hhess * v4 mom2 in (* B3(j, i) *)
    for_each (m3_C hhess hhess2) rest m.
  (** moments.hpp 151-163 *)
  Definition m3_F (id : Z) (hhess : N) (it2 : tentry) (m : N) : N :=
    if ((id1 it2 =? id)%Z || (id2 it2 =? id)%Z) then m else
    let hhess2 := val it2 in
    let m := m + nofZ (2 * 6) * hhess * hhess2 * hhess2 in (* F1 *)
    m.
  (** moments.hpp 119-164 *)
  Definition m3_A (ts : list tentry) (it : dentry) (rest : list dentry) (m : N) : N :=
    let grad := G (snd it) in
    let hhess := H (snd it) in
    let mom := M (snd it) in
    let m := m + grad * grad * grad * v3 mom in (* A1 *)
    let m := m + nofZ 3 * grad * grad * hhess * v4 mom in (* A2 *)
    let m := m + nofZ 3 * grad * hhess * hhess * v5 mom in (* A3 *)
    let m := m + hhess * hhess * hhess * v6 mom in (* A4 *)
    let m := for_tails (m3_B (snd it)) rest m in
    for_each (m3_F (fst it) hhess) ts m.
  (** moments.hpp 181-190 *)
  Definition m3_E (hg : hessgrad N) (it it2 : tentry) (m : N) : outcome N :=
    let hhess := val it in
    let hhess2 := val it2 in
    hhess3 <- hg_tri_get hg (id2 it) (id2 it2);;
    let m := m + nofZ (6 * 8) * hhess * hhess2 * hhess3 in (* E1 *)
    Ret m.
  (** moments.hpp 166-179 *)
  Definition m3_D (it : tentry) (m : N) : N :=
    let d1 := diag1 it in
    let d2 := diag2 it in
    let hhess := val it in
    let m := m + nofZ (2 * 6) * G d1 * G d2 * hhess in (* D1 *)
    let m := m + nofZ 12 * G d2 * H d1 * hhess * v3 (M d1) in (* D2(i, j) *)
    let m := m + nofZ 12 * G d1 * H d2 * hhess * v3 (M d2) in (* D2(j, i) *)
    let m := m + nofZ 12 * G d1 * hhess * hhess * v3 (M d1) in (* D3(i, j) *)
    let m := m + nofZ 12 * G d2 * hhess * hhess * v3 (M d2) in (* D3(j, i) *)
    let m := m + nofZ 12 * H d1 * hhess * hhess * v4 (M d1) in (* D4(i, j) *)
    let m := m + nofZ 12 * H d2 * hhess * hhess * v4 (M d2) in (* D4(j, i) *)
    let m := m + nofZ (2 * 4) * hhess * hhess * hhess * v3 (M d1) * v3 (M d2) in (* D5 *)
    let m := m + nofZ (2 * 6) * H d1 * hhess * H d2 * v3 (M d1) * v3 (M d2) in (* D6 *)
    m.
  (** moments.hpp 166-191; cycle E starts at the visit after [it] and stays in the row. *)
  Definition m3_DE (hg : hessgrad N) (it : tentry) (rest : list tentry) (m : N) : outcome N :=
    ofor_while (fun it2 => (id1 it2 =? id1 it)%Z) (m3_E hg it) rest (m3_D it m).
  (** moments.hpp 92-194 *)
  Definition compute_m3 (hg : hessgrad N) : outcome N :=
    ds <- omapM read_entry (diagmap hg);;
    ts0 <- tri_visits hg true;;
    ts <- omapM read_visit ts0;;
    ofor_tails (m3_DE hg) ts (for_tails (m3_A ts) ds n0).

  (** moments.hpp 304-313 *)
  Definition m4_D (id : Z) (d d2 d3 : rdiag) (it4 : dentry) (m : N) : N :=
    if (id =? fst it4)%Z then m else
    let d4 := snd it4 in
    let m := m + nofZ (2 * 3) * H d * H d2 * H d3 * H d4 in (* D1_ijkl + D1_ijlk + D1_ikjl + D1_iklj + D1_iljk + D1_ilkj *)
    m.
  (** moments.hpp 292-313 *)
  Definition m4_C (id : Z) (d d2 : rdiag) (it3 : dentry) (rest : list dentry) (m : N) : N :=
    if (id =? fst it3)%Z then m else
    let d3 := snd it3 in
    let m := m + nofZ 6 * G d3 * G d3 * H d * H d2 in (* C1_ijk *)
    let m := m + nofZ 6 * G d2 * G d2 * H d * H d3 in (* C1_ikj *)
    let m := m + nofZ (2 * 12) * G d * H d * H d2 * H d3 * v3 (M d) in (* C2_ijk + C2_ikj *)
    let m := m + nofZ (2 * 6) * H d * H d * H d2 * H d3 * v4 (M d) in (* C3_ijk + C3_ikj *)
    for_each (m4_D id d d2 d3) rest m.
  (** moments.hpp 278-289 *)
  Definition m4_B0 (d d2 : rdiag) (m : N) : N :=
    let m := m + nofZ 3 * G d * G d * G d2 * G d2 in (* B1 *)
    let m := m + nofZ 12 * G d * G d2 * G d2 * H d * v3 (M d) in (* B2 *)
    let m := m + nofZ 4 * G d * G d * G d * H d2 * v3 (M d) in (* B3 *)
    let m := m + nofZ 6 * G d2 * G d2 * H d * H d * v4 (M d) in (* B4 *)
    let m := m + nofZ 12 * G d * G d * H d * H d2 * v4 (M d) in (* B6 *)
    let m := m + nofZ 12 * G d * G d2 * H d * H d2 * v3 (M d) * v3 (M d2) in (* B7 *)
    let m := m + nofZ 12 * G d * H d * H d * H d2 * v5 (M d) in (* B8 *)
    let m := m + nofZ 12 * G d2 * H d * H d * H d2 * v4 (M d) * v3 (M d2) in (* B9 *)
    let m := m + nofZ 4 * H d * H d * H d * H d2 * v6 (M d) in (* B10 *)
    let m := m + nofZ 3 * H d * H d * H d2 * H d2 * v4 (M d) * v4 (M d2) in (* B11 *)
    m.
  (** moments.hpp 274-314 *)
  Definition m4_B (it it2 : dentry) (rest : list dentry) (m : N) : N :=
    if (fst it =? fst it2)%Z then m else
    for_tails (m4_C (fst it) (snd it) (snd it2)) rest (m4_B0 (snd it) (snd it2) m).
  (** moments.hpp 320-335 *)
  Definition m4_F0 (d dt1 dt2 : rdiag) (hhess : N) (m : N) : N :=
    let m := m + nofZ (2 * 24) * G dt1 * G dt2 * H d * hhess in (* F1_ijk + F1_ikj *)
    let m := m + nofZ (2 * 12) * G d * G d * hhess * hhess in (* F2_ijk + F2_ikj *)
    let m := m + nofZ 48 * G dt2 * H dt1 * hhess * H d * v3 (M dt1) in (* F3_jik *)
    let m := m + nofZ 48 * G dt1 * H dt2 * hhess * H d * v3 (M dt2) in (* F3_jki *)
    let m := m + nofZ 48 * G dt1 * hhess * hhess * H d * v3 (M dt1) in (* F4_jik *)
    let m := m + nofZ 48 * G dt2 * hhess * hhess * H d * v3 (M dt2) in (* F4_jki *)
    let m := m + nofZ (2 * 24) * G d * H d * hhess * hhess * v3 (M d) in (* F5_ijk + F5_ikj *)
    let m := m + nofZ 48 * H dt1 * hhess * hhess * H d * v4 (M dt1) in (* F5a_jik *)
    let m := m + nofZ 48 * H dt2 * hhess * hhess * H d * v4 (M dt2) in (* F5a_jki *)
    let m := m + nofZ (2 * 12) * H d * H d * hhess * hhess * v4 (M d) in (* F6_ijk + F6_ikj *)
    let m := m + nofZ (2 * 16) * hhess * hhess * hhess * H d * v3 (M dt1) * v3 (M dt2) in (* F7_kij + F7_kji *)
    let m := m + nofZ (2 * 24) * H dt1 * hhess * H dt2 * H d * v3 (M dt1) * v3 (M dt2) in (* F8_kij + F8_kji *)
    m.
  (** moments.hpp 316-337 *)
  Definition m4_F (it : dentry) (it2 : tentry) (m : N) : N :=
    if ((fst it =? id1 it2)%Z || (fst it =? id2 it2)%Z) then m else
    m4_F0 (snd it) (diag1 it2) (diag2 it2) (val it2) m.
  (** moments.hpp 266-272 *)
  Definition m4_A0 (d : rdiag) (m : N) : N :=
    let m := m + G d * G d * G d * G d * v4 (M d) in (* A1 *)
    let m := m + nofZ 4 * G d * G d * G d * H d * v5 (M d) in (* A2 *)
    let m := m + nofZ 6 * G d * G d * H d * H d * v6 (M d) in (* A3 *)
    let m := m + nofZ 4 * G d * H d * H d * H d * v7 (M d) in (* A4 *)
    let m := m + H d * H d * H d * H d * v8 (M d) in (* A5 *)
    m.
  (** moments.hpp 265-338 *)
  Definition m4_A (ds : list dentry) (ts : list tentry) (it : dentry) (m : N) : N :=
    let m := m4_A0 (snd it) m in
    let m := for_tails (m4_B it) ds m in
    for_each (m4_F it) ts m.

  (** moments.hpp 342-372 *)
  Definition m4_E0 (d1 d2 : rdiag) (hhess : N) (m : N) : N :=
    let m := m + nofZ 24 * G d1 * G d1 * G d2 * hhess * v3 (M d1) in (* E1(i, j) *)
    let m := m + nofZ 24 * G d2 * G d2 * G d1 * hhess * v3 (M d2) in (* E1(j, i) *)
    let m := m + nofZ 48 * G d1 * G d2 * H d1 * hhess * v4 (M d1) in (* E2(i, j) *)
    let m := m + nofZ 48 * G d2 * G d1 * H d2 * hhess * v4 (M d2) in (* E2(j, i) *)
    let m := m + nofZ 24 * G d1 * G d1 * hhess * hhess * v4 (M d1) in (* E3(i, j) *)
    let m := m + nofZ 24 * G d2 * G d2 * hhess * hhess * v4 (M d2) in (* E3(j, i) *)
    let m := m + nofZ 24 * G d1 * G d1 * H d2 * hhess * v3 (M d1) * v3 (M d2) in (* E4(i, j) *)
    let m := m + nofZ 24 * G d2 * G d2 * H d1 * hhess * v3 (M d2) * v3 (M d1) in (* E4(j, i) *)
    let m := m + nofZ (2 * 24) * G d1 * G d2 * hhess * hhess * v3 (M d1) * v3 (M d2) in (* E5(i, j) + E5(j, i) *)
    let m := m + nofZ 24 * G d2 * H d1 * H d1 * hhess * v5 (M d1) in (* E6(i, j) *)
    let m := m + nofZ 24 * G d1 * H d2 * H d2 * hhess * v5 (M d2) in (* E6(j, i) *)
    let m := m + nofZ 48 * G d1 * H d1 * hhess * hhess * v5 (M d1) in (* E7(i, j) *)
    let m := m + nofZ 48 * G d2 * H d2 * hhess * hhess * v5 (M d2) in (* E7(j, i) *)
    let m := m + nofZ 48 * G d2 * H d1 * hhess * hhess * v4 (M d1) * v3 (M d2) in (* E8(i, j) *)
    let m := m + nofZ 48 * G d1 * H d2 * hhess * hhess * v4 (M d2) * v3 (M d1) in (* E8(j, i) *)
    let m := m + nofZ 32 * G d1 * hhess * hhess * hhess * v4 (M d1) * v3 (M d2) in (* E9(i, j) *)
    let m := m + nofZ 32 * G d2 * hhess * hhess * hhess * v4 (M d2) * v3 (M d1) in (* E9(j, i) *)
    let m := m + nofZ 48 * G d1 * H d1 * hhess * H d2 * v4 (M d1) * v3 (M d2) in (* E10(i, j) *)
    let m := m + nofZ 48 * G d2 * H d2 * hhess * H d1 * v4 (M d2) * v3 (M d1) in (* E10(j, i) *)
    let m := m + nofZ 24 * H d1 * H d1 * hhess * hhess * v6 (M d1) in (* E11(i, j) *)
    let m := m + nofZ 24 * H d2 * H d2 * hhess * hhess * v6 (M d2) in (* E11(j, i) *)
    let m := m + nofZ 32 * H d1 * hhess * hhess * hhess * v5 (M d1) * v3 (M d2) in (* E12(i, j) *)
    let m := m + nofZ 32 * H d2 * hhess * hhess * hhess * v5 (M d2) * v3 (M d1) in (* E12(j, i) *)
    let m := m + nofZ 24 * H d1 * H d1 * hhess * H d2 * v5 (M d1) * v3 (M d2) in (* E13(i, j) *)
    let m := m + nofZ 24 * H d2 * H d2 * hhess * H d1 * v5 (M d2) * v3 (M d1) in (* E13(j, i) *)
    let m := m + nofZ (2 * 8) * hhess * hhess * hhess * hhess * v4 (M d1) * v4 (M d2) in (* E14(i, j) + E14(j, i) *)
    let m := m + nofZ (2 * 24) * H d1 * hhess * hhess * H d2 * v4 (M d1) * v4 (M d2) in (* E15(i, j) + E15(j, i) *)
    m.
  (** moments.hpp 385-390 *)
  Definition m4_G2 (d1 d2 d : rdiag) (hhess hhess2 : N) (m : N) : N :=
    let m := m + nofZ 48 * G d2 * G d * hhess * hhess2 in (* G1_kij *)
    let m := m + nofZ 96 * G d2 * hhess * hhess2 * hhess2 * v3 (M d1) in (* G2_ijk *)
    let m := m + nofZ 96 * G d * H d2 * hhess * hhess2 * v3 (M d2) in (* G3_kij *)
    let m := m + nofZ 48 * hhess * hhess * hhess2 * hhess2 * v4 (M d1) in (* G4_ijk *)
    let m := m + nofZ 48 * H d2 * hhess * H d * hhess2 * v3 (M d2) * v3 (M d) in (* G5_kij *)
    let m := m + nofZ 96 * H d2 * hhess * hhess2 * hhess2 * v3 (M d2) * v3 (M d1) in (* G6_jik *)
    m.
  (** moments.hpp 397-402 *)
  Definition m4_G3 (d1 d2 d : rdiag) (hhess hhess3 : N) (m : N) : N :=
    let m := m + nofZ 48 * G d1 * G d * hhess * hhess3 in (* G1_ikj *)
    let m := m + nofZ 96 * G d1 * hhess * hhess3 * hhess3 * v3 (M d2) in (* G2_jik *)
    let m := m + nofZ 96 * G d * H d1 * hhess * hhess3 * v3 (M d1) in (* G3_ikj *)
    let m := m + nofZ 48 * hhess * hhess * hhess3 * hhess3 * v4 (M d2) in (* G4_jik *)
    let m := m + nofZ 48 * H d1 * hhess * H d * hhess3 * v3 (M d1) * v3 (M d) in (* G5_ikj *)
    let m := m + nofZ 96 * H d1 * hhess * hhess3 * hhess3 * v3 (M d1) * v3 (M d2) in (* G6_ijk *)
    m.
  (** moments.hpp 410-415 *)
  Definition m4_H (d1 d2 : rdiag) (hhess hhess2 hhess3 : N) (m : N) : N :=
    let m := m + nofZ 96 * G d1 * hhess * hhess2 * hhess3 * v3 (M d1) in (* H1_ijk *)
    let m := m + nofZ 96 * G d2 * hhess * hhess3 * hhess2 * v3 (M d2) in (* H1_jik *)
    let m := m + nofZ 96 * H d1 * hhess * hhess2 * hhess3 * v4 (M d1) in (* H2_ijk *)
    let m := m + nofZ 96 * H d2 * hhess * hhess3 * hhess2 * v4 (M d2) in (* H2_jik *)
    let m := m + nofZ 96 * hhess * hhess * hhess2 * hhess3 * v3 (M d1) * v3 (M d2) in (* H3_ijk *)
    let m := m + nofZ 96 * hhess * hhess * hhess3 * hhess2 * v3 (M d2) * v3 (M d1) in (* H3_jik *)
    m.
  (** moments.hpp 417-426 *)
  Definition m4_J (it : tentry) (it2 : dentry) (hhess2 hhess3 : N) (it3 : dentry) (m : N) : N :=
    let id := fst it3 in
    if ((id =? id1 it)%Z || (id =? id2 it)%Z || (id =? fst it2)%Z) then m else
    let d3 := snd it3 in
    let hhess := val it in
    let m := m + nofZ (2 * 32) * H d3 * hhess * hhess2 * hhess3 in (* J1_jkli + J1_kjli *)
    m.
  (** moments.hpp 429-439 *)
  Definition m4_L (it : tentry) (d : rdiag) (it3 : dentry) (m : N) : N :=
    let id := fst it3 in
    if ((id =? id1 it)%Z || (id =? id2 it)%Z) then m else
    let d3 := snd it3 in
    let hhess := val it in
    let m := m + nofZ (2 * 2 * 12) * H d * H d3 * hhess * hhess in (* L1_klij + L1_lkij + L1_klji + L1_lkji *)
    m.
  (** moments.hpp 374-440 *)
  Definition m4_G (hg : hessgrad N) (ds : list dentry) (it : tentry)
    (it2 : dentry) (rest : list dentry) (m : N) : N :=
    if ((fst it2 =? id1 it)%Z || (fst it2 =? id2 it)%Z) then m else
    let d := snd it2 in
    let hhess2_p := hg_tri_find hg (id1 it) (fst it2) in
    let m := match hhess2_p with
             | Some hhess2 => m4_G2 (diag1 it) (diag2 it) d (val it) hhess2 m
             | None => m
             end in
    let hhess3_p := hg_tri_find hg (id2 it) (fst it2) in
    let m := match hhess3_p with
             | Some hhess3 => m4_G3 (diag1 it) (diag2 it) d (val it) hhess3 m
             | None => m
             end in
    let m := match hhess2_p, hhess3_p with
             | Some hhess2, Some hhess3 =>
                 for_each (m4_J it it2 hhess2 hhess3) ds
                   (m4_H (diag1 it) (diag2 it) (val it) hhess2 hhess3 m)
             | _, _ => m
             end in
    for_each (m4_L it d) rest m.
  (** moments.hpp 442-471 *)
  Definition m4_I (hg : hessgrad N) (it it2 : tentry) (m : N) : N :=
    if ((id1 it =? id1 it2)%Z || (id1 it =? id2 it2)%Z
        || (id2 it =? id1 it2)%Z || (id2 it =? id2 it2)%Z) then m else
    let Hij := val it in
    let Hkl := val it2 in
    let m := match hg_tri_find hg (id1 it) (id1 it2) with
             | Some Hik =>
                 match hg_tri_find hg (id2 it) (id2 it2) with
                 | Some Hjl =>
                     let m := m + nofZ (2 * 48) * Hij * Hik * Hjl * Hkl in (* I1_ijkl + I1_jilk *)
                     m
                 | None => m
                 end
             | None => m
             end in
    let m := match hg_tri_find hg (id1 it) (id2 it2) with
             | Some Hil =>
                 match hg_tri_find hg (id2 it) (id1 it2) with
                 | Some Hjk =>
                     let m := m + nofZ (2 * 48) * Hij * Hjk * Hil * Hkl in (* I1_jikl + I1_ijlk *)
                     m
                 | None => m
                 end
             | None => m
             end in
    let m := m + nofZ (2 * 2 * 12) * Hij * Hij * Hkl * Hkl in (* K1_ijkl + K1_jikl + K1_ijlk + K1_jilk *)
    m.
  (** moments.hpp 340-472 *)
  Definition m4_E (hg : hessgrad N) (ds : list dentry) (ts : list tentry) (it : tentry) (m : N) : N :=
    let m := m4_E0 (diag1 it) (diag2 it) (val it) m in
    let m := for_tails (m4_G hg ds it) ds m in
    for_each (m4_I hg it) ts m.
  (** moments.hpp 197-475 *)
  Definition m4_loops (hg : hessgrad N) (ds : list dentry) (ts : list tentry) : N :=
    for_each (m4_E hg ds ts) ts (for_each (m4_A ds ts) ds n0).
  Definition compute_m4 (hg : hessgrad N) : outcome N :=
    ds <- omapM read_entry (diagmap hg);;
    ts0 <- tri_visits hg true;;
    ts <- omapM read_visit ts0;;
    Ret (m4_loops hg ds ts).

  (** moments.hpp 478-492 *)
  Definition compute_mom (hg : hessgrad N) (n : Z) : outcome N :=
    _ <- assert_ ((1 <=? n) && (n <=? 4))%Z;;
    if (n =? 1)%Z then Ret (compute_m1 hg)
    else if (n =? 2)%Z then compute_m2 hg
    else if (n =? 3)%Z then compute_m3 hg
    else if (n =? 4)%Z then compute_m4 hg
    else Ret n0.

  (** moments.hpp 524-527 *)
  Definition c2_A0 (p : moms N) (da db : diag N) (m : N) : N :=
    let m := m + dgrad da * dgrad db in (* A1 *)
    let m := m + dhh da * dgrad db * v3 p in (* A2 *)
    let m := m + dgrad da * dhh db * v3 p in (* A3 *)
    let m := m + dhh da * dhh db * v4 p in (* A4 *)
    m.
  (** moments.hpp 514-532: the merge of the two diagonals. *)
  Fixpoint c2_A (ita : list (Z * diag N)) : list (Z * diag N) -> N -> outcome N :=
    fix inner (itb : list (Z * diag N)) (m : N) : outcome N :=
      match ita, itb with
      | (ida, da) :: ita', (idb, db) :: itb' =>
          m' <- (if (ida =? idb)%Z then
                   match dmom da with
                   | Some p => Ret (c2_A0 p da db m)
                   | None => UB
                   end
                 else Ret m);;
          if (ida <=? idb)%Z then
            if (idb <=? ida)%Z then c2_A ita' itb' m' else c2_A ita' itb m'
          else inner itb' m'
      | _, _ => Ret m
      end.
  (** moments.hpp 534-547: the merge of the off-diagonals; [id()] asserts that the
      ids are ordered (hessgrad.hpp 372-375). *)
  Fixpoint c2_B (ta : list (visit N)) : list (visit N) -> N -> outcome N :=
    fix inner (tb : list (visit N)) (m : N) : outcome N :=
      match ta, tb with
      | tita :: ta', titb :: tb' =>
          _ <- assert_ (vid1 tita <? vid2 tita)%Z;;
          _ <- assert_ (vid1 titb <? vid2 titb)%Z;;
          let m' := if peqb (vid tita) (vid titb)
                    then m + nofZ (2 * 2) * vval tita * vval titb (* B1 *) else m in
          if pleb (vid tita) (vid titb) then
            if pleb (vid titb) (vid tita) then c2_B ta' tb' m' else c2_B ta' tb m'
          else inner tb' m'
      | _, _ => Ret m
      end.
  (** moments.hpp 549-560 *)
  Definition c2_C (hga hgb : hessgrad N) (m : N) : N :=
    for_each (fun ita m =>
      for_each (fun itb m =>
        if negb (fst ita =? fst itb)%Z then m + dhh (snd ita) * dhh (snd itb) (* C1 *) else m)
        (diagmap hgb) m) (diagmap hga) m.
  (** moments.hpp 495-563 *)
  Definition compute_c2 (hga hgb : hessgrad N) : outcome N :=
    m <- c2_A (diagmap hga) (diagmap hgb) n0;;
    ta <- tri_visits hga true;;
    tb <- tri_visits hgb true;;
    m <- c2_B ta tb m;;
    Ret (c2_C hga hgb m).
End Moments.
Arguments rdiag N : clear implicits.
Arguments dentry N : clear implicits.
Arguments tentry N : clear implicits.
