(** * HessGrad: model of /repo/uncertainties/internal/hessgrad.hpp

    The sparse storage of gradient, half Hessian and moments used by UReal2, and
    its two iterator classes.  Reading conventions as in UReal.v: a std::map is a
    key-sorted list, an iterator is the remaining suffix of the list, [end()] is
    the empty suffix; two iterators into the same map are equal iff the suffixes
    have the same length.  Dereferencing or advancing [end()] is [UB], a failed
    assert is [Assert]. *)

From Coq Require Import List ZArith Bool.
From Verif Require Import Base Num Map.
Import ListNotations.

Section HessGrad.
  Context {N : Num}.
  Local Open Scope num_scope.

  (** hessgrad.hpp 43-95: the class [Moments], standardized moments 3 to 8.
      [v<n>] (91-95) is the projection [vn]. *)
  Record moms : Type := mkM { v3 : N; v4 : N; v5 : N; v6 : N; v7 : N; v8 : N }.

  (** hessgrad.hpp 111-115: [struct Diag].  The default constructor of [Moments]
      (49-51) leaves the array uninitialised: that is [None]. *)
  Record diag : Type := mkD { dgrad : N; dhh : N; dmom : option moms }.
  Definition diag0 : diag := mkD n0 n0 None.

  (** hessgrad.hpp 121-124: the two maps. *)
  Record hessgrad : Type := mkHG {
    diagmap : list (Z * diag);
    trimap : list ((Z * Z) * N)
  }.
  Definition hg_empty : hessgrad := mkHG [] [].

  (** hessgrad.hpp 141-143: [size]. *)
  Definition hg_size (h : hessgrad) : nat := length (diagmap h).

  (** hessgrad.hpp 153-155: the mutable [diag(id)], whose result is then modified
      with [f]. *)
  Definition hg_diag (id : Z) (f : diag -> diag) (h : hessgrad) : hessgrad :=
    mkHG (mupd diag0 id f (diagmap h)) (trimap h).

  (** hessgrad.hpp 162-170: [diag_get].  zerodiag (551-552) is a static object, so
      its gradient and Hessian are zero; nobody reads its moments. *)
  Definition hg_diag_get (h : hessgrad) (id : Z) : diag := mget diag0 id (diagmap h).

  (** hessgrad.hpp 181-184: the mutable [tri(minid, maxid)], modified with [f]. *)
  Definition hg_tri (i j : Z) (f : N -> N) (h : hessgrad) : outcome hessgrad :=
    _ <- assert_ (i <? j)%Z;;
    Ret (mkHG (diagmap h) (mupd n0 (i, j) f (trimap h))).

  (** hessgrad.hpp 188-197: [tri_get]. *)
  Definition hg_tri_get (h : hessgrad) (i j : Z) : outcome N :=
    _ <- assert_ (i <? j)%Z;;
    Ret (mget n0 (i, j) (trimap h)).

  (** hessgrad.hpp 201-211: [tri_find]; [None] is the null pointer. *)
  Definition hg_tri_find (h : hessgrad) (i j : Z) : option N :=
    mfind (Z.min i j, Z.max i j) (trimap h).

  (** hessgrad.hpp 219-221: the mutable [hhess(minid, maxid)], modified with [f]. *)
  Definition hg_hhess (i j : Z) (f : N -> N) (h : hessgrad) : outcome hessgrad :=
    if negb (i =? j)%Z then hg_tri i j f h
    else Ret (hg_diag i (fun d => mkD (dgrad d) (f (dhh d)) (dmom d)) h).

  (** hessgrad.hpp 225-227: [hhess_get]. *)
  Definition hg_hhess_get (h : hessgrad) (i j : Z) : outcome N :=
    if negb (i =? j)%Z then hg_tri_get h (Z.min i j) (Z.max i j)
    else Ret (dhh (hg_diag_get h i)).

  (** Order on std::pair<Id, Id>. *)
  Definition pltb (a b : Z * Z) : bool := match kcmp a b with Lt => true | _ => false end.
  Definition pleb (a b : Z * Z) : bool := match kcmp a b with Gt => false | _ => true end.
  Definition peqb (a b : Z * Z) : bool := match kcmp a b with Eq => true | _ => false end.

  (** Equality of two iterators into the same map. *)
  Definition it_eqb {A : Type} (a b : list A) : bool := (length a =? length b)%nat.
  Definition at_end {A : Type} (a : list A) : bool := match a with [] => true | _ => false end.
  (** ++it *)
  Definition it_next {A : Type} (a : list A) : outcome (list A) :=
    match a with [] => UB | _ :: a' => Ret a' end.
  (** [for (; d != end && d->first < id; ++d) ;] *)
  Fixpoint advance_to (id : Z) (d : list (Z * diag)) : list (Z * diag) :=
    match d with
    | (k, _) :: d' => if (k <? id)%Z then advance_to id d' else d
    | [] => []
    end.
  Definition at_key (id : Z) (d : list (Z * diag)) : bool :=
    match d with (k, _) :: _ => (k =? id)%Z | [] => false end.

  (** The non constant members of ConstTriIt (hessgrad.hpp 262-267) and of
      ConstHessIt (411-416); [it_skip] is [skipmissing]. *)
  Record iter : Type := mkIt {
    it_min : list (Z * diag);
    it_max : list (Z * diag);
    it_tri : list ((Z * Z) * N);
    it_skip : bool
  }.

  (** What one iteration of a loop over an iterator can read: id1(), id2(),
      diag1(), diag2(), *it. *)
  Record visit : Type := mkV {
    vid1 : Z; vid2 : Z; vd1 : diag; vd2 : diag; vval : N
  }.
  Definition vid (v : visit) : Z * Z := (vid1 v, vid2 v).

  (** *** ConstTriIt *)

  (** hessgrad.hpp 273-283: [update_diag]. *)
  Definition update_diag (it : iter) : outcome iter :=
    match it_tri it with
    | ((i, j), _) :: _ =>
        let dmin := advance_to i (it_min it) in
        _ <- assert_ (at_key i dmin);;
        let dmax := advance_to j dmin in
        _ <- assert_ (at_key j dmax);;
        Ret (mkIt dmin dmax (it_tri it) (it_skip it))
    | [] => Ret (mkIt [] [] [] (it_skip it))
    end.

  (** hessgrad.hpp 292-306: the begin constructor, called by [ctbegin] (397-399). *)
  Definition tri_begin (h : hessgrad) (skip : bool) : outcome iter :=
    let it := mkIt (diagmap h) (diagmap h) (trimap h) skip in
    if skip then update_diag it
    else match diagmap h with
         | [] => Ret it
         | _ :: dmax' =>
             Ret (mkIt (if at_end dmax' then [] else diagmap h) dmax' (trimap h) skip)
         end.

  (** hessgrad.hpp 390-393, 510-513: [it != end]; both [diagmin] and [diagmax] of the end
      iterator (310-316, 443-449) are [diagend]. *)
  Definition it_more (it : iter) : bool :=
    negb (at_end (it_min it)) && negb (at_end (it_max it)).

  (** hessgrad.hpp 334-335: [for (; tri != triend && tri->first < id; ++tri) ;] *)
  Fixpoint tri_advance (id : Z * Z) (t : list ((Z * Z) * N)) : list ((Z * Z) * N) :=
    match t with
    | (k, _) :: t' => if pltb k id then tri_advance id t' else t
    | [] => []
    end.

  (** hessgrad.hpp 320-340: operator++. *)
  Definition tri_next (it : iter) : outcome iter :=
    if it_skip it then
      t <- it_next (it_tri it);;
      update_diag (mkIt (it_min it) (it_max it) t (it_skip it))
    else
      dmax0 <- it_next (it_max it);;
      '(dmin, dmax) <-
        (if at_end dmax0 then
           dmin' <- it_next (it_min it);;
           Ret (dmin', match dmin' with [] => [] | _ :: dmax' => dmax' end)
         else Ret (it_min it, dmax0));;
      match dmax with
      | [] => Ret (mkIt [] [] (it_tri it) (it_skip it))
      | (j, _) :: _ =>
          match dmin with
          | [] => UB
          | (i, _) :: _ => Ret (mkIt dmin dmax (tri_advance (i, j) (it_tri it)) (it_skip it))
          end
      end.

  (** hessgrad.hpp 344-357: operator*, and 360-387: id1, id2, diag1, diag2. *)
  Definition tri_visit (it : iter) : outcome visit :=
    match it_min it, it_max it with
    | (i, d1) :: _, (j, d2) :: _ =>
        val <- (if it_skip it then
                  match it_tri it with (_, x) :: _ => Ret x | [] => Assert end
                else match it_tri it with
                     | (k, x) :: _ => Ret (if peqb k (i, j) then x else n0)
                     | [] => Ret n0
                     end);;
        Ret (mkV i j d1 d2 val)
    | _, _ => Assert
    end.

  (** [for (it = begin; it != end; ++it)]: the sequence of visits.  [fuel] bounds
      the number of iterations; running out of it would be an endless loop, which
      is undefined behaviour too. *)
  Fixpoint walk (next : iter -> outcome iter) (look : iter -> outcome visit)
    (fuel : nat) (it : iter) : outcome (list visit) :=
    match fuel with
    | O => UB
    | S fuel' =>
        if it_more it then
          v <- look it;;
          it' <- next it;;
          vs <- walk next look fuel' it';;
          Ret (v :: vs)
        else Ret []
    end.

  (** More iterations than either iterator class can make. *)
  Definition walk_fuel (h : hessgrad) : nat :=
    let n := length (diagmap h) in S (S (2 * n + n * n + length (trimap h))).

  (** [for (ConstTriIt it = h.ctbegin(skip); it != h.ctend(); ++it)]. *)
  Definition tri_visits (h : hessgrad) (skip : bool) : outcome (list visit) :=
    it <- tri_begin h skip;; walk tri_next tri_visit (walk_fuel h) it.

  (** *** ConstHessIt *)

  (** hessgrad.hpp 431-441: the begin constructor, called by [chbegin] (516-518).
      ([update_diag], 418-429, is never called.) *)
  Definition hess_begin (h : hessgrad) (skip : bool) : iter :=
    mkIt (diagmap h) (diagmap h) (trimap h) skip.

  (** hessgrad.hpp 452-469: operator++. *)
  Definition hess_next (it : iter) : outcome iter :=
    _ <- assert_ (negb (at_end (it_min it)) && negb (at_end (it_max it)));;
    '(dmax, t) <-
      (if it_eqb (it_min it) (it_max it) then
         dmax' <- it_next (it_max it);; Ret (dmax', it_tri it)
       else t' <- it_next (it_tri it);; Ret (it_max it, t'));;
    _ <- assert_ (negb (at_end dmax) || at_end t);;
    _ <- (match t with
          | [] => Ret tt
          | (k, _) :: _ =>
              match it_min it, dmax with
              | (i, _) :: _, (j, _) :: _ => assert_ (pleb (i, j) k)
              | _, _ => UB
              end
          end);;
    let row_over := match t with
                    | [] => true
                    | (k, _) :: _ => match it_min it with (i, _) :: _ => (i <? fst k)%Z | [] => true end
                    end in
    '(dmin', dmax') <-
      (if row_over then
         dmin' <- it_next (it_min it);; Ret (dmin', dmin')
       else if it_skip it then
         match t with
         | (k, _) :: _ =>
             let dmax' := advance_to (snd k) dmax in
             _ <- assert_ (at_key (snd k) dmax');;
             Ret (it_min it, dmax')
         | [] => UB
         end
       else Ret (it_min it, dmax));;
    _ <- assert_ (negb (at_end dmax') || at_end dmin');;
    Ret (mkIt dmin' dmax' t (it_skip it)).

  (** hessgrad.hpp 471-483: operator*, and 485-505: id1, id2, diag1, diag2. *)
  Definition hess_visit (it : iter) : outcome visit :=
    match it_min it, it_max it with
    | (i, d1) :: _, (j, d2) :: _ =>
        _ <- assert_ (it_eqb (it_min it) (it_max it) || negb (it_skip it) || negb (at_end (it_tri it)));;
        val <- (if it_eqb (it_min it) (it_max it) then Ret (dhh d1)
                else if it_skip it then
                  match it_tri it with (_, x) :: _ => Ret x | [] => UB end
                else match it_tri it with
                     | (k, x) :: _ => Ret (if peqb k (i, j) then x else n0)
                     | [] => Ret n0
                     end);;
        Ret (mkV i j d1 d2 val)
    | _, _ => Assert
    end.

  (** [for (ConstHessIt it = h.chbegin(skip); it != h.chend(); ++it)]. *)
  Definition hess_visits (h : hessgrad) (skip : bool) : outcome (list visit) :=
    walk hess_next hess_visit (walk_fuel h) (hess_begin h skip).
End HessGrad.
Arguments moms N : clear implicits.
Arguments diag N : clear implicits.
Arguments hessgrad N : clear implicits.
Arguments iter N : clear implicits.
Arguments visit N : clear implicits.

(** hessgrad.hpp 529-546: conversion to another numeric type with conversion [c]. *)
Definition moms_convert {N M : Num} (c : N -> M) (m : moms N) : moms M :=
  mkM (c (v3 m)) (c (v4 m)) (c (v5 m)) (c (v6 m)) (c (v7 m)) (c (v8 m)).
Definition hg_convert {N M : Num} (c : N -> M) (h : hessgrad N) : hessgrad M :=
  mkHG (fold_left (fun z kv =>
          mset (fst kv) (mkD (c (dgrad (snd kv))) (c (dhh (snd kv)))
                             (option_map (moms_convert c) (dmom (snd kv)))) z) (diagmap h) [])
       (fold_left (fun z kv => mset (fst kv) (c (snd kv)) z) (trimap h) []).
