(** * UReal: model of /repo/uncertainties/ureal.hpp

    One definition per function of the class [UReal], generic in the numeric
    type.  Function bodies follow the C++ text branch by branch.  Reading
    conventions:
    - a mutating member function returns the new value of [*this];
    - [std::map] is a key-sorted list (Map.v), an iterator is the remaining
      suffix of the list, [end()] is the empty suffix;
    - dereferencing [end()] gives [UB], a failed assert gives [Assert]. *)

From Coq Require Import List ZArith Bool.
From Verif Require Import Base Num Map.
Import ListNotations.

(** core.hpp 40: [invalid_id = -1]. *)
Definition invalid_id : Z := -1.

(** ureal.hpp 672: [std::numeric_limits<Id>::max()], [Id] = [int] (core.hpp 35). *)
Definition maxid : Z := 2147483647.

(** Two's complement wrap-around of a 32 bit int: std::atomic<int> arithmetic
    is defined to wrap silently. *)
Definition wrap32 (z : Z) : Z := ((z + 2147483648) mod 4294967296 - 2147483648)%Z.

Section UReal.
  Context {N : Num}.
  Local Open Scope num_scope.

  (** ureal.hpp 287-294: the data members id, sdev, mu, sigma. *)
  Record ureal : Type := mkU {
    uid : Z;
    usdev : N;
    umu : N;
    usigma : list (Z * N)
  }.

  (** ureal.hpp 325-333: [s2]. *)
  Definition u_s2 (x : ureal) : N :=
    fold_left (fun acc kv => acc + snd kv * snd kv) (usigma x) n0.

  (** ureal.hpp 371: [UReal()] with the default member initialisers 291-294. *)
  Definition u_default : ureal := mkU 0 n0 n0 [].

  (** ureal.hpp 362: [UReal(const Real &n)]. *)
  Definition u_const (n : N) : ureal := mkU 0 n0 n [].

  (** ureal.hpp 350-355: [UReal(const Real &n, const Real &s)]; [last] is the
      value of the global counter internal::last_id (impl.hpp 46) before the
      call.  Returns the counter after the call and the outcome. The counter is
      incremented before the check. *)
  Definition u_new (last : Z) (n s : N) : Z * outcome ureal :=
    let id := wrap32 (last + 1) in
    let x := mkU id s n [] in
    (id, if usdev x <? n0 then Throw InvalidArgument else Ret x).

  (** ureal.hpp 383-386: [isindep]. *)
  Definition u_isindep (x : ureal) : outcome bool :=
    _ <- assert_ ((uid x <? 0)%Z || (length (usigma x) =? 0)%nat);;
    Ret (length (usigma x) <=? 1)%nat.

  (** ureal.hpp 394-405: [indepid]. *)
  Definition u_indepid (x : ureal) : outcome Z :=
    _ <- assert_ ((uid x <? 0)%Z || (length (usigma x) =? 0)%nat);;
    if (0 <=? uid x)%Z then Ret (uid x)
    else if (length (usigma x) =? 0)%nat then Ret 0%Z
    else if (length (usigma x) =? 1)%nat then
      match usigma x with
      | (k, _) :: _ => Ret k
      | [] => UB
      end
    else Ret invalid_id.

  (** ureal.hpp 410-412: [n]. *)
  Definition u_n (x : ureal) : N := umu x.

  (** ureal.hpp 414-424: [s() const]. *)
  Definition u_s (x : ureal) : N :=
    if (0 <=? uid x)%Z then nabs (usdev x)
    else if n0 <=? usdev x then usdev x
    else nsqrt (u_s2 x).

  (** ureal.hpp 435-444: [s()], the caching version; also returns [*this]. *)
  Definition u_s_caching (x : ureal) : N * ureal :=
    if (0 <=? uid x)%Z then (nabs (usdev x), x)
    else
      let x' := if usdev x <? n0
                then mkU (uid x) (nsqrt (u_s2 x)) (umu x) (usigma x)
                else x in
      (usdev x', x').

  (** ureal.hpp 464-468: [change_nom]. *)
  Definition u_change_nom (x : ureal) (n : N) : ureal :=
    mkU (uid x) (usdev x) n (usigma x).

  (** ureal.hpp 525-531: the loop of [cov] for two dependent variables.  Each
      iteration advances at least one iterator, so the recursion is on the
      first suffix and, inside, on the second. *)
  Fixpoint u_cov_loop (xit : list (Z * N)) : list (Z * N) -> N -> N :=
    fix inner (yit : list (Z * N)) (cov : N) : N :=
      match xit, yit with
      | (xid, xv) :: xit', (yid, yv) :: yit' =>
          let cov' := if (xid =? yid)%Z then cov + xv * yv else cov in
          if (xid <=? yid)%Z then
            if (yid <=? xid)%Z then u_cov_loop xit' yit' cov'
            else u_cov_loop xit' yit cov'
          else inner yit' cov'
      | _, _ => cov
      end.

  (** ureal.hpp 495-534: [cov]. *)
  Definition u_cov (x y : ureal) : N :=
    let cov := n0 in
    if ((0 <? uid x) && (0 <? uid y))%Z then
      if (uid x =? uid y)%Z then cov + usdev x * usdev y else cov
    else if ((uid x <? 0) && (0 <? uid y))%Z then
      match mfind (uid y) (usigma x) with
      | Some xv => cov + xv * usdev y
      | None => cov
      end
    else if ((0 <? uid x) && (uid y <? 0))%Z then
      match mfind (uid x) (usigma y) with
      | Some yv => cov + usdev x * yv
      | None => cov
      end
    else if ((uid x <? 0) && (uid y <? 0))%Z then
      u_cov_loop (usigma x) (usigma y) cov
    else cov.

  (** ureal.hpp 536-542: [var(const UReal&)]. *)
  Definition u_var (x : ureal) : N :=
    if (0 <=? uid x)%Z || (n0 <=? usdev x) then usdev x * usdev x
    else u_s2 x.

  (** ureal.hpp 551-559: [var(UReal&)], the caching version. *)
  Definition u_var_caching (x : ureal) : N * ureal :=
    if (0 <=? uid x)%Z then (usdev x * usdev x, x)
    else
      let x' := if usdev x <? n0
                then mkU (uid x) (nsqrt (u_s2 x)) (umu x) (usigma x)
                else x in
      (usdev x' * usdev x', x').

  (** ureal.hpp 567-569: [corr]. *)
  Definition u_corr (x y : ureal) : N := u_cov x y / (u_s x * u_s y).

  (** ureal.hpp 577-592: [this->grad(x)]. *)
  Definition u_grad (this x : ureal) : outcome N :=
    if negb ((0 <? uid x)%Z || (length (usigma x) =? 1)%nat) then Throw InvalidArgument
    else
      xid <- (if (0 <? uid x)%Z then Ret (uid x)
              else match usigma x with (k, _) :: _ => Ret k | [] => UB end);;
      match mfind xid (usigma this) with
      | Some tv =>
          xg <- (if (0 <? uid x)%Z then Ret (usdev x)
                 else match usigma x with (_, v) :: _ => Ret v | [] => UB end);;
          Ret (tv / xg)
      | None => Ret n0
      end.

  (** ureal.hpp 604-632: [unary]. *)
  Definition u_unary (x : ureal) (mu dx : N) : ureal :=
    if (0 <? uid x)%Z then mkU (uid x) (usdev x * dx) mu []
    else if (uid x <? 0)%Z then mkU (uid x) (nopp n1) mu (mmap (fun v => v * dx) (usigma x))
    else mkU (uid x) n0 mu [].

  (** ureal.hpp 675-692: the merge loop of [binary]; [z] is z.sigma.  Reading
      [xit->second] through an end iterator is [UB]; this happens when an id
      equals the sentinel [maxid]. *)
  Fixpoint u_merge (dx dy : N) (xit : list (Z * N)) :
    list (Z * N) -> list (Z * N) -> outcome (list (Z * N)) :=
    fix inner (yit : list (Z * N)) (z : list (Z * N)) : outcome (list (Z * N)) :=
      match xit, yit with
      | [], [] => Ret z
      | _, _ =>
          let xid := match xit with (k, _) :: _ => k | [] => maxid end in
          let yid := match yit with (k, _) :: _ => k | [] => maxid end in
          if (xid <=? yid)%Z then
            match xit with
            | [] => UB
            | (_, xv) :: xit' =>
                let z1 := mset xid (dx * xv) z in
                if (yid <=? xid)%Z then
                  match yit with
                  | [] => UB
                  | (_, yv) :: yit' =>
                      u_merge dx dy xit' yit' (mupd n0 xid (fun p => p + dy * yv) z1)
                  end
                else u_merge dx dy xit' yit z1
            end
          else
            match yit with
            | [] => UB
            | (_, yv) :: yit' => inner yit' (mset yid (n0 + dy * yv) z)
            end
      end.

  (** ureal.hpp 657-659: copy the scaled map of [x] into z.sigma. *)
  Definition u_copy_scaled (d : N) (s z : list (Z * N)) : list (Z * N) :=
    fold_left (fun z kv => mset (fst kv) (d * snd kv) z) s z.

  (** ureal.hpp 664-666, 721-723, 765-767: add a scaled map to z.sigma. *)
  Definition u_add_scaled (d : N) (s z : list (Z * N)) : list (Z * N) :=
    fold_left (fun z kv => mupd n0 (fst kv) (fun p => p + d * snd kv) z) s z.

  (** ureal.hpp 645-696: [binary]. *)
  Definition u_binary (x y : ureal) (mu dx dy : N) : outcome ureal :=
    let z0 := [] in
    let z1 :=
      if (0 <? uid x)%Z then mset (uid x) (dx * usdev x) z0
      else if ((uid x <? 0) && (0 <=? uid y))%Z then u_copy_scaled dx (usigma x) z0
      else z0 in
    let z2 :=
      if (0 <? uid y)%Z then mupd n0 (uid y) (fun p => p + dy * usdev y) z1
      else if ((uid y <? 0) && (0 <=? uid x))%Z then u_add_scaled dy (usigma y) z1
      else z1 in
    z3 <- (if ((uid x <? 0) && (uid y <? 0))%Z
           then u_merge dx dy (usigma x) (usigma y) z2
           else Ret z2);;
    Ret (mkU invalid_id (nopp n1) mu z3).

  (** ureal.hpp 711-728: [nary]; the two ranges are lists.  Running past the
      end of the derivative range is [UB]. *)
  Fixpoint u_nary_loop (xs : list ureal) (dxs : list N) (z : list (Z * N)) :
    outcome (list (Z * N)) :=
    match xs with
    | [] => Ret z
    | x :: xs' =>
        match dxs with
        | [] => UB
        | dx :: dxs' =>
            let z' :=
              if (0 <? uid x)%Z then mupd n0 (uid x) (fun p => p + dx * usdev x) z
              else if (uid x <? 0)%Z then u_add_scaled dx (usigma x) z
              else z in
            u_nary_loop xs' dxs' z'
        end
    end.
  Definition u_nary (xs : list ureal) (mu : N) (dxs : list N) : outcome ureal :=
    z <- u_nary_loop xs dxs [];;
    Ret (mkU invalid_id (nopp n1) mu z).

  (** ureal.hpp 742-773: [binary_assign] when [&x == this] (744-751). *)
  Definition u_binary_assign_self (this : ureal) (mu dt dx : N) : ureal :=
    let d := dt + dx in
    let sigma := mmap (fun v => v * d) (usigma this) in
    let sdev := if (n0 <? usdev this) || (0 <? uid this)%Z
                then usdev this * d else usdev this in
    mkU (uid this) sdev mu sigma.

  (** ureal.hpp 742-773: [binary_assign] when [&x != this] (752-770). *)
  Definition u_binary_assign (this x : ureal) (mu dt dx : N) : ureal :=
    let s0 := if (0 <? uid this)%Z then mset (uid this) (usdev this) (usigma this)
              else usigma this in
    let s1 := if negb (dt =? n1) then mmap (fun v => v * dt) s0 else s0 in
    let s2 :=
      if (0 <? uid x)%Z then mupd n0 (uid x) (fun p => p + dx * usdev x) s1
      else if (uid x <? 0)%Z then u_add_scaled dx (usigma x) s1
      else s1 in
    mkU invalid_id (nopp n1) mu s2.

  (** ureal.hpp 775-777: unary plus. *)
  Definition u_pos (x : ureal) : ureal := x.
  (** ureal.hpp 778-780 *)
  Definition u_neg (x : ureal) : ureal := u_unary x (- umu x) (nopp n1).
  (** ureal.hpp 781-783 *)
  Definition u_add (x y : ureal) : outcome ureal := u_binary x y (umu x + umu y) n1 n1.
  (** ureal.hpp 784-786 *)
  Definition u_sub (x y : ureal) : outcome ureal := u_binary x y (umu x - umu y) n1 (nopp n1).
  (** ureal.hpp 787-789 *)
  Definition u_mul (x y : ureal) : outcome ureal := u_binary x y (umu x * umu y) (umu y) (umu x).
  (** ureal.hpp 790-794 *)
  Definition u_div (x y : ureal) : outcome ureal :=
    let inv_y := n1 / umu y in
    let mu := umu x * inv_y in
    u_binary x y mu inv_y (- mu * inv_y).

  (** ureal.hpp 742, 795-808: binary_assign and the compound operators;
      [alias] tells whether the argument is the object itself. *)
  Definition u_assign_gen (alias : bool) (this x : ureal) (mu dt dx : N) : ureal :=
    if alias then u_binary_assign_self this mu dt dx else u_binary_assign this x mu dt dx.
  Definition u_add_assign (alias : bool) (this x : ureal) : ureal :=
    u_assign_gen alias this x (umu this + umu x) n1 n1.
  Definition u_sub_assign (alias : bool) (this x : ureal) : ureal :=
    u_assign_gen alias this x (umu this - umu x) n1 (nopp n1).
  Definition u_mul_assign (alias : bool) (this x : ureal) : ureal :=
    u_assign_gen alias this x (umu this * umu x) (umu x) (umu this).
  Definition u_div_assign (alias : bool) (this x : ureal) : ureal :=
    let inv_x := n1 / umu x in
    let mu := umu this * inv_x in
    u_assign_gen alias this x mu inv_x (- mu * inv_x).
End UReal.
Arguments ureal N : clear implicits.

(** ureal.hpp 480-490: conversion to another numeric type; [c] is the
    numeric conversion. *)
Definition u_convert {N M : Num} (c : N -> M) (x : ureal N) : ureal M :=
  mkU (uid x) (c (usdev x)) (c (umu x))
      (fold_left (fun z kv => mset (fst kv) (c (snd kv)) z) (usigma x) []).
