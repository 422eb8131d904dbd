(** * UReal2: model of /repo/uncertainties/ureal2.hpp

    One definition per function of the class [UReal2], generic in the numeric
    type.  The propagation mode (template parameter [prop]) is an argument of the
    only function that depends on it, [n].  Reading conventions as in UReal.v. *)

From Coq Require Import List ZArith Bool.
From Verif Require Import Base Num Map UReal HessGrad Moments CheckMoments.
Import ListNotations.

(** core.hpp 45-49: [enum class Prop]. *)
Inductive propmode : Type := PropEst | PropMean.

(** ureal2.hpp 44-46: [propsign]. *)
Definition propsign (p : propmode) : Z := match p with PropEst => -1 | PropMean => 1 end.

Section UReal2.
  Context {N : Num}.
  Local Open Scope num_scope.

  (** ureal2.hpp 489-490: the data members. *)
  Record ureal2 : Type := mkU2 { u2hg : hessgrad N; u2mu : N }.

  (** ureal2.hpp 55-76: [update_mom]; returns the new value of mom[i].  [m1], [m2],
      [m3] are mom[0], mom[1], mom[2]; those not yet computed are not read. *)
  Definition update_mom (m1 m2 m3 : N) (i : Z) (hg : hessgrad N) : outcome N :=
    _ <- assert_ ((0 <=? i) && (i <=? 3))%Z;;
    m <- compute_mom hg (i + 1);;
    Ret (if (i =? 0)%Z then m
         else if (i =? 1)%Z then m - m1 * m1
         else if (i =? 2)%Z then m - m1 * (nofZ 3 * m2 + m1 * m1)
         else m - m1 * (nofZ 4 * m3 + m1 * (nofZ 6 * m2 + m1 * m1))).

  (** ureal2.hpp 519-540: construction from central moments.  [last] is the value of
      internal::last_id before the call; the result is its value after the call and
      the outcome. *)
  Definition u2_new (eig : list (list N) -> option (list N)) (last : Z)
    (n : N) (moments : cmoms N) (threshold : N) : Z * outcome ureal2 :=
    match (if negb (threshold <? n0)
           then check_moments_throw eig (cmoms_list moments) threshold else Ret tt) with
    | Ret _ =>
        let id := wrap32 (last + 1) in
        let grad := nsqrt (c2nd moments) in
        let mom :=
          if n0 <? grad then
            let c := cnext moments in
            let sn := c2nd moments in
            let sn := sn * grad in let q3 := v3 c / sn in
            let sn := sn * grad in let q4 := v4 c / sn in
            let sn := sn * grad in let q5 := v5 c / sn in
            let sn := sn * grad in let q6 := v6 c / sn in
            let sn := sn * grad in let q7 := v7 c / sn in
            let sn := sn * grad in let q8 := v8 c / sn in
            mkM q3 q4 q5 q6 q7 q8
          else mkM n0 n0 n0 n0 n0 n0 in
        (id, Ret (mkU2 (hg_diag id (fun _ => mkD grad n0 (Some mom)) hg_empty) n))
    | Throw e => (last, Throw e)
    | UB => (last, UB)
    | Assert => (last, Assert)
    end.

  (** ureal2.hpp 550-567: construction from standardized moments. *)
  Definition u2_new_std (eig : list (list N) -> option (list N)) (last : Z)
    (n s : N) (std_moments : moms N) (threshold : N) : Z * outcome ureal2 :=
    if s <? n0 then (last, Throw InvalidArgument) else
    match (if negb (threshold <? n0)
           then check_moments_throw eig (moms_list std_moments) threshold else Ret tt) with
    | Ret _ =>
        let id := wrap32 (last + 1) in
        (id, Ret (mkU2 (hg_diag id (fun _ => mkD s n0 (Some std_moments)) hg_empty) n))
    | Throw e => (last, Throw e)
    | UB => (last, UB)
    | Assert => (last, Assert)
    end.

  (** ureal2.hpp 572-575 *)
  Definition u2_const (n : N) : ureal2 := mkU2 hg_empty n.
  (** ureal2.hpp 580-582, 490 *)
  Definition u2_default : ureal2 := mkU2 hg_empty n0.

  (** ureal2.hpp 587-589: [isindep]. *)
  Definition u2_isindep (x : ureal2) : bool := (hg_size (u2hg x) <=? 1)%nat.

  (** ureal2.hpp 595-603: [indepid]. *)
  Definition u2_indepid (x : ureal2) : outcome Z :=
    if negb (u2_isindep x) then Ret invalid_id
    else if (hg_size (u2hg x) =? 1)%nat then
      match diagmap (u2hg x) with (k, _) :: _ => Ret k | [] => UB end
    else Ret 0%Z.

  (** ureal2.hpp 611-613 *)
  Definition u2_first_order_n (x : ureal2) : N := u2mu x.

  (** ureal2.hpp 654-661: [m]. *)
  Definition u2_m (x : ureal2) (n : Z) : outcome N :=
    _ <- assert_ ((1 <=? n) && (n <=? 4))%Z;;
    m1 <- update_mom n0 n0 n0 0 (u2hg x);;
    if (n <=? 1)%Z then Ret m1 else
    m2 <- update_mom m1 n0 n0 1 (u2hg x);;
    if (n <=? 2)%Z then Ret m2 else
    m3 <- update_mom m1 m2 n0 2 (u2hg x);;
    if (n <=? 3)%Z then Ret m3 else
    update_mom m1 m2 m3 3 (u2hg x).

  (** ureal2.hpp 619-621: [n]. *)
  Definition u2_n (prop : propmode) (x : ureal2) : outcome N :=
    m1 <- u2_m x 1;; Ret (u2mu x + nofZ (propsign prop) * m1).
  (** ureal2.hpp 626-629: [s]. *)
  Definition u2_s (x : ureal2) : outcome N := m2 <- u2_m x 2;; Ret (nsqrt m2).
  (** ureal2.hpp 634-636: [skew]. *)
  Definition u2_skew (x : ureal2) : outcome N :=
    m3 <- u2_m x 3;; s <- u2_s x;; m2 <- u2_m x 2;; Ret (m3 / (s * m2)).
  (** ureal2.hpp 641-644: [kurt]. *)
  Definition u2_kurt (x : ureal2) : outcome N :=
    s2 <- u2_m x 2;; m4 <- u2_m x 4;; Ret (m4 / (s2 * s2)).
  (** ureal2.hpp 704-706: [var]. *)
  Definition u2_var (x : ureal2) : outcome N := u2_m x 2.
  (** ureal2.hpp 711-713: [cov]. *)
  Definition u2_cov (x y : ureal2) : outcome N :=
    c <- compute_c2 (u2hg x) (u2hg y);;
    mx <- u2_m x 1;; my <- u2_m y 1;;
    Ret (c - mx * my).
  (** ureal2.hpp 718-720: [corr]. *)
  Definition u2_corr (x y : ureal2) : outcome N :=
    c <- u2_cov x y;; sx <- u2_s x;; sy <- u2_s y;; Ret (c / (sx * sy)).

  (** ureal2.hpp 729-738: [this->grad(x)]. *)
  Definition u2_grad (this x : ureal2) : outcome N :=
    if negb (hg_size (u2hg x) =? 1)%nat then Throw InvalidArgument
    else match diagmap (u2hg x) with
         | (k, d) :: _ => Ret (dgrad (hg_diag_get (u2hg this) k) / dgrad d)
         | [] => UB
         end.

  (** ureal2.hpp 747-776: [this->hess(x, y)]. *)
  Definition u2_hess (this x y : ureal2) : outcome N :=
    if negb (hg_size (u2hg x) =? 1)%nat || negb (hg_size (u2hg y) =? 1)%nat
    then Throw InvalidArgument
    else match diagmap (u2hg x), diagmap (u2hg y) with
         | (idx, dx) :: _, (idy, dy) :: _ =>
             if negb (idx =? idy)%Z then
               h <- hg_hhess_get (u2hg this) idx idy;;
               Ret (nofZ 2 * h / (dgrad dx * dgrad dy))
             else
               let id := idx in
               let dxdv := dgrad dx in
               let dydv := dgrad dy in
               let ddxdvdv := nofZ 2 * dhh dx in
               let ddydvdv := nofZ 2 * dhh dy in
               if negb (dxdv =? dydv) || negb (ddxdvdv =? ddydvdv)
               then Throw InvalidArgument
               else
                 let dfdv := dgrad (hg_diag_get (u2hg this) id) in
                 h <- hg_hhess_get (u2hg this) id id;;
                 let ddfdvdv := nofZ 2 * h in
                 Ret ((ddfdvdv - (dfdv / dxdv) * ddxdvdv) / (dxdv * dxdv))
         | _, _ => UB
         end.

  (** ureal2.hpp 795-804: the body of the loop of [unary]; [r] is result.hg. *)
  Definition unary_step (dfdx hdd : N) (r : hessgrad N) (it : visit N) : outcome (hessgrad N) :=
    r <- hg_hhess (vid1 it) (vid2 it)
           (fun _ => hdd * dgrad (vd1 it) * dgrad (vd2 it) + dfdx * vval it) r;;
    Ret (if (vid1 it =? vid2 it)%Z
         then hg_diag (vid1 it)
                (fun d => mkD (dfdx * dgrad (vd1 it)) (dhh d) (dmom (vd1 it))) r
         else r).

  (** ureal2.hpp 784-807: [unary]. *)
  Definition u2_unary (x : ureal2) (fx dfdx ddfdxdx : N) : outcome ureal2 :=
    let hdd := ddfdxdx / nofZ 2 in
    vs <- hess_visits (u2hg x) (hdd =? n0);;
    r <- ofold (unary_step dfdx hdd) vs hg_empty;;
    Ret (mkU2 r fx).

  (** ureal2.hpp 845-854: the part of the loop of [binary] executed if
      [idx <= idy]. *)
  Definition bin_x (dfdx hdd : N) (itx : visit N) (r : hessgrad N) : outcome (hessgrad N) :=
    unary_step dfdx hdd r itx.

  (** ureal2.hpp 856-871: the part executed if [idy <= idx]; [fresh] is the test
      [idx != idy] of line 857. *)
  Definition bin_y (dfdy hdd : N) (ity : visit N) (fresh : bool) (r : hessgrad N) :
    outcome (hessgrad N) :=
    r <- (if fresh then
            r <- hg_hhess (vid1 ity) (vid2 ity) (fun _ => n0) r;;
            Ret (if (vid1 ity =? vid2 ity)%Z
                 then hg_diag (vid1 ity) (fun d => mkD (dgrad d) (dhh d) (dmom (vd1 ity))) r
                 else r)
          else Ret r);;
    r <- hg_hhess (vid1 ity) (vid2 ity)
           (fun h => h + hdd * dgrad (vd1 ity) * dgrad (vd2 ity) + dfdy * vval ity) r;;
    Ret (if (vid1 ity =? vid2 ity)%Z
         then hg_diag (vid1 ity) (fun d => mkD (dgrad d + dfdy * dgrad (vd1 ity)) (dhh d) (dmom d)) r
         else r).

  (** ureal2.hpp 825-826 *)
  Definition pmaxid : Z * Z := (maxid, maxid).

  (** ureal2.hpp 837-875: the merge loop of [binary], on the two sequences of visits.
      Reading through an end iterator is [UB] (an assertion of the iterator, which
      can only happen when an id equals the sentinel). *)
  Fixpoint bin_merge (dfdx dfdy hxx hyy : N) (xs : list (visit N)) :
    list (visit N) -> hessgrad N -> outcome (hessgrad N) :=
    fix inner (ys : list (visit N)) (r : hessgrad N) : outcome (hessgrad N) :=
      match xs, ys with
      | [], [] => Ret r
      | _, _ =>
          let idx := match xs with v :: _ => vid v | [] => pmaxid end in
          let idy := match ys with v :: _ => vid v | [] => pmaxid end in
          if pleb idx idy then
            match xs with
            | [] => UB
            | vx :: xs' =>
                r1 <- bin_x dfdx hxx vx r;;
                if pleb idy idx then
                  match ys with
                  | [] => UB
                  | vy :: ys' =>
                      r2 <- bin_y dfdy hyy vy (negb (peqb idx idy)) r1;;
                      bin_merge dfdx dfdy hxx hyy xs' ys' r2
                  end
                else bin_merge dfdx dfdy hxx hyy xs' ys r1
            end
          else
            match ys with
            | [] => UB
            | vy :: ys' =>
                r2 <- bin_y dfdy hyy vy (negb (peqb idx idy)) r;;
                inner ys' r2
            end
      end.

  (** ureal2.hpp 884-893: the body of the double loop over the mixed derivative. *)
  Definition cross_step (hxy : N) (px py : Z * diag N) (r : hessgrad N) : outcome (hessgrad N) :=
    let minid := Z.min (fst px) (fst py) in
    let maxid := Z.max (fst px) (fst py) in
    let addend := hxy * dgrad (snd px) * dgrad (snd py) in
    if negb (minid =? maxid)%Z then hg_tri minid maxid (fun h => h + addend) r
    else Ret (hg_diag minid (fun d => mkD (dgrad d) (dhh d + nofZ 2 * addend) (dmom d)) r).
  (** ureal2.hpp 877-896 *)
  Definition cross (hxy : N) (dx dy : list (Z * diag N)) (r : hessgrad N) : outcome (hessgrad N) :=
    ofold (fun r px => ofold (fun r py => cross_step hxy px py r) dy r) dx r.

  (** ureal2.hpp 816-898: [binary]. *)
  Definition u2_binary (x y : ureal2) (fxy dfdx dfdy ddfdxdx ddfdydy ddfdxdy : N) : outcome ureal2 :=
    let hxx := ddfdxdx / nofZ 2 in
    let hyy := ddfdydy / nofZ 2 in
    let hxy := ddfdxdy / nofZ 2 in
    xs <- hess_visits (u2hg x) (hxx =? n0);;
    ys <- hess_visits (u2hg y) (hyy =? n0);;
    r <- bin_merge dfdx dfdy hxx hyy xs ys hg_empty;;
    r <- (if negb (hxy =? n0) then cross hxy (diagmap (u2hg x)) (diagmap (u2hg y)) r else Ret r);;
    Ret (mkU2 r fxy).

  (** ureal2.hpp 988-991 *)
  Definition u2_pos (x : ureal2) : ureal2 := x.
  (** ureal2.hpp 993-996 *)
  Definition u2_neg (x : ureal2) : outcome ureal2 := u2_unary x (- u2mu x) (nofZ (-1)) (nofZ 0).
  (** ureal2.hpp 998-1003 *)
  Definition u2_add (x y : ureal2) : outcome ureal2 :=
    u2_binary x y (u2mu x + u2mu y) (nofZ 1) (nofZ 1) (nofZ 0) (nofZ 0) (nofZ 0).
  (** ureal2.hpp 1005-1010 *)
  Definition u2_sub (x y : ureal2) : outcome ureal2 :=
    u2_binary x y (u2mu x - u2mu y) (nofZ 1) (nofZ (-1)) (nofZ 0) (nofZ 0) (nofZ 0).
  (** ureal2.hpp 1012-1020 *)
  Definition u2_mul (x y : ureal2) : outcome ureal2 :=
    let xn := u2mu x in
    let yn := u2mu y in
    u2_binary x y (xn * yn) yn xn (nofZ 0) (nofZ 0) (nofZ 1).
  (** ureal2.hpp 1022-1032 *)
  Definition u2_div (x y : ureal2) : outcome ureal2 :=
    let xn := u2mu x in
    let yn := u2mu y in
    let invy := nofZ 1 / yn in
    let invy2 := invy * invy in
    u2_binary x y (xn / yn) invy (- xn * invy2) (nofZ 0) (nofZ 2 * xn * invy2 * invy) (- invy2).

  (** ureal2.hpp 1034-1053: [all]. *)
  Definition u2_all (p : N -> bool) (x : ureal2) : outcome bool :=
    if negb (p (u2mu x)) then Ret false
    else if negb (forallb (fun kd => p (dgrad (snd kd)) && p (dhh (snd kd))) (diagmap (u2hg x)))
    then Ret false
    else ts <- tri_visits (u2hg x) true;; Ret (forallb (fun v => p (vval v)) ts).

  (** *** binary_assign (ureal2.hpp 906-986)

      It modifies the maps of [x] while the iterator [itx] walks over them.
      Insertion into a std::map does not invalidate iterators, so here an iterator
      is a position: the key of the element it points to ([None] is [end()]). *)
  Record hpos : Type := mkPos {
    pmin : option Z; pmax : option Z; ptri : option (Z * Z); pskip : bool }.
  Fixpoint map_from {K V : Type} {KO : KeyOrd K} (k : K) (m : list (K * V)) : list (K * V) :=
    match m with
    | [] => []
    | (k', v) :: m' => match kcmp k k' with Gt => map_from k m' | _ => m end
    end.
  Definition map_at {K V : Type} {KO : KeyOrd K} (k : option K) (m : list (K * V)) : list (K * V) :=
    match k with Some k => map_from k m | None => [] end.
  Definition key_of {K V : Type} (m : list (K * V)) : option K :=
    match m with (k, _) :: _ => Some k | [] => None end.
  Definition iter_at (h : hessgrad N) (p : hpos) : iter N :=
    mkIt (map_at (pmin p) (diagmap h)) (map_at (pmax p) (diagmap h)) (map_at (ptri p) (trimap h)) (pskip p).
  Definition pos_of (it : iter N) : hpos :=
    mkPos (key_of (it_min it)) (key_of (it_max it)) (key_of (it_tri it)) (it_skip it).

  (** ureal2.hpp 941-950; [px] is the position of [itx]. *)
  Definition asn_x (dfdx hdd : N) (px : hpos) (itx : visit N) (r : hessgrad N) : outcome (hessgrad N) :=
    r <- hg_hhess (vid1 itx) (vid2 itx)
           (fun h => h + hdd * dgrad (vd1 itx) * dgrad (vd2 itx)) r;;
    (* *itx is read after the update of the same element *)
    itx <- hess_visit (iter_at r px);;
    r <- hg_hhess (vid1 itx) (vid2 itx) (fun h => h + dfdx * vval itx) r;;
    Ret (if (vid1 itx =? vid2 itx)%Z
         then hg_diag (vid1 itx)
                (fun d => mkD (dgrad d + dfdx * dgrad (vd1 itx)) (dhh d) (dmom (vd1 itx))) r
         else r).
  (** ureal2.hpp 952-967 *)
  Definition asn_y (dfdy hdd : N) (ity : visit N) (fresh : bool) (r : hessgrad N) :
    outcome (hessgrad N) :=
    r <- (if fresh then
            r <- hg_hhess (vid1 ity) (vid2 ity) (fun h => h) r;;
            Ret (if (vid1 ity =? vid2 ity)%Z
                 then hg_diag (vid1 ity) (fun d => mkD (dgrad d) (dhh d) (dmom (vd1 ity))) r
                 else r)
          else Ret r);;
    r <- hg_hhess (vid1 ity) (vid2 ity)
           (fun h => h + hdd * dgrad (vd1 ity) * dgrad (vd2 ity) + dfdy * vval ity) r;;
    Ret (if (vid1 ity =? vid2 ity)%Z
         then hg_diag (vid1 ity) (fun d => mkD (dgrad d + dfdy * dgrad (vd1 ity)) (dhh d) (dmom d)) r
         else r).
  (** ureal2.hpp 933-971; [x] is the current x.hg, [px] the position of [itx]. *)
  Fixpoint asn_merge (fuel : nat) (dfdx dfdy hxx hyy : N) (x : hessgrad N) (px : hpos)
    (ys : list (visit N)) : outcome (hessgrad N) :=
    match fuel with
    | O => UB
    | S fuel =>
        let itx := iter_at x px in
        if negb (it_more itx) && at_end ys then Ret x
        else
          vx <- (if it_more itx then v <- hess_visit itx;; Ret (Some v) else Ret None);;
          let idx := match vx with Some v => vid v | None => pmaxid end in
          let idy := match ys with v :: _ => vid v | [] => pmaxid end in
          x1 <- (if pleb idx idy then
                   match vx with Some v => asn_x dfdx hxx px v x | None => UB end
                 else Ret x);;
          x2 <- (if pleb idy idx then
                   match ys with v :: _ => asn_y dfdy hyy v (negb (peqb idx idy)) x1 | [] => UB end
                 else Ret x1);;
          px' <- (if pleb idx idy then
                    it' <- hess_next (iter_at x2 px);; Ret (pos_of it')
                  else Ret px);;
          ys' <- (if pleb idy idx then it_next ys else Ret ys);;
          asn_merge fuel dfdx dfdy hxx hyy x2 px' ys'
    end.
  (** ureal2.hpp 974-986 *)
  Fixpoint asn_cross_row (hxy : N) (y : hessgrad N) (idi : Z) (js : list Z) (x : hessgrad N) :
    outcome (hessgrad N) :=
    match js with
    | [] => Ret x
    | idj :: js' =>
        let dix := dgrad (hg_diag_get x idi) in
        let djx := dgrad (hg_diag_get x idj) in
        let diy := dgrad (hg_diag_get y idi) in
        let djy := dgrad (hg_diag_get y idj) in
        x' <- hg_hhess idi idj (fun h => h + hxy * (dix * djy + djx * diy)) x;;
        asn_cross_row hxy y idi js' x'
    end.
  Fixpoint asn_cross (hxy : N) (y : hessgrad N) (is : list Z) (x : hessgrad N) : outcome (hessgrad N) :=
    match is with
    | [] => Ret x
    | idi :: is' => x' <- asn_cross_row hxy y idi is x;; asn_cross hxy y is' x'
    end.
  (** ureal2.hpp 906-986: [binary_assign], for [x] and [y] different objects. *)
  Definition u2_binary_assign (x y : ureal2) (fxy dfdx dfdy ddfdxdx ddfdydy ddfdxdy : N) : outcome ureal2 :=
    let hxx := ddfdxdx / nofZ 2 in
    let hyy := ddfdydy / nofZ 2 in
    let hxy := ddfdxdy / nofZ 2 in
    ys <- hess_visits (u2hg y) (hyy =? n0);;
    let n := (walk_fuel (u2hg x) + walk_fuel (u2hg y))%nat in
    r <- asn_merge (n * n) dfdx dfdy hxx hyy (u2hg x)
           (pos_of (hess_begin (u2hg x) (hxx =? n0))) ys;;
    r <- (if negb (hxy =? n0) then asn_cross hxy (u2hg y) (map fst (diagmap r)) r else Ret r);;
    Ret (mkU2 r fxy).
End UReal2.
Arguments ureal2 N : clear implicits.

(** ureal2.hpp 680-699: casts to another numeric type and propagation mode (the mode
    is not part of the representation). *)
Definition u2_convert {N M : Num} (c : N -> M) (x : ureal2 N) : ureal2 M :=
  mkU2 (hg_convert c (u2hg x)) (c (u2mu x)).
