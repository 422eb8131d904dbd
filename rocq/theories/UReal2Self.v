(** * UReal2Self: binary_assign of UReal2 with the same object as both arguments (/repo/uncertainties/ureal2.hpp 906-986)

    As in UReal2.v an iterator is a position, now also [ity], because the maps it walks over
    are the ones that are modified. *)

From Coq Require Import List ZArith Bool.
From Verif Require Import Base Num Map UReal World HessGrad UReal2.
Import ListNotations.

Section UReal2Self.
  Context {N : Num}.
  Local Open Scope num_scope.

  (** ureal2.hpp 951-964 with [y] = [x].  The statements after the creation of the element are
      those of 941-949 ([asn_x]), which also assigns the moments of the element to themselves. *)
  Definition self_y (dfdy hdd : N) (py : hpos) (fresh : bool) (r : hessgrad N) : outcome (hessgrad N) :=
    ity <- hess_visit (iter_at r py);;
    r <- (if fresh then
            r <- hg_hhess (vid1 ity) (vid2 ity) (fun h => h) r;;
            Ret (if (vid1 ity =? vid2 ity)%Z
                 then hg_diag (vid1 ity) (fun d => mkD (dgrad d) (dhh d) (dmom (vd1 ity))) r
                 else r)
          else Ret r);;
    ity <- hess_visit (iter_at r py);;
    asn_x dfdy hdd py ity r.
  (** ureal2.hpp 933-968 *)
  Fixpoint self_merge (fuel : nat) (dfdx dfdy hxx hyy : N) (x : hessgrad N) (px py : hpos) : outcome (hessgrad N) :=
    match fuel with
    | O => UB
    | S fuel =>
        let itx := iter_at x px in
        let ity := iter_at x py in
        if negb (it_more itx) && negb (it_more ity) then Ret x
        else
          vx <- (if it_more itx then v <- hess_visit itx;; Ret (Some v) else Ret None);;
          vy <- (if it_more ity then v <- hess_visit ity;; Ret (Some v) else Ret None);;
          let idx := match vx with Some v => vid v | None => pmaxid end in
          let idy := match vy with Some v => vid v | None => pmaxid end in
          x1 <- (if pleb idx idy then
                   match vx with Some v => asn_x dfdx hxx px v x | None => UB end
                 else Ret x);;
          x2 <- (if pleb idy idx then
                   match vy with Some _ => self_y dfdy hyy py (negb (peqb idx idy)) x1 | None => UB end
                 else Ret x1);;
          px' <- (if pleb idx idy then it' <- hess_next (iter_at x2 px);; Ret (pos_of it') else Ret px);;
          py' <- (if pleb idy idx then it' <- hess_next (iter_at x2 py);; Ret (pos_of it') else Ret py);;
          self_merge fuel dfdx dfdy hxx hyy x2 px' py'
    end.
  (** ureal2.hpp 971-986: as [asn_cross] (UReal2.v), the gradient of [y] is read in the object that is modified *)
  Fixpoint self_row (hxy : N) (idi : Z) (js : list Z) (x : hessgrad N) : outcome (hessgrad N) :=
    match js with
    | [] => Ret x
    | idj :: js' =>
        let di := dgrad (hg_diag_get x idi) in
        let dj := dgrad (hg_diag_get x idj) in
        x' <- hg_hhess idi idj (fun h => h + hxy * (di * dj + dj * di)) x;;
        self_row hxy idi js' x'
    end.
  Fixpoint self_cross (hxy : N) (is : list Z) (x : hessgrad N) : outcome (hessgrad N) :=
    match is with
    | [] => Ret x
    | idi :: is' => x' <- self_row hxy idi is x;; self_cross hxy is' x'
    end.
  (** ureal2.hpp 906-986: [binary_assign(x, x, ...)] *)
  Definition u2_self_assign (x : ureal2 N) (fxy dfdx dfdy ddfdxdx ddfdydy ddfdxdy : N) : outcome (ureal2 N) :=
    let hxx := ddfdxdx / nofZ 2 in
    let hyy := ddfdydy / nofZ 2 in
    let hxy := ddfdxdy / nofZ 2 in
    let n := (2 * walk_fuel (u2hg x))%nat in
    r <- self_merge (n * n) dfdx dfdy hxx hyy (u2hg x)
           (pos_of (hess_begin (u2hg x) (hxx =? n0))) (pos_of (hess_begin (u2hg x) (hyy =? n0)));;
    r <- (if negb (hxy =? n0) then self_cross hxy (map fst (diagmap r)) r else Ret r);;
    Ret (mkU2 r fxy).
End UReal2Self.
