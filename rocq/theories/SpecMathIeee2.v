(** * SpecMathIeee2: accuracy of the functions of two arguments on doubles *)

From Coq Require Import List ZArith Reals.
From Coquelicot Require Import Coquelicot.
From Flocq Require Import Core BinarySingleNaN.
From Verif Require Import Base Num Map UReal World Ieee SpecIeee Nan Math SpecMathIeee.
Import ListNotations.
Local Open Scope R_scope.

(** The independent variables [x] depends on, by id, and its coefficient on each. *)
Definition ids (x : ureal DN) : list Z :=
  if (0 <? uid x)%Z then [uid x] else if (uid x <? 0)%Z then map fst (usigma x) else [].
Definition stored (x : ureal DN) (i : Z) : option double :=
  if (0 <? uid x)%Z then (if (i =? uid x)%Z then Some (usdev x : double) else None)
  else if (uid x <? 0)%Z then mfind i (usigma x) else None.
Definition coef (x : ureal DN) (i : Z) : R := match stored x i with Some c => real_of c | None => 0 end.
Definition finite_at (x : ureal DN) (i : Z) : Prop := match stored x i with Some c => finite c | None => True end.

(** the square root of the sum of squares *)
Definition norm (l : list Z) (f : Z -> R) : R := sqrt (fold_right (fun i r => f i * f i + r) 0 l).

(** [m] computes [F] on doubles: if the functions of <cmath> have relative error [e], the mean
    has relative error [k0 * e]; the result depends on the variables either operand depends on, and
    its coefficient on each is the one of first order propagation, up to [k * e] relative to the sizes of the two
    terms; and the standard deviation is the one of first order propagation up to the same, plus the roundings
    of adding [n] squares and taking the square root. *)
Definition accurate2 (m : cmath DN -> ureal DN -> ureal DN -> outcome (ureal DN)) (dom : R -> R -> R -> Prop) (F : R -> R -> R) (k0 k : R) : Prop :=
  forall M e, uround <= e <= pow2 (-20) -> accurate M e ->
  forall cs w, dlegal cs -> List.Forall (fun c => self_assign c = false) cs -> run w_init cs = Ret w ->
  forall u v, let x := w_var w u in let y := w_var w v in let a := real_of (u_n x) in let b := real_of (u_n y) in
  finite (u_n x) -> finite (u_n y) -> dom e a b -> regular (F a b) ->
  exists z dx dy, m M x y = Ret z /\ close (k0 * e) (u_n z) (F a b) /\ differentiable_pt_lim F a b dx dy /\
    let exact i := dx * coef x i + dy * coef y i in
    let size i := Rabs (dx * coef x i) + Rabs (dy * coef y i) in
    let good i := finite_at x i /\ finite_at y i /\ regular (dx * coef x i) /\ regular (dy * coef y i) /\ size i <= pow2 1022 in
    (forall i, In i (ids z) <-> In i (ids x) \/ In i (ids y)) /\
    (forall i, good i -> finite_at z i /\ Rabs (coef z i - exact i) <= k * e * size i) /\
    ((forall i, In i (ids z) -> good i) -> no_underflow (coefs z) -> sum_sq (coefs z) <= pow2 1020 ->
     finite (u_s z) /\
     Rabs (real_of (u_s z) - norm (ids z) exact) <= (k + 2 * INR (List.length (ids z)) + 6) * e * norm (ids z) size).
