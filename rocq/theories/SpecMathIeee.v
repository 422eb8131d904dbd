(** * SpecMathIeee: accuracy of the functions of math.hpp on doubles *)

From Coq Require Import List ZArith Reals.
From Coquelicot Require Import Coquelicot.
From Flocq Require Import Core BinarySingleNaN.
From Verif Require Import Base Num UReal World Ieee SpecIeee Nan Math.
Import ListNotations.
Local Open Scope R_scope.

(** The double [a] is the number [r] up to a relative error [e]. *)
Definition close (e : R) (a : double) (r : R) : Prop := finite a /\ Rabs (real_of a - r) <= e * Rabs r.
(** A number inside the range of the normal doubles, or zero: representing it neither overflows
    nor underflows. *)
Definition regular (r : R) : Prop := r = 0 \/ pow2 (-1021) <= Rabs r <= pow2 1022.

Definition lib1 (e : R) (f : double -> double) (dom : R -> Prop) (F : R -> R) : Prop :=
  forall a, finite a -> dom (real_of a) -> regular (F (real_of a)) -> close e (f a) (F (real_of a)).
Definition lib2 (e : R) (f : double -> double -> double) (dom : R -> R -> Prop) (F : R -> R -> R) : Prop :=
  forall a b, finite a -> finite b -> dom (real_of a) (real_of b) -> regular (F (real_of a) (real_of b)) ->
  close e (f a b) (F (real_of a) (real_of b)).

(** The functions of <cmath> have relative error at most [e] where the result is a regular number. *)
Record accurate (M : cmath DN) (e : R) : Prop := {
  acc_exp : lib1 e (c_exp M) (fun _ => True) exp;
  acc_exp2 : lib1 e (c_exp2 M) (fun _ => True) (fun x => Rpower 2 x);
  acc_expm1 : lib1 e (c_expm1 M) (fun _ => True) (fun x => exp x - 1);
  acc_log : lib1 e (c_log M) (fun x => 0 < x) ln;
  acc_log10 : lib1 e (c_log10 M) (fun x => 0 < x) (fun x => ln x / ln 10);
  acc_log2 : lib1 e (c_log2 M) (fun x => 0 < x) (fun x => ln x / ln 2);
  acc_log1p : lib1 e (c_log1p M) (fun x => -1 < x) (fun x => ln (1 + x));
  acc_cbrt : lib1 e (c_cbrt M) (fun _ => True) R_cbrt;
  acc_sin : lib1 e (c_sin M) (fun _ => True) sin;
  acc_cos : lib1 e (c_cos M) (fun _ => True) cos;
  acc_tan : lib1 e (c_tan M) (fun x => cos x <> 0) tan;
  acc_asin : lib1 e (c_asin M) (fun x => -1 <= x <= 1) asin;
  acc_acos : lib1 e (c_acos M) (fun x => -1 <= x <= 1) acos;
  acc_atan : lib1 e (c_atan M) (fun _ => True) atan;
  acc_sinh : lib1 e (c_sinh M) (fun _ => True) sinh;
  acc_cosh : lib1 e (c_cosh M) (fun _ => True) cosh;
  acc_tanh : lib1 e (c_tanh M) (fun _ => True) tanh;
  acc_asinh : lib1 e (c_asinh M) (fun _ => True) R_asinh;
  acc_acosh : lib1 e (c_acosh M) (fun x => 1 <= x) R_acosh;
  acc_atanh : lib1 e (c_atanh M) (fun x => -1 < x < 1) R_atanh;
  acc_erf : lib1 e (c_erf M) (fun _ => True) R_erf;
  acc_erfc : lib1 e (c_erfc M) (fun _ => True) (fun x => 1 - R_erf x);
  acc_pow : lib2 e (c_pow M) (fun x _ => 0 < x) Rpower;
  acc_hypot : lib2 e (c_hypot M) (fun _ _ => True) (fun x y => sqrt (x * x + y * y));
  (* the sign of a zero matters to std::atan2 on the negative half axis *)
  acc_atan2 : lib2 e (c_atan2 M) (fun y x => y <> 0 \/ 0 < x) R_atan2;
  acc_trunc : lib1 e (c_trunc M) (fun _ => True) (fun x => IZR (Ztrunc x));
  acc_round : lib1 e (c_round M) (fun _ => True) (fun x => IZR (ZnearestA x));
  acc_fmod : lib2 e (c_fmod M) (fun _ y => y <> 0) R_fmod;
  acc_remainder : lib2 e (c_remainder M) (fun _ y => y <> 0) R_remainder;
  (* the greatest and the smallest of two doubles are doubles *)
  acc_fmax : forall a b, finite a -> finite b -> finite (c_fmax M a b) /\ real_of (c_fmax M a b) = Rmax (real_of a) (real_of b);
  acc_fmin : forall a b, finite a -> finite b -> finite (c_fmin M a b) /\ real_of (c_fmin M a b) = Rmin (real_of a) (real_of b);
  acc_pi : close e (c_atan2 M (dofZ 0) (dofZ (-1))) PI }.

(** [m] computes [F] on doubles, with relative error [k a * e] of the propagated coefficients if the
    functions of <cmath> have relative error [e].  The mean is the one of <cmath>; every
    coefficient is multiplied by the true derivative, up to that error; and so is
    the standard deviation, up to the [n + 3] roundings of adding [n] squares and taking the square root. *)
Definition accurate1 (m : cmath DN -> ureal DN -> ureal DN) (dom : R -> R -> Prop) (F : R -> R) (k : R -> R) : Prop :=
  forall M e, uround <= e <= pow2 (-20) -> accurate M e ->
  forall cs w, dlegal cs -> List.Forall (fun c => self_assign c = false) cs -> run w_init cs = Ret w ->
  forall v, let x := w_var w v in let a := real_of (u_n x) in let z := m M x in let n := List.length (coefs x) in
  finite (u_n x) -> dom e a -> regular (F a) ->
  close e (u_n z) (F a) /\
  exists d, is_derive F a d /\
    List.Forall2 (fun c c' => finite c -> regular (d * real_of c) -> close (k a * e) c' (d * real_of c)) (coefs x) (coefs z) /\
    (List.Forall (fun c => finite c /\ (real_of c = 0 \/ pow2 (-500) <= Rabs (d * real_of c))) (coefs x) ->
     d * d * sum_sq (coefs x) <= pow2 1000 ->
     close ((k a + INR n + 3) * e) (u_s z) (Rabs d * sqrt (sum_sq (coefs x)))).
