(** * Math2: model of the UReal2 part of /repo/uncertainties/math.hpp (252-530)

    The functions are generic in the numeric type and in the functions of <cmath>, as in
    Math.v; [m2_exp], ... are their instances for reals extended with a non-number, and the
    instance for doubles is used in SpecMath2Ieee.v.  isfinite and isnormal
    (534-546) call a member function [x.all(x, ...)] that does not exist; they are not
    modelled. *)

From Coq Require Import List ZArith Reals.
From Verif Require Import Base Num Map UReal HessGrad UReal2 Nan Math.
Local Open Scope num_scope.

(** A variable that holds no non-numbers, as a variable over [FN]. *)
Definition lift_diag (d : diag RN) : diag FN :=
  mkD (Some (dgrad d) : FN) (Some (dhh d) : FN)
      (option_map (moms_convert (N := RN) (M := FN) (fun v => Some v)) (dmom d)).
Definition lift_hg (h : hessgrad RN) : hessgrad FN :=
  mkHG (map (fun kd => (fst kd, lift_diag (snd kd))) (diagmap h))
       (map (fun kv => (fst kv, Some (snd kv) : FN)) (trimap h)).
Definition lift2 (x : ureal2 RN) : ureal2 FN := mkU2 (lift_hg (u2hg x)) (Some (u2mu x) : FN).

Section Functions.
  Context {N : Num} (M : cmath N).
  Implicit Types x y : ureal2 N.
  Notation nm := u2_first_order_n.

  (** 252-257 *)
  Definition g2_abs x := u2_unary x (nabs (nm x)) (if #0 <=? nm x then #1 else #(-1)) #0.
  (** 258-264 *)
  Definition g2_fmod x y :=
    u2_binary x y (c_fmod M (nm x) (nm y)) #1 (- c_trunc M (nm x / nm y)) #0 #0 #0.
  (** 265-272 *)
  Definition g2_remainder x y :=
    u2_binary x y (c_remainder M (nm x) (nm y)) #1 (- c_round M (nm x / nm y)) #0 #0 #0.
  (** 273-281 *)
  Definition g2_fmax x y :=
    let max := c_fmax M (nm x) (nm y) in
    let c := max =? nm x in
    u2_binary x y max (if c then #1 else #0) (if c then #0 else #1) #0 #0 #0.
  (** 282-290 *)
  Definition g2_fmin x y :=
    let min := c_fmin M (nm x) (nm y) in
    let c := min =? nm x in
    u2_binary x y min (if c then #1 else #0) (if c then #0 else #1) #0 #0 #0.
  (** 292-297 *)
  Definition g2_exp x := u2_unary x (c_exp M (nm x)) (c_exp M (nm x)) (c_exp M (nm x)).
  (** 298-305 *)
  Definition g2_exp2 x :=
    let coeff := c_log M #2 in
    u2_unary x (c_exp2 M (nm x)) (coeff * c_exp2 M (nm x)) (coeff * coeff * c_exp2 M (nm x)).
  (** 306-312 *)
  Definition g2_expm1 x := u2_unary x (c_expm1 M (nm x)) (c_exp M (nm x)) (c_exp M (nm x)).
  (** 313-318 *)
  Definition g2_log x := u2_unary x (c_log M (nm x)) (#1 / nm x) (- #1 / (nm x * nm x)).
  (** 319-326 *)
  Definition g2_log10 x :=
    let coeff := #1 / c_log M #10 in
    u2_unary x (c_log10 M (nm x)) (coeff / nm x) (- coeff / (nm x * nm x)).
  (** 327-334 *)
  Definition g2_log2 x :=
    let coeff := #1 / c_log M #2 in
    u2_unary x (c_log2 M (nm x)) (coeff / nm x) (- coeff / (nm x * nm x)).
  (** 335-341 *)
  Definition g2_log1p x :=
    let ixnp1 := #1 / (#1 + nm x) in
    u2_unary x (c_log1p M (nm x)) ixnp1 (- ixnp1 * ixnp1).
  (** 342-360 *)
  Definition g2_pow x y :=
    let xn := nm x in
    let yn := nm y in
    let x2y := c_pow M xn yn in
    let logx := c_log M xn in
    let ix := #1 / xn in
    let x2yix := x2y * ix in
    let x2yixy := x2yix * yn in
    let x2ylogx := x2y * logx in
    u2_binary x y x2y x2yixy x2ylogx (x2yixy * ix * (yn - #1)) (x2ylogx * logx) (x2yix + x2yixy * logx).
  (** 361-367 *)
  Definition g2_sqrt x :=
    let sqrtx := nsqrt (nm x) in
    u2_unary x sqrtx (#1 / (#2 * sqrtx)) (- #1 / (#4 * nm x * sqrtx)).
  (** 368-376 *)
  Definition g2_cbrt x :=
    let cbrtx := c_cbrt M (nm x) in
    let icbrt2 := #1 / (cbrtx * cbrtx) in
    u2_unary x cbrtx (icbrt2 / #3) (- #2 / (#9 * nm x) * icbrt2).
  (** 377-391 *)
  Definition g2_hypot x y :=
    let h := c_hypot M (nm x) (nm y) in
    let ih := #1 / h in
    let xnih := nm x * ih in
    let ynih := nm y * ih in
    u2_binary x y h xnih ynih (ih * (#1 - xnih * xnih)) (ih * (#1 - ynih * ynih)) (- xnih * ynih * ih).
  (** 392-399 *)
  Definition g2_sin x :=
    let sinx := c_sin M (nm x) in u2_unary x sinx (c_cos M (nm x)) (- sinx).
  (** 400-407 *)
  Definition g2_cos x :=
    let cosx := c_cos M (nm x) in u2_unary x cosx (- c_sin M (nm x)) (- cosx).
  (** 408-415 *)
  Definition g2_tan x :=
    let t := c_tan M (nm x) in
    let tt1 := #1 + t * t in
    u2_unary x t tt1 (#2 * t * tt1).
  (** 416-424 *)
  Definition g2_asin x :=
    let i1xx := #1 / (#1 - nm x * nm x) in
    let isqrt1xx := nsqrt i1xx in
    u2_unary x (c_asin M (nm x)) isqrt1xx (nm x * isqrt1xx * i1xx).
  (** 425-433 *)
  Definition g2_acos x :=
    let i1xx := #1 / (#1 - nm x * nm x) in
    let isqrt1xx := nsqrt i1xx in
    u2_unary x (c_acos M (nm x)) (- isqrt1xx) (- nm x * isqrt1xx * i1xx).
  (** 434-440 *)
  Definition g2_atan x :=
    let i1xx := #1 / (#1 + nm x * nm x) in
    u2_unary x (c_atan M (nm x)) i1xx (- #2 * nm x * i1xx * i1xx).
  (** 441-459 *)
  Definition g2_atan2 x y :=
    let xn := nm x in
    let yn := nm y in
    let x2 := xn * xn in
    let y2 := yn * yn in
    let xxyy := x2 + y2 in
    let ixxyy := #1 / xxyy in
    let xixxyy := xn * ixxyy in
    let yixxyy := yn * ixxyy in
    let xy2ixxyy2 := #2 * xixxyy * yixxyy in
    u2_binary x y (c_atan2 M xn yn) yixxyy (- xixxyy) (- xy2ixxyy2) xy2ixxyy2
      ((x2 - y2) * ixxyy * ixxyy).
  (** 460-467 *)
  Definition g2_sinh x :=
    let sinhx := c_sinh M (nm x) in u2_unary x sinhx (c_cosh M (nm x)) sinhx.
  (** 468-475 *)
  Definition g2_cosh x :=
    let coshx := c_cosh M (nm x) in u2_unary x coshx (c_sinh M (nm x)) coshx.
  (** 476-483 *)
  Definition g2_tanh x :=
    let t := c_tanh M (nm x) in
    let tt1 := #1 - t * t in
    u2_unary x t tt1 (- #2 * t * tt1).
  (** 484-492 *)
  Definition g2_asinh x :=
    let i1xx := #1 / (#1 + nm x * nm x) in
    let sqrti1xx := nsqrt i1xx in
    u2_unary x (c_asinh M (nm x)) sqrti1xx (- nm x * i1xx * sqrti1xx).
  (** 493-501 *)
  Definition g2_acosh x :=
    let ixx1 := #1 / (nm x * nm x - #1) in
    let sqrtixx1 := nsqrt ixx1 in
    u2_unary x (c_acosh M (nm x)) sqrtixx1 (- nm x * ixx1 * sqrtixx1).
  (** 502-508 *)
  Definition g2_atanh x :=
    let i1xx := #1 / (#1 - nm x * nm x) in
    u2_unary x (c_atanh M (nm x)) i1xx (#2 * nm x * i1xx * i1xx).
  (** 509-519; the static erf_coeff is the one of Math.v *)
  Definition g2_erf x :=
    let cexx := g_erf_coeff M * c_exp M (- nm x * nm x) in
    u2_unary x (c_erf M (nm x)) cexx (- #2 * nm x * cexx).
  (** 520-530 *)
  Definition g2_erfc x :=
    let cexx := g_erf_coeff M * c_exp M (- nm x * nm x) in
    u2_unary x (c_erfc M (nm x)) (- cexx) (#2 * nm x * cexx).
End Functions.

Definition m2_abs := g2_abs (N := FN).
Definition m2_fmod := g2_fmod std_cmath.
Definition m2_remainder := g2_remainder std_cmath.
Definition m2_fmax := g2_fmax std_cmath.
Definition m2_fmin := g2_fmin std_cmath.
Definition m2_exp := g2_exp std_cmath.
Definition m2_exp2 := g2_exp2 std_cmath.
Definition m2_expm1 := g2_expm1 std_cmath.
Definition m2_log := g2_log std_cmath.
Definition m2_log10 := g2_log10 std_cmath.
Definition m2_log2 := g2_log2 std_cmath.
Definition m2_log1p := g2_log1p std_cmath.
Definition m2_pow := g2_pow std_cmath.
Definition m2_sqrt := g2_sqrt (N := FN).
Definition m2_cbrt := g2_cbrt std_cmath.
Definition m2_hypot := g2_hypot std_cmath.
Definition m2_sin := g2_sin std_cmath.
Definition m2_cos := g2_cos std_cmath.
Definition m2_tan := g2_tan std_cmath.
Definition m2_asin := g2_asin std_cmath.
Definition m2_acos := g2_acos std_cmath.
Definition m2_atan := g2_atan std_cmath.
Definition m2_atan2 := g2_atan2 std_cmath.
Definition m2_sinh := g2_sinh std_cmath.
Definition m2_cosh := g2_cosh std_cmath.
Definition m2_tanh := g2_tanh std_cmath.
Definition m2_asinh := g2_asinh std_cmath.
Definition m2_acosh := g2_acosh std_cmath.
Definition m2_atanh := g2_atanh std_cmath.
Definition m2_erf := g2_erf std_cmath.
Definition m2_erfc := g2_erfc std_cmath.
