(** * Math: model of the UReal part of /repo/uncertainties/math.hpp (42-233)

    The functions are generic in the numeric type, as in the C++ text, so the functions of
    <cmath> are a parameter.  [m_exp], ... are their instances for reals extended with a non-number
    ([FN] of Nan.v), where the functions of <cmath> are the mathematical functions on their
    domains; the instance for doubles is used in SpecMathIeee.v.  isfinite and isnormal (232-247)
    are in MathIeee.v, on doubles. *)

From Coq Require Import List ZArith Reals.
From Coquelicot Require Import Coquelicot.
From Verif Require Import Base Num Map UReal Nan.
Local Open Scope num_scope.

(** The functions of <cmath> (or of the namespace of Real, by argument dependent lookup) which
    math.hpp calls besides abs and sqrt, which are part of [Num]. *)
Record cmath (N : Num) : Type := mkCmath {
  c_trunc : N -> N; c_round : N -> N; c_exp : N -> N; c_exp2 : N -> N; c_expm1 : N -> N;
  c_log : N -> N; c_log10 : N -> N; c_log2 : N -> N; c_log1p : N -> N; c_cbrt : N -> N;
  c_sin : N -> N; c_cos : N -> N; c_tan : N -> N; c_asin : N -> N; c_acos : N -> N;
  c_atan : N -> N; c_sinh : N -> N; c_cosh : N -> N; c_tanh : N -> N; c_asinh : N -> N;
  c_acosh : N -> N; c_atanh : N -> N; c_erf : N -> N; c_erfc : N -> N;
  c_fmod : N -> N -> N; c_remainder : N -> N -> N; c_fmax : N -> N -> N; c_fmin : N -> N -> N; c_pow : N -> N -> N;
  c_hypot : N -> N -> N; c_atan2 : N -> N -> N }.
Arguments c_trunc {_}. Arguments c_round {_}. Arguments c_exp {_}. Arguments c_exp2 {_}.
Arguments c_expm1 {_}. Arguments c_log {_}. Arguments c_log10 {_}. Arguments c_log2 {_}.
Arguments c_log1p {_}. Arguments c_cbrt {_}. Arguments c_sin {_}. Arguments c_cos {_}.
Arguments c_tan {_}. Arguments c_asin {_}. Arguments c_acos {_}. Arguments c_atan {_}.
Arguments c_sinh {_}. Arguments c_cosh {_}. Arguments c_tanh {_}. Arguments c_asinh {_}.
Arguments c_acosh {_}. Arguments c_atanh {_}. Arguments c_erf {_}. Arguments c_erfc {_}.
Arguments c_fmod {_}. Arguments c_remainder {_}. Arguments c_fmax {_}. Arguments c_fmin {_}.
Arguments c_pow {_}. Arguments c_hypot {_}. Arguments c_atan2 {_}.

(** a number: [Real(z)] or a literal converted to Real *)
Definition lit {N : Num} (z : Z) : N := nofZ z.
Notation "# z" := (lit z) (at level 1, format "# z") : num_scope.

Section Functions.
  Context {N : Num} (M : cmath N).
  Implicit Types x y : ureal N.

  (** 42-46 *)
  Definition g_abs x := u_unary x (nabs (u_n x)) (if #0 <=? u_n x then #1 else #(-1)).
  (** 47-51 *)
  Definition g_fmod x y :=
    u_binary x y (c_fmod M (u_n x) (u_n y)) #1 (- c_trunc M (u_n x / u_n y)).
  (** 52-57 *)
  Definition g_remainder x y :=
    u_binary x y (c_remainder M (u_n x) (u_n y)) #1 (- c_round M (u_n x / u_n y)).
  (** 58-64 *)
  Definition g_fmax x y :=
    let max := c_fmax M (u_n x) (u_n y) in
    let c := max =? u_n x in
    u_binary x y max (if c then #1 else #0) (if c then #0 else #1).
  (** 65-71 *)
  Definition g_fmin x y :=
    let min := c_fmin M (u_n x) (u_n y) in
    let c := min =? u_n x in
    u_binary x y min (if c then #1 else #0) (if c then #0 else #1).
  (** 73-77 *)
  Definition g_exp x := u_unary x (c_exp M (u_n x)) (c_exp M (u_n x)).
  (** 78-83 *)
  Definition g_exp2 x := u_unary x (c_exp2 M (u_n x)) (c_log M #2 * c_exp2 M (u_n x)).
  (** 84-89 *)
  Definition g_expm1 x := u_unary x (c_expm1 M (u_n x)) (c_exp M (u_n x)).
  (** 90-94 *)
  Definition g_log x := u_unary x (c_log M (u_n x)) (#1 / u_n x).
  (** 95-100 *)
  Definition g_log10 x := u_unary x (c_log10 M (u_n x)) (#1 / (u_n x * c_log M #10)).
  (** 101-106 *)
  Definition g_log2 x := u_unary x (c_log2 M (u_n x)) (#1 / (u_n x * c_log M #2)).
  (** 107-111 *)
  Definition g_log1p x := u_unary x (c_log1p M (u_n x)) (#1 / (#1 + u_n x)).
  (** 112-118 *)
  Definition g_pow x y :=
    let p := c_pow M (u_n x) (u_n y) in
    u_binary x y p (p * u_n y / u_n x) (p * c_log M (u_n x)).
  (** 119-123 *)
  Definition g_sqrt x := u_unary x (nsqrt (u_n x)) (#1 / (#2 * nsqrt (u_n x))).
  (** 124-129 *)
  Definition g_cbrt x := u_unary x (c_cbrt M (u_n x)) (c_pow M (u_n x) (- #2 / #3) / #3).
  (** 130-135 *)
  Definition g_hypot x y :=
    let h := c_hypot M (u_n x) (u_n y) in
    u_binary x y h (u_n x / h) (u_n y / h).
  (** 136-141 *)
  Definition g_sin x := u_unary x (c_sin M (u_n x)) (c_cos M (u_n x)).
  (** 142-147 *)
  Definition g_cos x := u_unary x (c_cos M (u_n x)) (- c_sin M (u_n x)).
  (** 148-153 *)
  Definition g_tan x :=
    let t := c_tan M (u_n x) in u_unary x t (#1 + t * t).
  (** 154-159 *)
  Definition g_asin x := u_unary x (c_asin M (u_n x)) (#1 / nsqrt (#1 - u_n x * u_n x)).
  (** 160-165 *)
  Definition g_acos x := u_unary x (c_acos M (u_n x)) (- #1 / nsqrt (#1 - u_n x * u_n x)).
  (** 166-170 *)
  Definition g_atan x := u_unary x (c_atan M (u_n x)) (#1 / (#1 + u_n x * u_n x)).
  (** 171-178 *)
  Definition g_atan2 x y :=
    let yx := u_n y / u_n x in
    let dy := #1 / ((#1 + yx * yx) * u_n x) in
    let dx := dy * (- yx) in
    u_binary x y (c_atan2 M (u_n x) (u_n y)) dx dy.
  (** 179-184 *)
  Definition g_sinh x := u_unary x (c_sinh M (u_n x)) (c_cosh M (u_n x)).
  (** 185-190 *)
  Definition g_cosh x := u_unary x (c_cosh M (u_n x)) (c_sinh M (u_n x)).
  (** 191-196 *)
  Definition g_tanh x :=
    let t := c_tanh M (u_n x) in u_unary x t (#1 - t * t).
  (** 197-202 *)
  Definition g_asinh x := u_unary x (c_asinh M (u_n x)) (#1 / nsqrt (u_n x * u_n x + #1)).
  (** 203-208 *)
  Definition g_acosh x := u_unary x (c_acosh M (u_n x)) (#1 / nsqrt (u_n x * u_n x - #1)).
  (** 209-213 *)
  Definition g_atanh x := u_unary x (c_atanh M (u_n x)) (#1 / (#1 - u_n x * u_n x)).
  (** 214-222 *)
  Definition g_erf_coeff : N := #2 / nsqrt (c_atan2 M #0 #(-1)).
  Definition g_erf x := u_unary x (c_erf M (u_n x)) (g_erf_coeff * c_exp M (- u_n x * u_n x)).
  (** 223-231 *)
  Definition g_erfc x := u_unary x (c_erfc M (u_n x)) (- g_erf_coeff * c_exp M (- u_n x * u_n x)).
End Functions.

(** ** The instance for real numbers with a non-number *)
Definition R_erf (x : R) : R := (2 / sqrt PI * RInt (fun t => exp (- (t * t))) 0 x)%R.
Definition std_erf : fp -> fp := fp1 R_erf.
Definition std_erfc : fp -> fp := fp1 (fun x => 1 - R_erf x)%R.

Definition std_cmath : cmath FN := {|
  c_trunc := std_trunc;
  c_round := std_round;
  c_exp := std_exp;
  c_exp2 := std_exp2;
  c_expm1 := std_expm1;
  c_log := std_log;
  c_log10 := std_log10;
  c_log2 := std_log2;
  c_log1p := std_log1p;
  c_cbrt := std_cbrt;
  c_sin := std_sin;
  c_cos := std_cos;
  c_tan := std_tan;
  c_asin := std_asin;
  c_acos := std_acos;
  c_atan := std_atan;
  c_sinh := std_sinh;
  c_cosh := std_cosh;
  c_tanh := std_tanh;
  c_asinh := std_asinh;
  c_acosh := std_acosh;
  c_atanh := std_atanh;
  c_erf := std_erf;
  c_erfc := std_erfc;
  c_fmod := std_fmod;
  c_remainder := std_remainder;
  c_fmax := std_fmax;
  c_fmin := std_fmin;
  c_pow := std_pow;
  c_hypot := std_hypot;
  c_atan2 := std_atan2 |}.

Definition m_abs := g_abs (N := FN).
Definition m_fmod := g_fmod std_cmath.
Definition m_remainder := g_remainder std_cmath.
Definition m_fmax := g_fmax std_cmath.
Definition m_fmin := g_fmin std_cmath.
Definition m_exp := g_exp std_cmath.
Definition m_exp2 := g_exp2 std_cmath.
Definition m_expm1 := g_expm1 std_cmath.
Definition m_log := g_log std_cmath.
Definition m_log10 := g_log10 std_cmath.
Definition m_log2 := g_log2 std_cmath.
Definition m_log1p := g_log1p std_cmath.
Definition m_pow := g_pow std_cmath.
Definition m_sqrt := g_sqrt (N := FN).
Definition m_cbrt := g_cbrt std_cmath.
Definition m_hypot := g_hypot std_cmath.
Definition m_sin := g_sin std_cmath.
Definition m_cos := g_cos std_cmath.
Definition m_tan := g_tan std_cmath.
Definition m_asin := g_asin std_cmath.
Definition m_acos := g_acos std_cmath.
Definition m_atan := g_atan std_cmath.
Definition m_atan2 := g_atan2 std_cmath.
Definition m_sinh := g_sinh std_cmath.
Definition m_cosh := g_cosh std_cmath.
Definition m_tanh := g_tanh std_cmath.
Definition m_asinh := g_asinh std_cmath.
Definition m_acosh := g_acosh std_cmath.
Definition m_atanh := g_atanh std_cmath.
Definition erf_coeff := g_erf_coeff std_cmath.
Definition m_erf := g_erf std_cmath.
Definition m_erfc := g_erfc std_cmath.
