(** * Nan: real numbers plus one non-number

    The functions of math.hpp are partial: outside of its domain a function of <cmath>
    returns NaN or an infinity.  [FN] extends the reals with one value [None] for
    everything that is not a number; it propagates through the arithmetic, and
    comparisons with it are false.  Simplification: infinities are not told apart from NaN. *)

From Coq Require Import List ZArith Reals Lra.
From Flocq Require Import Core.
From Verif Require Import Base Num Map UReal.
Import ListNotations.
Local Open Scope R_scope.

Definition fp : Type := option R.
Definition fp1 (f : R -> R) (x : fp) : fp := option_map f x.
Definition fp2 (f : R -> R -> R) (x y : fp) : fp :=
  match x, y with Some a, Some b => Some (f a b) | _, _ => None end.
Definition fp_div (x y : fp) : fp :=
  match x, y with Some a, Some b => if Req_EM_T b 0 then None else Some (a / b) | _, _ => None end.
Definition fp_cmp (c : R -> R -> bool) (x y : fp) : bool :=
  match x, y with Some a, Some b => c a b | _, _ => false end.
(** a function with domain [d] *)
Definition fp_dom (d : R -> bool) (f : R -> R) (x : fp) : fp :=
  match x with Some a => if d a then Some (f a) else None | None => None end.

(** std::sqrt *)
Definition std_sqrt : fp -> fp := fp_dom (fun x => Rleb 0 x) sqrt.

Canonical Structure FN : Num := {|
  T := fp; n0 := Some 0; n1 := Some 1;
  nadd := fp2 Rplus; nsub := fp2 Rminus; nmul := fp2 Rmult; ndiv := fp_div; nopp := fp1 Ropp;
  nltb := fp_cmp Rltb; nleb := fp_cmp Rleb; neqb := fp_cmp Reqb;
  nabs := fp1 Rabs; nsqrt := std_sqrt; nofZ := fun z => Some (IZR z) |}.

(** A variable that holds no non-numbers, as a variable over [FN]. *)
Definition lift (x : ureal RN) : ureal FN :=
  mkU (uid x) (Some (usdev x) : FN) (Some (umu x) : FN)
      (map (fun kv => (fst kv, Some (snd kv) : FN)) (usigma x)).

(** ** The functions of <cmath> used by math.hpp, on the extended reals *)

Definition std_abs : fp -> fp := fp1 Rabs.
Definition std_trunc : fp -> fp := fp1 (fun x => IZR (Ztrunc x)).
(** half-way cases away from zero *)
Definition std_round : fp -> fp := fp1 (fun x => IZR (ZnearestA x)).
Definition R_fmod (x y : R) : R := x - IZR (Ztrunc (x / y)) * y.
Definition std_fmod (x y : fp) : fp :=
  match x, y with Some a, Some b => if Req_EM_T b 0 then None else Some (R_fmod a b) | _, _ => None end.
(** half-way cases to even *)
Definition R_remainder (x y : R) : R := x - IZR (ZnearestE (x / y)) * y.
Definition std_remainder (x y : fp) : fp :=
  match x, y with Some a, Some b => if Req_EM_T b 0 then None else Some (R_remainder a b) | _, _ => None end.
(** std::fmax and std::fmin return the other argument if one is NaN *)
Definition std_fmax (x y : fp) : fp :=
  match x, y with Some a, Some b => Some (Rmax a b) | Some a, None => Some a | None, _ => y end.
Definition std_fmin (x y : fp) : fp :=
  match x, y with Some a, Some b => Some (Rmin a b) | Some a, None => Some a | None, _ => y end.
Definition std_exp : fp -> fp := fp1 exp.
Definition std_exp2 : fp -> fp := fp1 (Rpower 2).
Definition std_expm1 : fp -> fp := fp1 (fun x => exp x - 1).
Definition std_log : fp -> fp := fp_dom (fun x => Rltb 0 x) ln.
Definition std_log10 : fp -> fp := fp_dom (fun x => Rltb 0 x) (fun x => ln x / ln 10).
Definition std_log2 : fp -> fp := fp_dom (fun x => Rltb 0 x) (fun x => ln x / ln 2).
Definition std_log1p : fp -> fp := fp_dom (fun x => Rltb (-1) x) (fun x => ln (1 + x)).
(** pow: positive base; integer exponent; zero base with positive exponent *)
Definition std_pow (x y : fp) : fp :=
  match x, y with
  | Some a, Some b =>
      if Rltb 0 a then Some (Rpower a b)
      else if Req_EM_T b (IZR (Ztrunc b)) then
        if Reqb a 0 && Rltb b 0 then None else Some (powerRZ a (Ztrunc b))
      else if Reqb a 0 && Rltb 0 b then Some 0
      else None
  | _, _ => None
  end%bool.
Definition R_cbrt (x : R) : R :=
  if Rlt_dec 0 x then Rpower x (/ 3) else if Rlt_dec x 0 then - Rpower (- x) (/ 3) else 0.
Definition std_cbrt : fp -> fp := fp1 R_cbrt.
Definition std_hypot : fp -> fp -> fp := fp2 (fun x y => sqrt (x * x + y * y)).
Definition std_sin : fp -> fp := fp1 sin.
Definition std_cos : fp -> fp := fp1 cos.
Definition std_tan : fp -> fp := fp_dom (fun x => negb (Reqb (cos x) 0)) tan.
Definition std_asin : fp -> fp := fp_dom (fun x => Rleb (-1) x && Rleb x 1)%bool asin.
Definition std_acos : fp -> fp := fp_dom (fun x => Rleb (-1) x && Rleb x 1)%bool acos.
Definition std_atan : fp -> fp := fp1 atan.
(** std::atan2(y, x): the angle of the point (x, y), in (-pi, pi]. *)
Definition R_atan2 (y x : R) : R :=
  if Rlt_dec 0 x then atan (y / x)
  else if Rlt_dec x 0 then (if Rlt_dec y 0 then atan (y / x) - PI else atan (y / x) + PI)
  else if Rlt_dec 0 y then PI / 2
  else if Rlt_dec y 0 then - (PI / 2)
  else 0.
Definition std_atan2 : fp -> fp -> fp := fp2 R_atan2.
Definition std_sinh : fp -> fp := fp1 sinh.
Definition std_cosh : fp -> fp := fp1 cosh.
Definition std_tanh : fp -> fp := fp1 tanh.
Definition R_asinh (x : R) : R := ln (x + sqrt (x * x + 1)).
Definition std_asinh : fp -> fp := fp1 R_asinh.
Definition R_acosh (x : R) : R := ln (x + sqrt (x * x - 1)).
Definition std_acosh : fp -> fp := fp_dom (fun x => Rleb 1 x) R_acosh.
Definition R_atanh (x : R) : R := ln ((1 + x) / (1 - x)) / 2.
Definition std_atanh : fp -> fp := fp_dom (fun x => Rltb (-1) x && Rltb x 1)%bool R_atanh.
