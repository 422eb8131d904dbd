(** * Functions: model of /repo/uncertainties/functions.hpp

    The factories that turn functions on numbers into functions on UReal and UReal2.  A
    std::function is a Gallina function.  Simplification: it is total and has no side
    effects. *)

From Coq Require Import List ZArith.
From Verif Require Import Base Num UReal UReal2.

Section Functions.
  Context {N : Num}.
  Local Open Scope num_scope.

  (** functions.hpp 123-128: [default_step]; [eps] is std::numeric_limits<Real>::epsilon(),
      a nonpositive [order] is 0. *)
  Fixpoint default_step (eps : N) (order : nat) : N :=
    match order with
    | O => eps
    | S order => nsqrt (default_step eps order)
    end.

  (** functions.hpp 96-101 *)
  Definition uunary (f df : N -> N) : ureal N -> ureal N :=
    fun x => u_unary x (f (u_n x)) (df (u_n x)).

  (** functions.hpp 109-118 *)
  Definition ubinary (f dfdx dfdy : N -> N -> N) : ureal N -> ureal N -> outcome (ureal N) :=
    fun x y =>
      let xn := u_n x in
      let yn := u_n y in
      u_binary x y (f xn yn) (dfdx xn yn) (dfdy xn yn).

  (** functions.hpp 140-151: forward difference *)
  Definition uunary_step (f : N -> N) (step : N) : ureal N -> ureal N :=
    fun x =>
      let mu := u_n x in
      let fmu := f mu in
      let dx := (f (mu + step) - fmu) / step in
      u_unary x fmu dx.

  (** functions.hpp 166-179: forward differences *)
  Definition ubinary_step (f : N -> N -> N) (step : N) : ureal N -> ureal N -> outcome (ureal N) :=
    fun x y =>
      let xn := u_n x in
      let yn := u_n y in
      let fn := f xn yn in
      let dfdx := (f (xn + step) yn - fn) / step in
      let dfdy := (f xn (yn + step) - fn) / step in
      u_binary x y fn dfdx dfdy.

  (** functions.hpp 201-209 *)
  Definition uunary2 (f dfdx ddfdxdx : N -> N) : ureal2 N -> outcome (ureal2 N) :=
    fun x =>
      let xn := u2_first_order_n x in
      u2_unary x (f xn) (dfdx xn) (ddfdxdx xn).

  (** functions.hpp 214-228 *)
  Definition ubinary2 (f dfdx dfdy ddfdxdx ddfdydy ddfdxdy : N -> N -> N) :
    ureal2 N -> ureal2 N -> outcome (ureal2 N) :=
    fun x y =>
      let xn := u2_first_order_n x in
      let yn := u2_first_order_n y in
      u2_binary x y (f xn yn) (dfdx xn yn) (dfdy xn yn)
        (ddfdxdx xn yn) (ddfdydy xn yn) (ddfdxdy xn yn).

  (** functions.hpp 240-251: second derivative with a forward difference *)
  Definition uunary2_deriv (f dfdx : N -> N) (step : N) : ureal2 N -> outcome (ureal2 N) :=
    fun x =>
      let xn := u2_first_order_n x in
      let dfdxn := dfdx xn in
      let ddfdxdx := (dfdx (xn + step) - dfdxn) / step in
      u2_unary x (f xn) dfdxn ddfdxdx.

  (** functions.hpp 265-278: central differences *)
  Definition uunary2_step (f : N -> N) (step : N) : ureal2 N -> outcome (ureal2 N) :=
    fun x =>
      let xn := u2_first_order_n x in
      let fc := f xn in
      let fr := f (xn + step) in
      let fl := f (xn - step) in
      let dfdx := (fr - fl) / (nofZ 2 * step) in
      let ddfdxdx := (fr + fl - nofZ 2 * fc) / (step * step) in
      u2_unary x fc dfdx ddfdxdx.

  (** functions.hpp 295-314: second derivatives with forward differences *)
  Definition ubinary2_deriv (f dfdx dfdy : N -> N -> N) (step : N) :
    ureal2 N -> ureal2 N -> outcome (ureal2 N) :=
    fun x y =>
      let xn := u2_first_order_n x in
      let yn := u2_first_order_n y in
      let dfdxn := dfdx xn yn in
      let dfdyn := dfdy xn yn in
      let ddfdxdx := (dfdx (xn + step) yn - dfdxn) / step in
      let ddfdydy := (dfdy xn (yn + step) - dfdyn) / step in
      let ddfdxdy := (dfdx xn (yn + step) - dfdxn) / step in
      u2_binary x y (f xn yn) dfdxn dfdyn ddfdxdx ddfdydy ddfdxdy.

  (** functions.hpp 338-374: central differences *)
  Definition ubinary2_step (f : N -> N -> N) (step : N) : ureal2 N -> ureal2 N -> outcome (ureal2 N) :=
    fun x y =>
      let xc := u2_first_order_n x in
      let yc := u2_first_order_n y in
      let fcc := f xc yc in
      let xr := xc + step in
      let xl := xc - step in
      let yr := yc + step in
      let yl := yc - step in
      let frc := f xr yc in
      let flc := f xl yc in
      let fcr := f xc yr in
      let fcl := f xc yl in
      let frr := f xr yr in
      let fll := f xl yl in
      let frclc := frc + flc in
      let fcrcl := fcr + fcl in
      let fcc2 := nofZ 2 * fcc in
      let step2 := nofZ 2 * step in
      let stepsq := step * step in
      let dfdx := (frc - flc) / step2 in
      let dfdy := (fcr - fcl) / step2 in
      let ddfdxdx := (frclc - fcc2) / stepsq in
      let ddfdydy := (fcrcl - fcc2) / stepsq in
      let ddfdxdy := (frr + fll - frclc - fcrcl + fcc2) / (nofZ 2 * stepsq) in
      u2_binary x y fcc dfdx dfdy ddfdxdx ddfdydy ddfdxdy.
End Functions.
