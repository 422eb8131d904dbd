(** * SpecAD2: second derivatives of programs

    For C60.  As in SpecAD.v, a program is read as a function of its independent
    variables; here for the calls on UReal2.  [derivs2_ok] says that the first and second
    derivatives handed to the library are those of the functions applied, at the means
    where they are applied. *)

From Coq Require Import List ZArith Reals.
From Coquelicot Require Import Coquelicot.
From Verif Require Import Base Num UReal World Sums SpecLin SpecAD HessGrad Moments CheckMoments UReal2 World2 SpecMath2.
Import ListNotations.
Local Open Scope R_scope.

Definition ad2_exec (w : adworld) (c : call2 RN) : adworld :=
  let F := ad_fun w in
  let new v n s :=
    let i := (ad_last w + 1)%Z in
    ad_set (mkAD i (env_set (ad_mean w) i n) (env_set (ad_sd w) i s) F) v (fun e => e i) in
  match c with
  (* a UReal takes an id from the same counter *)
  | E1 c => mkAD (ad_last w + (if is_new c then 1 else 0)) (ad_mean w) (ad_sd w) F
  | ENew v n m _ => new v n (sqrt (c2nd m))
  | ENewStd v n s _ _ => new v n s
  | EConst v n => ad_set w v (fun _ => n)
  | EDefault v => ad_set w v (fun _ => 0)
  | ECopy v x => ad_set w v (F x)
  | EUnary v x f _ _ => ad_set w v (fun e => f (F x e))
  | EBinary v x y f _ _ _ _ _ => ad_set w v (fun e => f (F x e) (F y e))
  | ENeg v x => ad_set w v (fun e => - F x e)
  | EAdd v x y => ad_set w v (fun e => F x e + F y e)
  | ESub v x y => ad_set w v (fun e => F x e - F y e)
  | EMul v x y => ad_set w v (fun e => F x e * F y e)
  | EDiv v x y => ad_set w v (fun e => F x e / F y e)
  end.
Definition ad2_run (w : adworld) (cs : list (call2 RN)) : adworld := fold_left ad2_exec cs w.

(** [m] gives the current means of the program variables. *)
Definition deriv2_ok (m : nat -> R) (c : call2 RN) : Prop :=
  match c with
  | EUnary _ x f f1 f2 => twice_derivable f (m x) (f1 (m x)) (f2 (m x))
  | EBinary _ x y f fx fy fxx fyy fxy =>
      twice_differentiable f (m x) (m y) (fx (m x) (m y)) (fy (m x) (m y))
        (fxx (m x) (m y)) (fyy (m x) (m y)) (fxy (m x) (m y))
  | EDiv _ _ y => m y <> 0
  | _ => True
  end.
Fixpoint derivs2_ok (w : adworld) (cs : list (call2 RN)) : Prop :=
  match cs with
  | [] => True
  | c :: cs' => deriv2_ok (fun x => ad_fun w x (ad_mean w)) c /\ derivs2_ok (ad2_exec w c) cs'
  end.

(** The derivative along [d], and the second derivative along [d] and [e], made of
    partial derivatives. *)
Definition along1 (last : Z) (D : Z -> R) (d : env) : R := sum_ids last (fun i => D i * d i).
Definition along2 (last : Z) (D : Z -> Z -> R) (d e : env) : R :=
  sum_ids last (fun i => sum_ids last (fun j => D i j * d i * e j)).
(** Moving the independent variables from [m] along [d] and [e]. *)
Definition moved (m d e : env) (s t : R) : env := fun i => m i + s * d i + t * e i.
(** The Taylor polynomial of degree two, at the displacement [d]. *)
Definition taylor2 (last : Z) (a : R) (D1 : Z -> R) (D2 : Z -> Z -> R) (d : env) : R :=
  a + along1 last D1 d + along2 last D2 d d / 2.
(** [D1] and [D2] are the first and second partial derivatives of [F] at [m] with respect
    to the variables 1 to [last]: on every plane through [m], F is twice differentiable
    with the derivatives they give. *)
Definition has_derivatives2 (last : Z) (F : env -> R) (m : env) (D1 : Z -> R) (D2 : Z -> Z -> R) : Prop :=
  (forall i j, D2 i j = D2 j i) /\
  forall d e : env, twice_differentiable (fun s t => F (moved m d e s t)) 0 0
    (along1 last D1 d) (along1 last D1 e) (along2 last D2 d d) (along2 last D2 e e) (along2 last D2 d e).
