(** * SpecAD: programs as functions of the independent variables

    For C05.  Whatever a program computes from its independent variables is, read
    mathematically, a function of them: [ad_run] gives that function for every program
    variable, [ad_mean] and [ad_sd] the mean and standard deviation each independent
    variable was created with.  [derivs_ok] says that the derivatives handed to the
    library are those of the functions applied, at the means where they are applied. *)

From Coq Require Import List ZArith Reals.
From Coquelicot Require Import Coquelicot.
From Verif Require Import Base Num UReal World Sums SpecLin.
Import ListNotations.
Local Open Scope R_scope.

(** values of the independent variables, by id *)
Definition env : Type := Z -> R.
Definition env_set (e : env) (i : Z) (t : R) : env := fun j => if Z.eq_dec j i then t else e j.

Record adworld : Type := mkAD {
  ad_last : Z;
  ad_mean : env;
  ad_sd : env;
  ad_fun : nat -> env -> R
}.
Definition ad_init : adworld := mkAD 0 (fun _ => 0) (fun _ => 0) (fun _ _ => 0).
Definition ad_set (w : adworld) (v : nat) (f : env -> R) : adworld :=
  mkAD (ad_last w) (ad_mean w) (ad_sd w) (fun u => if Nat.eqb u v then f else ad_fun w u).

Definition ad_exec (w : adworld) (c : call RN) : adworld :=
  let F := ad_fun w in
  match c with
  | CNew v n s =>
      let i := (ad_last w + 1)%Z in
      let w' := mkAD i (env_set (ad_mean w) i n) (env_set (ad_sd w) i s) F in
      if Rlt_dec s 0 then w' else ad_set w' v (fun e => e i)
  | CConst v n => ad_set w v (fun _ => n)
  | CDefault v => ad_set w v (fun _ => 0)
  | CCopy v x => ad_set w v (F x)
  | CChangeNom v x n => ad_set w v (fun _ => n)     (* excluded by derivs_ok *)
  | CUnary v x f _ => ad_set w v (fun e => f (F x e))
  | CBinary v x y f _ _ => ad_set w v (fun e => f (F x e) (F y e))
  | CNary v xs f _ => ad_set w v (fun e => f (map (fun x => F x e) xs))
  | CAssign v x f _ _ => ad_set w v (fun e => f (F v e) (F x e))
  | CNeg v x => ad_set w v (fun e => - F x e)
  | CAdd v x y => ad_set w v (fun e => F x e + F y e)
  | CSub v x y => ad_set w v (fun e => F x e - F y e)
  | CMul v x y => ad_set w v (fun e => F x e * F y e)
  | CDiv v x y => ad_set w v (fun e => F x e / F y e)
  | CAddA v x => ad_set w v (fun e => F v e + F x e)
  | CSubA v x => ad_set w v (fun e => F v e - F x e)
  | CMulA v x => ad_set w v (fun e => F v e * F x e)
  | CDivA v x => ad_set w v (fun e => F v e / F x e)
  | CS _ | CVar _ => w
  end.
Definition ad_run (w : adworld) (cs : list (call RN)) : adworld := fold_left ad_exec cs w.

(** Differentiability of a function of a list of numbers at [ms] with partial
    derivatives [ds]. *)
Definition nary_diff (f : list R -> R) (ms ds : list R) : Prop :=
  forall eps, 0 < eps -> exists delta, 0 < delta /\
    forall ys, length ys = length ms ->
    (forall k, (k < length ms)%nat -> Rabs (nth k ys 0 - nth k ms 0) < delta) ->
    Rabs (f ys - f ms - rsum (seq 0 (length ms)) (fun k => nth k ds 0 * (nth k ys 0 - nth k ms 0)))
    <= eps * rsum (seq 0 (length ms)) (fun k => Rabs (nth k ys 0 - nth k ms 0)).

(** [m] gives the current means of the program variables. *)
Definition deriv_ok (m : nat -> R) (c : call RN) : Prop :=
  match c with
  | CUnary _ x f df => derivable_pt_lim f (m x) (df (m x))
  | CBinary _ x y f fx fy | CAssign x y f fx fy =>
      differentiable_pt_lim f (m x) (m y) (fx (m x) (m y)) (fy (m x) (m y))
  | CNary _ xs f dfs => nary_diff f (map m xs) (dfs (map m xs))
  | CDiv _ _ y | CDivA _ y => m y <> 0
  | CChangeNom _ _ _ => False
  | _ => True
  end.
Fixpoint derivs_ok (w : adworld) (cs : list (call RN)) : Prop :=
  match cs with
  | [] => True
  | c :: cs' => deriv_ok (fun x => ad_fun w x (ad_mean w)) c /\ derivs_ok (ad_exec w c) cs'
  end.
