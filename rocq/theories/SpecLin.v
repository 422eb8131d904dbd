(** * SpecLin: specification of first-order uncertainty propagation

    What a user of [UReal] is promised, without reference to how the class
    stores anything: a variable is a mean, the set of independent variables
    it was computed from, and a linear form in the independent variables.
    [spec_exec] gives the meaning of each library call on such values. *)

From Coq Require Import List ZArith Reals.
From Verif Require Import Base Num UReal World Sums.
Import ListNotations.
Local Open Scope R_scope.

(** (mean, dependency set, coefficient (= derivative * sigma) per independent variable) *)
Record lin : Type := mkLin { l_mean : R; l_dep : Z -> Prop; l_coef : Z -> R }.

Definition lin_number (n : R) : lin := mkLin n (fun _ => False) (fun _ => 0).
Definition lin_fresh (i : Z) (n s : R) : lin :=
  mkLin n (fun j => j = i) (fun j => if Z.eq_dec j i then s else 0).
(** one operand with value [m] and derivative [d] *)
Definition lin_unary (x : lin) (m d : R) : lin :=
  mkLin m (l_dep x) (fun i => d * l_coef x i).
Definition lin_binary (x y : lin) (m dx dy : R) : lin :=
  mkLin m (fun i => l_dep x i \/ l_dep y i) (fun i => dx * l_coef x i + dy * l_coef y i).
Definition lin_nary (xds : list (lin * R)) (m : R) : lin :=
  mkLin m (fun i => exists xd, In xd xds /\ l_dep (fst xd) i)
        (fun i => rsum xds (fun xd => snd xd * l_coef (fst xd) i)).

Record sworld : Type := mkS { s_last : Z; s_var : nat -> lin }.
Definition s_init : sworld := mkS 0 (fun _ => lin_number 0).
Definition s_set (w : sworld) (v : nat) (x : lin) : sworld :=
  mkS (s_last w) (fun u => if Nat.eqb u v then x else s_var w u).

Definition spec_exec (w : sworld) (c : call RN) : sworld :=
  let g := s_var w in
  let m := fun v => l_mean (g v) in
  match c with
  | CNew v n s =>
      let w' := mkS (s_last w + 1) g in
      if Rlt_dec s 0 then w'                            (* rejected: v keeps its value *)
      else s_set w' v (lin_fresh (s_last w + 1) n s)
  | CConst v n => s_set w v (lin_number n)
  | CDefault v => s_set w v (lin_number 0)
  | CCopy v x => s_set w v (g x)
  | CChangeNom v x n => s_set w v (mkLin n (l_dep (g x)) (l_coef (g x)))
  | CUnary v x f df => s_set w v (lin_unary (g x) (f (m x)) (df (m x)))
  | CBinary v x y f fx fy =>
      s_set w v (lin_binary (g x) (g y) (f (m x) (m y)) (fx (m x) (m y)) (fy (m x) (m y)))
  | CNary v xs f dfs =>
      s_set w v (lin_nary (combine (map g xs) (dfs (map m xs))) (f (map m xs)))
  | CAssign v x f ft fx =>
      s_set w v (lin_binary (g v) (g x) (f (m v) (m x)) (ft (m v) (m x)) (fx (m v) (m x)))
  | CNeg v x => s_set w v (lin_unary (g x) (- m x) (-1))
  | CAdd v x y => s_set w v (lin_binary (g x) (g y) (m x + m y) 1 1)
  | CSub v x y => s_set w v (lin_binary (g x) (g y) (m x - m y) 1 (-1))
  | CMul v x y => s_set w v (lin_binary (g x) (g y) (m x * m y) (m y) (m x))
  | CDiv v x y =>
      s_set w v (lin_binary (g x) (g y) (m x / m y) (/ m y) (- (m x) / (m y * m y)))
  | CAddA v x => s_set w v (lin_binary (g v) (g x) (m v + m x) 1 1)
  | CSubA v x => s_set w v (lin_binary (g v) (g x) (m v - m x) 1 (-1))
  | CMulA v x => s_set w v (lin_binary (g v) (g x) (m v * m x) (m x) (m v))
  | CDivA v x =>
      s_set w v (lin_binary (g v) (g x) (m v / m x) (/ m x) (- (m v) / (m x * m x)))
  | CS v | CVar v => w                                  (* queries change nothing *)
  end.

Definition spec_run (w : sworld) (cs : list (call RN)) : sworld := fold_left spec_exec cs w.

(** Sum over all the independent variables created so far: ids 1, ..., last. *)
Definition ids (last : Z) : list Z := map Z.of_nat (seq 1 (Z.to_nat last)).
Definition sum_ids (last : Z) (f : Z -> R) : R := rsum (ids last) f.

(** Covariance, variance, standard deviation of linear forms in independent
    variables of unit variance. *)
Definition lin_cov (last : Z) (x y : lin) : R := sum_ids last (fun i => l_coef x i * l_coef y i).
Definition lin_var (last : Z) (x : lin) : R := lin_cov last x x.
Definition lin_sdev (last : Z) (x : lin) : R := sqrt (lin_var last x).

(** Depends on at most one / exactly one / no independent variable. *)
Definition lin_indep (x : lin) : Prop := forall i j, l_dep x i -> l_dep x j -> i = j.

(** Division is only specified for nonzero divisors: a history is regular if every
    division it performs (through / or /=) has a nonzero mean as divisor. *)
Fixpoint divisions_ok (w : sworld) (cs : list (call RN)) : Prop :=
  match cs with
  | [] => True
  | c :: cs' =>
      match c with
      | CDiv _ _ y => l_mean (s_var w y) <> 0
      | CDivA _ x => l_mean (s_var w x) <> 0
      | _ => True
      end /\ divisions_ok (spec_exec w c) cs'
  end.
