(** * PropsFunEff: user functions with side effects and exceptions (C86)

    Generated from tools/PropsFunEff.in. *)

From Coq Require Import List ZArith Reals Bool Permutation.
From Verif Require Import Base Num Map UReal World HessGrad UReal2 World2 SpecU2Run Functions FunEff SpecFunEff FunEffProofs FunEffDemo.
Import ListNotations.
Local Open Scope R_scope.

(** ** C86: user functions whose answers depend on their arguments only, and which do anything else but modify the
    operands: each is called once at each point needed, and the result is that of Functions.v. *)
@C86_functions_return
(** If one throws, the exception reaches the caller, no other function is called after it, and nothing is modified
    except by the user functions. *)
@C86_functions_throw
(** If a user function modifies the operand, the result depends on the order of evaluation, which C++ does not specify. *)
@C86_operand_modified_refuted
(** A function that counts its calls and is not defined for negative numbers. *)
Example C86_case : behaves counter partial_sq counting /\
  (let c := GUnaryStep (N := RN) 1%nat 0%nat 1 in spares counting c /\ good_order c /\
     points c eff_w = [(0%nat, [1]); (0%nat, [1 + 1])] /\
     (forall p, In p (points c eff_w) -> partial_sq (fst p) (snd p) = inl (hd 0 (snd p) * hd 0 (snd p))) /\
     umu (w_var (w2_w (after counting (points c eff_w) eff_w)) 5%nat) = 2) /\
  (let c := GUnaryStep (N := RN) 1%nat 0%nat (-3) in spares counting c /\
     exists p e, In p (points c eff_w) /\ partial_sq (fst p) (snd p) = inr e) /\
  (let c := GBinary2 (N := RN) [5; 0; 4; 1; 3; 2]%nat 0%nat 0%nat 1%nat in spares counting c /\ good_order c).
Proof. exact eff_case. Qed.
