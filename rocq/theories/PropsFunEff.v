(** * PropsFunEff: user functions with side effects and exceptions (C86)

    Generated from tools/PropsFunEff.in. *)

From Coq Require Import List ZArith Reals Bool Permutation.
From Verif Require Import Base Num Map UReal World HessGrad UReal2 World2 SpecU2Run Functions FunEff SpecFunEff FunEffProofs FunEffDemo.
Import ListNotations.
Local Open Scope R_scope.

(** ** C86: user functions whose answers depend on their arguments only, and which do anything else but modify the
    operands: each is called once at each point needed, and the result is that of Functions.v. *)
Theorem C86_functions_return : forall (N : Num) (X : Type) (U : user N X) F E (c : fcall N) (w : world2 N),
  behaves U F E -> spares E c -> good_order c ->
  forall G : nat -> list N -> N, (forall p, In p (points c w) -> F (fst p) (snd p) = inl (G (fst p) (snd p))) ->
  exists calls, Permutation calls (points c w) /\ (in_sequence c = true -> calls = points c w) /\
    let w' := after E calls w in
    exec_f U c w = ((fst (without_effects c G w'), calls), inl (snd (without_effects c G w'))).
Proof. exact C86_functions_return_proof. Qed.
Print Assumptions C86_functions_return.
(** If one throws, the exception reaches the caller, no other function is called after it, and nothing is modified
    except by the user functions. *)
Theorem C86_functions_throw : forall (N : Num) (X : Type) (U : user N X) F E (c : fcall N) (w : world2 N),
  behaves U F E -> spares E c -> good_order c ->
  (exists p e, In p (points c w) /\ F (fst p) (snd p) = inr e) ->
  exists made p rest e, Permutation (made ++ p :: rest) (points c w) /\
    (in_sequence c = true -> made ++ p :: rest = points c w) /\
    (forall q, In q made -> exists r, F (fst q) (snd q) = inl r) /\ F (fst p) (snd p) = inr e /\
    exec_f U c w = ((after E (made ++ [p]) w, made ++ [p]), inr e).
Proof. exact C86_functions_throw_proof. Qed.
Print Assumptions C86_functions_throw.
(** If a user function modifies the operand, the result depends on the order of evaluation, which C++ does not specify. *)
Theorem C86_operand_modified_refuted : exists (X : Type) (U : user RN X) F E (cs : list (call2 RN)) (w : world2 RN),
  (forall eig, legal2 cs /\ run2 eig w2_init cs = Ret w) /\ behaves U F E /\ (forall i p, exists r, F i p = inl r) /\
  exists w1 l1 w2 l2,
    exec_f U (GUnary [0; 1]%nat 1%nat 0%nat) w = ((w1, l1), inl (Ret tt)) /\
    exec_f U (GUnary [1; 0]%nat 1%nat 0%nat) w = ((w2, l2), inl (Ret tt)) /\
    u_s (w_var (w2_w w1) 1%nat) = 2 /\ u_s (w_var (w2_w w2) 1%nat) = 1.
Proof. exact C86_operand_modified_refuted_proof. Qed.
Print Assumptions C86_operand_modified_refuted.
(** A function that counts its calls and is not defined for negative numbers. *)
Example C86_case : behaves counter partial_sq counting /\
  (let c := GUnaryStep (N := RN) 1%nat 0%nat 1 in spares counting c /\ good_order c /\
     points c eff_w = [(0%nat, [1]); (0%nat, [1 + 1])] /\
     (forall p, In p (points c eff_w) -> partial_sq (fst p) (snd p) = inl (hd 0 (snd p) * hd 0 (snd p))) /\
     umu (w_var (w2_w (after counting (points c eff_w) eff_w)) 5%nat) = 2) /\
  (let c := GUnaryStep (N := RN) 1%nat 0%nat (-3) in spares counting c /\
     exists p e, In p (points c eff_w) /\ partial_sq (fst p) (snd p) = inr e) /\
  (let c := GBinary2 (N := RN) [5; 0; 4; 1; 3; 2]%nat 0%nat 0%nat 1%nat in spares counting c /\ good_order c).
Proof. exact eff_case. Qed.
