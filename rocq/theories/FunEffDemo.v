(** * FunEffDemo: user functions that modify the operands, and a concrete case *)

From Coq Require Import List ZArith Bool Reals Permutation Lra Lia.
From Verif Require Import Base Num Map UReal World SpecLin SpecObs HessGrad UReal2 World2 SpecU2Run Functions FunEff SpecFunEff FunEffProofs Demo.
Import ListNotations.
Local Open Scope R_scope.

(** x = UReal(1, 1) *)
Definition eff_cs : list (call2 RN) := [E1 (CNew 0%nat 1 1)].
Definition eff_w : world2 RN := mkW2 (mkW 1 (fun u => if Nat.eqb u 0 then mkU 1 1 1 [] else u_default)) (fun _ => u2_default).
Lemma eff_run eig : run2 eig w2_init eff_cs = Ret eff_w.
Proof.
  unfold eff_cs, eff_w. cbn -[IZR]. unfold u_new. cbn -[IZR]. destruct (Rltb_spec 1 0); [lra|]. reflexivity.
Qed.
Lemma eff_legal : legal2 eff_cs.
Proof. split; [repeat constructor|]. split; [repeat constructor|]. apply max_new_ge. cbn. lia. Qed.

(** f(a) = a, and f executes x = x.change_nom(2); df(a) = a. *)
Definition meddle (i : nat) (p : list RN) (w : world2 RN) : world2 RN :=
  match i with
  | O => mkW2 (w_set (w2_w w) 0%nat (u_change_nom (w_var (w2_w w) 0%nat) 2)) (w2_var w)
  | _ => w
  end.
Definition meddling : user RN Empty_set := fun i p w => (meddle i p w, inl (hd 0 p)).

Lemma C86_operand_modified_refuted_proof : exists (X : Type) (U : user RN X) F E (cs : list (call2 RN)) (w : world2 RN),
  (forall eig, legal2 cs /\ run2 eig w2_init cs = Ret w) /\ behaves U F E /\ (forall i p, exists r, F i p = inl r) /\
  exists w1 l1 w2 l2,
    exec_f U (GUnary [0; 1]%nat 1%nat 0%nat) w = ((w1, l1), inl (Ret tt)) /\
    exec_f U (GUnary [1; 0]%nat 1%nat 0%nat) w = ((w2, l2), inl (Ret tt)) /\
    u_s (w_var (w2_w w1) 1%nat) = 2 /\ u_s (w_var (w2_w w2) 1%nat) = 1.
Proof.
  exists Empty_set, meddling, (fun _ p => inl (hd 0 p)), meddle, eff_cs, eff_w.
  split; [intro eig; split; [exact eff_legal|apply eff_run]|]. split; [intros i p w; reflexivity|].
  split; [intros i p; eexists; reflexivity|].
  do 4 eexists. split; [reflexivity|]. split; [reflexivity|].
  cbn -[IZR]. unfold u_s. cbn -[IZR]. split.
  - rewrite Rmult_1_l. apply Rabs_pos_eq. lra.
  - rewrite Rmult_1_l. apply Rabs_pos_eq. lra.
Qed.

(** A function that counts its calls in variable 5, and throws if the first argument is negative. *)
Definition counting (i : nat) (p : list RN) (w : world2 RN) : world2 RN :=
  mkW2 (w_set (w2_w w) 5%nat (u_const (umu (w_var (w2_w w) 5%nat) + 1))) (w2_var w).
Definition partial_sq (i : nat) (p : list RN) : R + unit := if Rlt_dec (hd 0 p) 0 then inr tt else inl (hd 0 p * hd 0 p).
Definition counter : user RN unit := fun i p w => (counting i p w, partial_sq i p).

Lemma eff_case : behaves counter partial_sq counting /\
  (let c := GUnaryStep (N := RN) 1%nat 0%nat 1 in spares counting c /\ good_order c /\
     points c eff_w = [(0%nat, [1]); (0%nat, [1 + 1])] /\
     (forall p, In p (points c eff_w) -> partial_sq (fst p) (snd p) = inl (hd 0 (snd p) * hd 0 (snd p))) /\
     umu (w_var (w2_w (after counting (points c eff_w) eff_w)) 5%nat) = 2) /\
  (let c := GUnaryStep (N := RN) 1%nat 0%nat (-3) in spares counting c /\
     exists p e, In p (points c eff_w) /\ partial_sq (fst p) (snd p) = inr e) /\
  (let c := GBinary2 (N := RN) [5; 0; 4; 1; 3; 2]%nat 0%nat 0%nat 1%nat in spares counting c /\ good_order c).
Proof.
  assert (S : forall c : fcall RN, (forall x, In x (operands_f c) -> x <> 5%nat) -> spares counting c).
  { intros c Hc i p w x Hx. unfold counting. destruct (first_order c); [|reflexivity]. cbn. unfold upd.
    destruct (Nat.eqb_spec x 5); [exfalso; exact (Hc x Hx e)|reflexivity]. }
  split; [intros i p w; reflexivity|]. split; [|split].
  - split; [apply S; cbn; intros x [<-|[]]; discriminate|]. split; [exact I|]. split; [reflexivity|]. split.
    + intros p Hp. unfold partial_sq. cbn -[IZR Rplus Rmult] in Hp. destruct Hp as [<-|[<-|[]]]; cbn [hd fst snd nadd RN] in *;
      match goal with |- context [Rlt_dec ?a ?b] => destruct (Rlt_dec a b) as [Hl|]; [exfalso; unfold u_n in Hl; cbn in Hl; lra|reflexivity] end.
    + cbn -[IZR]. unfold upd. cbn -[IZR]. ring.
  - split; [apply S; cbn; intros x [<-|[]]; discriminate|].
    exists (0%nat, [1 + -3]), tt. split; [right; left; reflexivity|]. unfold partial_sq. cbn [hd fst snd].
    destruct (Rlt_dec (1 + -3) 0); [reflexivity|lra].
  - split; [apply S; cbn; intros x [<-|[<-|[]]]; discriminate|]. cbn.
    apply NoDup_Permutation; [repeat constructor; cbn; lia|apply (seq_NoDup 6 0)|]. intro x. cbn. lia.
Qed.
