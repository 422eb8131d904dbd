(** * PropsCast: casts of UReal2 between numeric types and propagation modes (C48)

    Generated from tools/PropsCast.in.  [keeps_ring], [keeps_field] and [varies] are in
    SpecCast.v. *)

From Coq Require Import List ZArith Bool Reals QArith Qreals Lra Lia.
From Verif Require Import Base Num Map UReal World HessGrad UReal2 World2 SpecU2 SpecU2Run Demo Demo2 SpecCast ConvProofs.
Import ListNotations.

(** ** C48 *)
@C48_cast_keeps_values
@C48_cast_keeps_derivatives
@C48_cast_same_type
@C48_cast_roundtrip
@C48_mode_only_changes_sign
(** The cast of exact fractions to reals, and a history a = 1 +- 1/2; b = 2 +- 1/3; c = a * b
    with the moments of normal variables. *)
Definition gaussQ : moms QN := mkM (0 : QN) 3 0 15 0 105.
Definition castcase : list (call2 QN) :=
  [ENewStd 0%nat (1 : QN) (1 # 2)%Q gaussQ (-1)%Q; ENewStd 1%nat (2 : QN) (1 # 3)%Q gaussQ (-1)%Q; EMul 2%nat 0%nat 1%nat].
Definition castworld : world2 QN := match run2 (fun _ => None) w2_init castcase with Ret w => w | _ => w2_init end.
Example C48_case : keeps_field (N := QN) (M := RN) Q2R /\ nltb (n0 : QN) n0 = false /\ legal2 castcase /\
  exists w, run2 (fun _ => None) w2_init castcase = Ret w /\ varies (w2_var w 0%nat) /\ varies (w2_var w 1%nat) /\
    u2_m (w2_var w 2%nat) 2 = Ret (41 # 36)%Q /\ u2_grad (w2_var w 2%nat) (w2_var w 0%nat) = Ret (2 : QN).
Proof.
  split; [exact Q2R_field|]. split; [reflexivity|]. split.
  - split; [repeat constructor|]. split; [repeat constructor; cbn; discriminate|]. apply max_new_ge. cbn. lia.
  - assert (X : match run2 (fun _ => None) w2_init castcase with Ret _ => true | _ => false end = true) by (vm_compute; reflexivity).
    exists castworld. split; [unfold castworld; destruct (run2 (fun _ => None) w2_init castcase); [reflexivity|discriminate..]|]. clear X.
    split; [|split; [|split; vm_compute; reflexivity]].
    + intros id E. assert (V : u2_indepid (w2_var castworld 0%nat) = Ret 1%Z) by (vm_compute; reflexivity). rewrite V in E. injection E as <-. vm_compute. reflexivity.
    + intros id E. assert (V : u2_indepid (w2_var castworld 1%nat) = Ret 2%Z) by (vm_compute; reflexivity). rewrite V in E. injection E as <-. vm_compute. reflexivity.
Qed.
