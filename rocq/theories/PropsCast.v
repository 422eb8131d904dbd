(** * PropsCast: casts of UReal2 between numeric types and propagation modes (C48)

    Generated from tools/PropsCast.in.  [keeps_ring], [keeps_field] and [varies] are in
    SpecCast.v. *)

From Coq Require Import List ZArith Bool Reals QArith Qreals Lra Lia.
From Verif Require Import Base Num Map UReal World HessGrad UReal2 World2 SpecU2 SpecU2Run Demo Demo2 SpecCast ConvProofs.
Import ListNotations.

(** ** C48 *)
Theorem C48_cast_keeps_values : forall (N M : Num) (c : N -> M), keeps_ring c ->
  forall (eig : list (list N) -> option (list N)), nltb (n0 : N) n0 = false ->
  forall cs, legal2 cs -> forall w, run2 eig w2_init cs = Ret w -> forall u v,
  let x := w2_var w u in let y := w2_var w v in
  u2_first_order_n (u2_convert c x) = c (u2_first_order_n x) /\
  u2_isindep (u2_convert c x) = u2_isindep x /\ u2_indepid (u2_convert c x) = u2_indepid x /\
  (forall n, u2_m (u2_convert c x) n = omap c (u2_m x n)) /\
  (forall mode, u2_n mode (u2_convert c x) = omap c (u2_n mode x)) /\
  u2_cov (u2_convert c x) (u2_convert c y) = omap c (u2_cov x y) /\
  (forall i, dgrad (hg_diag_get (u2hg (u2_convert c x)) i) = c (dgrad (hg_diag_get (u2hg x) i))) /\
  (forall i j, hg_hhess_get (u2hg (u2_convert c x)) i j = omap c (hg_hhess_get (u2hg x) i j)).
Proof. exact C48_cast_keeps_values_proof. Qed.
Print Assumptions C48_cast_keeps_values.
Theorem C48_cast_keeps_derivatives : forall (N M : Num) (c : N -> M), keeps_field c ->
  forall (eig : list (list N) -> option (list N)), nltb (n0 : N) n0 = false ->
  forall cs, legal2 cs -> forall w, run2 eig w2_init cs = Ret w -> forall t u v,
  let z := w2_var w t in let x := w2_var w u in let y := w2_var w v in varies x -> varies y ->
  u2_grad (u2_convert c z) (u2_convert c x) = omap c (u2_grad z x) /\
  u2_hess (u2_convert c z) (u2_convert c x) (u2_convert c y) = omap c (u2_hess z x y).
Proof. exact C48_cast_keeps_derivatives_proof. Qed.
Print Assumptions C48_cast_keeps_derivatives.
Theorem C48_cast_same_type : forall (N : Num) (eig : list (list N) -> option (list N)), nltb (n0 : N) n0 = false ->
  forall cs, legal2 cs -> forall w, run2 eig w2_init cs = Ret w -> forall v, u2_convert (fun a : N => a) (w2_var w v) = w2_var w v.
Proof. exact C48_cast_same_type_proof. Qed.
Print Assumptions C48_cast_same_type.
Theorem C48_cast_roundtrip : forall (N M : Num) (c : N -> M) (d : M -> N), (forall a, d (c a) = a) ->
  forall (eig : list (list N) -> option (list N)), nltb (n0 : N) n0 = false ->
  forall cs, legal2 cs -> forall w, run2 eig w2_init cs = Ret w -> forall v, u2_convert d (u2_convert c (w2_var w v)) = w2_var w v.
Proof. exact C48_cast_roundtrip_proof. Qed.
Print Assumptions C48_cast_roundtrip.
Theorem C48_mode_only_changes_sign : forall eig (w : world2 RN), reachable2 eig w -> forall v,
  let x := w2_var w v in let cast := u2_convert (N := RN) (M := RN) (fun a => a) in
  exists m1 : R, u2_m x 1 = Ret m1 /\
    u2_n PropMean (cast x) = Ret (u2_first_order_n x + m1)%R /\
    u2_n PropEst (cast x) = Ret (u2_first_order_n x - m1)%R.
Proof. exact C48_mode_only_changes_sign_proof. Qed.
Print Assumptions C48_mode_only_changes_sign.
(** The cast of exact fractions to reals, and a history a = 1 +- 1/2; b = 2 +- 1/3; c = a * b
    with the moments of normal variables. *)
Definition gaussQ : moms QN := mkM (0 : QN) 3 0 15 0 105.
Definition castcase : list (call2 QN) :=
  [ENewStd 0%nat (1 : QN) (1 # 2)%Q gaussQ (-1)%Q; ENewStd 1%nat (2 : QN) (1 # 3)%Q gaussQ (-1)%Q; EMul 2%nat 0%nat 1%nat].
Definition castworld : world2 QN := match run2 (fun _ => None) w2_init castcase with Ret w => w | _ => w2_init end.
Example C48_case : keeps_field (N := QN) (M := RN) Q2R /\ nltb (n0 : QN) n0 = false /\ legal2 castcase /\
  exists w, run2 (fun _ => None) w2_init castcase = Ret w /\ varies (w2_var w 0%nat) /\ varies (w2_var w 1%nat) /\
    u2_m (w2_var w 2%nat) 2 = Ret (41 # 36)%Q /\ u2_grad (w2_var w 2%nat) (w2_var w 0%nat) = Ret (2 : QN).
Proof.
  split; [exact Q2R_field|]. split; [reflexivity|]. split.
  - split; [repeat constructor|]. split; [repeat constructor; cbn; discriminate|]. apply max_new_ge. cbn. lia.
  - assert (X : match run2 (fun _ => None) w2_init castcase with Ret _ => true | _ => false end = true) by (vm_compute; reflexivity).
    exists castworld. split; [unfold castworld; destruct (run2 (fun _ => None) w2_init castcase); [reflexivity|discriminate..]|]. clear X.
    split; [|split; [|split; vm_compute; reflexivity]].
    + intros id E. assert (V : u2_indepid (w2_var castworld 0%nat) = Ret 1%Z) by (vm_compute; reflexivity). rewrite V in E. injection E as <-. vm_compute. reflexivity.
    + intros id E. assert (V : u2_indepid (w2_var castworld 1%nat) = Ret 2%Z) by (vm_compute; reflexivity). rewrite V in E. injection E as <-. vm_compute. reflexivity.
Qed.
