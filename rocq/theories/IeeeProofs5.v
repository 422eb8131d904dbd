(** * IeeeProofs5: what rounding breaks (witnesses for C52, C55, C56, C58) *)

From Coq Require Import List ZArith Reals Bool Lra Lia Psatz SpecFloat.
From Flocq Require Import Core BinarySingleNaN.
From Verif Require Import Base Num Map UReal World SpecObs HessGrad Moments CheckMoments UReal2 World2 Ieee SpecIeee Demo.
Import ListNotations.
Local Open Scope R_scope.

Lemma real_SF (a : double) : real_of a = SF2R radix2 (B2SF a).
Proof. unfold real_of. symmetry. apply SF2R_B2SF. Qed.
Ltac realval := rewrite real_SF;
  match goal with |- context [SF2R radix2 (B2SF ?a)] => let v := eval vm_compute in (B2SF a) in replace (B2SF a) with v by (vm_compute; reflexivity) end;
  unfold SF2R, F2R, cond_Zopp; cbn [Fnum Fexp Z.opp]; cbn -[IZR Rmult Rinv].
Lemma neq_SF (a b : double) : B2SF a <> B2SF b -> a <> b.
Proof. intros H E. apply H. now rewrite E. Qed.
Definition d (z : Z) : DN := dofZ z.
Definition half (z k : Z) : DN := ddiv (dofZ z) (dofZ (2 ^ k)).

Definition after (cs : list (call DN)) : world DN := match run w_init cs with Ret w => w | _ => w_init end.
Definition is_ret {A} (o : outcome A) : bool := match o with Ret _ => true | _ => false end.
Lemma run_after cs : is_ret (run w_init cs) = true -> run w_init cs = Ret (after cs).
Proof. unfold after. destruct (run w_init cs); [reflexivity|discriminate..]. Qed.
Lemma ret_ex {A} (o : outcome A) : is_ret o = true -> exists z, o = Ret z.
Proof. destruct o; [eauto|discriminate..]. Qed.
Ltac ran := apply run_after; vm_compute; reflexivity.
Lemma dlegal_small cs : List.Forall nary_ok cs -> (count_new cs <= 10)%nat -> dlegal cs.
Proof. intros F C. split; [exact F|]. eapply Nat.le_trans; [exact C|]. apply max_new_ge. lia. Qed.

Lemma C52_quotient_refuted_proof : exists w, dreachable w /\ exists u v z,
  let a := u_n (w_var w u) in let b := u_n (w_var w v) in
  finite a /\ finite b /\ real_of b <> 0 /\ no_overflow (real_of a / real_of b) /\
  u_div (w_var w u) (w_var w v) = Ret z /\ finite (u_n z) /\ real_of (u_n z) <> nearest (real_of a / real_of b).
Proof.
  set (cs := [CNew 0%nat (d 49) (d 1)]). exists (after cs). split.
  { exists cs. split; [apply dlegal_small; [repeat constructor|cbn; lia]|ran]. }
  exists 0%nat, 0%nat. destruct (ret_ex (u_div (w_var (after cs) 0%nat) (w_var (after cs) 0%nat))) as [z E]; [vm_compute; reflexivity|].
  exists z. cbv zeta.
  assert (A : real_of (u_n (w_var (after cs) 0%nat)) = 49) by (realval; lra).
  rewrite A. replace (49 / 49) with 1 by field.
  assert (N1 : nearest 1 = 1).
  { change 1 with (bpow radix2 0). unfold nearest. apply round_generic; [apply valid_rnd_N|]. apply generic_format_bpow. unfold FLT_exp. lia. }
  split; [vm_compute; reflexivity|]. split; [vm_compute; reflexivity|]. split; [lra|].
  split. { unfold no_overflow. rewrite N1, Rabs_R1. change 1 with (bpow radix2 0). apply bpow_lt. lia. }
  split; [exact E|].
  assert (Z : B2SF (u_n z : double) = S754_finite false 9007199254740991 (-53)).
  { enough (match u_div (w_var (after cs) 0%nat) (w_var (after cs) 0%nat) with Ret z => B2SF (u_n z : double) | _ => S754_nan end = S754_finite false 9007199254740991 (-53)) by (rewrite E in H; exact H).
    vm_compute; reflexivity. }
  split. { unfold finite. rewrite <- is_finite_SF_B2SF, Z. reflexivity. }
  rewrite N1. rewrite real_SF, Z. unfold SF2R, F2R; cbn -[IZR Rmult Rinv]. lra.
Qed.

(** x and y with deviation 1, z = x + y *)
Definition xy (m : Z) : list (call DN) := [CNew 0%nat (d m) (d 1); CNew 1%nat (d 0) (d 1); CAdd 2%nat 0%nat 1%nat].
Lemma C55_var_refuted_proof : exists cs w w', dlegal cs /\ List.Forall (fun c => self_assign c = false) cs /\
  run w_init cs = Ret w /\ run w_init (without_queries cs) = Ret w' /\
  exists v, finite (u_var (w_var w v)) /\ finite (u_var (w_var w' v)) /\
    u_var (w_var w v) <> u_var (w_var w' v) /\ fst (u_var_caching (w_var w' v)) <> u_var (w_var w' v).
Proof.
  exists (xy 3 ++ [CS 2%nat]), (after (xy 3 ++ [CS 2%nat])), (after (xy 3)).
  split. { apply dlegal_small; [repeat constructor|cbn; lia]. }
  split. { repeat constructor. }
  split; [ran|]. split; [ran|]. exists 2%nat.
  split; [vm_compute; reflexivity|]. split; [vm_compute; reflexivity|].
  split; apply neq_SF; vm_compute; discriminate.
Qed.
Lemma C55_self_assign_refuted_proof : exists cs w w', dlegal cs /\
  run w_init cs = Ret w /\ run w_init (without_queries cs) = Ret w' /\
  exists v, finite (u_s (w_var w v)) /\ finite (u_s (w_var w' v)) /\ u_s (w_var w v) <> u_s (w_var w' v).
Proof.
  exists (xy 3 ++ [CS 2%nat; CMulA 2%nat 2%nat]), (after (xy 3 ++ [CS 2%nat; CMulA 2%nat 2%nat])), (after (xy 3 ++ [CMulA 2%nat 2%nat])).
  split. { apply dlegal_small; [repeat constructor|cbn; lia]. }
  split; [ran|]. split; [ran|]. exists 2%nat.
  split; [vm_compute; reflexivity|]. split; [vm_compute; reflexivity|].
  apply neq_SF; vm_compute; discriminate.
Qed.

Lemma C56_adding_a_number_refuted_proof :
  (exists w, dreachable w /\ exists v z, u_add (w_var w v) (u_const n0) = Ret z /\
     finite (u_s (w_var w v)) /\ 0 < real_of (u_s (w_var w v)) /\ u_s z = n0) /\
  (exists w, dreachable w /\ exists v z, u_add (w_var w v) (u_const n0) = Ret z /\
     finite (u_s (w_var w v)) /\ ~ finite (u_s z)).
Proof.
  split.
  - set (cs := [CNew 0%nat (d 1) (half 1 600)]). exists (after cs). split.
    { exists cs. split; [apply dlegal_small; [repeat constructor|cbn; lia]|ran]. }
    exists 0%nat. destruct (ret_ex (u_add (w_var (after cs) 0%nat) (u_const n0))) as [z E]; [vm_compute; reflexivity|].
    exists z. split; [exact E|]. split; [vm_compute; reflexivity|]. split.
    + rewrite real_SF. match goal with |- context [B2SF ?a] => let v := eval vm_compute in (B2SF a) in replace (B2SF a) with v by (vm_compute; reflexivity) end.
      apply F2R_gt_0. reflexivity.
    + enough (match u_add (w_var (after cs) 0%nat) (u_const n0) with Ret z => B2SF (u_s z : double) | _ => S754_nan end = S754_zero false).
      { rewrite E in H. apply B2SF_inj. exact H. }
      vm_compute. reflexivity.
  - set (cs := [CNew 0%nat (d 1) (d (2 ^ 600))]). exists (after cs). split.
    { exists cs. split; [apply dlegal_small; [repeat constructor|cbn; lia]|ran]. }
    exists 0%nat. destruct (ret_ex (u_add (w_var (after cs) 0%nat) (u_const n0))) as [z E]; [vm_compute; reflexivity|].
    exists z. split; [exact E|]. split; [vm_compute; reflexivity|].
    enough (match u_add (w_var (after cs) 0%nat) (u_const n0) with Ret z => B2SF (u_s z : double) | _ => S754_nan end = S754_infinity false).
    { rewrite E in H. unfold finite. rewrite <- is_finite_SF_B2SF, H. discriminate. }
    vm_compute. reflexivity.
Qed.

(** C58.  x = 5 with probability 1/5 and -5 otherwise; y = 0.7 * (x * x) is constant, but
    the variance computed for it is negative. *)
Definition coin : moms DN := mkM (half 3 1) (half 13 2) (half 51 3) (half 205 4) (half 819 5) (half 3277 6).
Definition cs58 : list (call2 DN) :=
  [ENewStd 0%nat (d (-3)) (d 4) coin (d (-1)); EMul 1%nat 0%nat 0%nat; EConst 2%nat (ddiv (d 7) (d 10) : DN); EMul 3%nat 2%nat 1%nat].
Definition var_after (eig : list (list DN) -> option (list DN)) (cs : list (call2 DN)) (v : nat) : spec_float :=
  match run2 eig w2_init cs with Ret w => match u2_var (w2_var w v) with Ret y => B2SF (y : double) | _ => S754_zero true end | _ => S754_zero true end.
Definition s_after (eig : list (list DN) -> option (list DN)) (cs : list (call2 DN)) (v : nat) : spec_float :=
  match run2 eig w2_init cs with Ret w => match u2_s (w2_var w v) with Ret y => B2SF (y : double) | _ => S754_zero true end | _ => S754_zero true end.
Lemma C58_deviation_is_a_number_refuted_proof :
  exists (n s : DN) (m : moms DN) (thr : DN) (v : nat) cs,
    (exists p a b : R, 0 < p < 1 /\ two_point p a b n s m) /\
    forall eig, exists w y, run2 eig w2_init (ENewStd 0%nat n s m thr :: cs) = Ret w /\
      u2_var (w2_var w v) = Ret y /\ finite y /\ real_of y < 0 /\ u2_s (w2_var w v) = Ret B754_nan.
Proof.
  exists (d (-3)), (d 4), coin, (d (-1)), 3%nat, (tl cs58). split.
  - exists (/ 5), 5, (-5). split; [lra|]. unfold two_point.
    assert (S4 : real_of (d 4) = 4) by (realval; lra). rewrite S4.
    split; [vm_compute; reflexivity|]. split; [vm_compute; reflexivity|].
    split; [realval; lra|]. split; [lra|]. split; [field|].
    split; [repeat constructor; vm_compute; reflexivity|].
    repeat split; (realval; field).
  - intro eig. change (ENewStd 0%nat (d (-3)) (d 4) coin (d (-1)) :: tl cs58) with cs58.
    assert (V : var_after eig cs58 3%nat = S754_finite true 6755399441055744 (-97)) by (vm_compute; reflexivity).
    assert (Sd : s_after eig cs58 3%nat = S754_nan) by (vm_compute; reflexivity).
    unfold var_after in V. unfold s_after in Sd. destruct (run2 eig w2_init cs58) as [w| | |]; try discriminate V.
    destruct (u2_var (w2_var w 3%nat)) as [y| | |] eqn:Ey; try discriminate V.
    destruct (u2_s (w2_var w 3%nat)) as [t| | |] eqn:Et; try discriminate Sd.
    exists w, y. split; [reflexivity|]. split; [exact Ey|].
    split. { unfold finite. rewrite <- is_finite_SF_B2SF, V. reflexivity. }
    split. { rewrite real_SF, V. apply F2R_lt_0. reflexivity. }
    rewrite Et. f_equal. apply B2SF_inj. exact Sd.
Qed.
