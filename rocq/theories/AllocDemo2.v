(** * AllocDemo2: concrete failed assignments of a UReal2 *)

From Coq Require Import List ZArith Bool Reals Lra Lia Sorted.
From Verif Require Import Base Num Map UReal World HessGrad Moments CheckMoments UReal2 World2 Sums SpecLin SpecObs SpecOrder
  URealFacts URealR URealProofs HessProofs U2Facts U2World SpecU2 U2Values U2Ret SpecU2Run U2Proofs Demo Demo2
  Alloc SpecAlloc AllocDemo Alloc2 SpecAlloc2 Alloc2Proofs Alloc2Proofs2.
Import ListNotations.
Local Open Scope R_scope.

Lemma half1 : neqb (ndiv (nofZ 1) (nofZ 2) : RN) n0 = false.
Proof. apply Reqb_false. cbn. lra. Qed.

(** a, b = 1 +- 1; c = a * b; d, e, f = 1 +- 1; g = d + e; h = g + f *)
Definition adem2 : list (call2 RN) :=
  [ENewStd 0%nat 1 1 gauss (-1); ENewStd 1%nat 1 1 gauss (-1); EMul 2%nat 0%nat 1%nat;
   ENewStd 3%nat 1 1 gauss (-1); ENewStd 4%nat 1 1 gauss (-1); ENewStd 5%nat 1 1 gauss (-1);
   EAdd 6%nat 3%nat 4%nat; EAdd 7%nat 6%nat 5%nat].
Lemma adem2_legal : legal2 adem2.
Proof.
  split; [repeat constructor|]. split; [|apply max_new_ge; cbn; lia].
  repeat constructor; cbn; intro H; apply Rltb_false in H; exfalso; lra.
Qed.
Lemma wrap3 : wrap32 (2 + 1) = 3%Z. Proof. reflexivity. Qed.
Lemma wrap4 : wrap32 (3 + 1) = 4%Z. Proof. reflexivity. Qed.
Lemma wrap5 : wrap32 (4 + 1) = 5%Z. Proof. reflexivity. Qed.


Ltac num := cbn -[Rltb Reqb Rleb Rplus Rmult Rdiv IZR gauss].
Definition dd : diag RN := mkD 1 0 (Some gauss).
Lemma mul_12 : u2_mul (mkU2 (mkHG [(1%Z, dd)] []) 1) (mkU2 (mkHG [(2%Z, dd)] []) 1 : ureal2 RN)
  = Ret (mkU2 (mkHG [(1%Z, dd); (2%Z, dd)] [((1%Z, 2%Z), 1 / 2)]) 1).
Proof. unfold u2_mul, u2_binary. rewrite !half0, !half1. num. unfold dd. repeat (f_equal; try lra). all: try lra. Qed.
Lemma add_34 : u2_add (mkU2 (mkHG [(3%Z, dd)] []) 1) (mkU2 (mkHG [(4%Z, dd)] []) 1 : ureal2 RN)
  = Ret (mkU2 (mkHG [(3%Z, dd); (4%Z, dd)] []) 2).
Proof. unfold u2_add, u2_binary. rewrite !half0. num. unfold hg_diag, mupd. num. unfold dd. repeat (f_equal; try lra). all: try lra.
Qed.
Lemma add_345 : u2_add (mkU2 (mkHG [(3%Z, dd); (4%Z, dd)] []) 2) (mkU2 (mkHG [(5%Z, dd)] []) 1 : ureal2 RN)
  = Ret (mkU2 (mkHG [(3%Z, dd); (4%Z, dd); (5%Z, dd)] []) 3).
Proof. unfold u2_add, u2_binary. rewrite !half0. num. unfold hg_diag, mupd. num. unfold dd. repeat (f_equal; try lra). all: try lra. Qed.
Definition xa : ureal2 RN := mkU2 (mkHG [(1%Z, dd)] []) 1.
Definition xb : ureal2 RN := mkU2 (mkHG [(2%Z, dd)] []) 1.
Definition xc : ureal2 RN := mkU2 (mkHG [(1%Z, dd); (2%Z, dd)] [((1%Z, 2%Z), 1 / 2)]) 1.
Definition xh : ureal2 RN := mkU2 (mkHG [(3%Z, dd); (4%Z, dd); (5%Z, dd)] []) 3.
Lemma adem2_run : exists w, run2 no_eig w2_init adem2 = Ret w /\
  w2_var w 0%nat = xa /\ w2_var w 1%nat = xb /\ w2_var w 2%nat = xc /\ w2_var w 7%nat = xh /\ w2_var w 8%nat = u2_default.
Proof.
  assert (Nw : forall w v cs, (run2 no_eig w (ENewStd v 1 1 gauss (-1) :: cs) : outcome (world2 RN))
    = run2 no_eig (mkW2 (mkW (wrap32 (w2_last w + 1)) (w_var (w2_w w))) (upd2 (w2_var w) v (mkU2 (mkHG [(wrap32 (w2_last w + 1), dd)] []) 1))) cs).
  { intros w v cs. cbn [run2 exec2]. rewrite new_std_free by lra. reflexivity. }
  assert (Add : forall w v x y z cs, u2_add (w2_var w x) (w2_var w y) = Ret z ->
    (run2 no_eig w (EAdd v x y :: cs) : outcome (world2 RN)) = run2 no_eig (mkW2 (w2_w w) (upd2 (w2_var w) v z)) cs).
  { intros w v x y z cs H. cbn [run2 exec2]. rewrite H. reflexivity. }
  assert (Mul : forall w v x y z cs, u2_mul (w2_var w x) (w2_var w y) = Ret z ->
    (run2 no_eig w (EMul v x y :: cs) : outcome (world2 RN)) = run2 no_eig (mkW2 (w2_w w) (upd2 (w2_var w) v z)) cs).
  { intros w v x y z cs H. cbn [run2 exec2]. rewrite H. reflexivity. }
  unfold adem2. rewrite !Nw. erewrite Mul by exact mul_12. rewrite !Nw.
  erewrite Add by exact add_34. erewrite Add by exact add_345.
  cbn [run2]. eexists. split; [reflexivity|]. repeat split.
Qed.

Definition bad_libs (L : libs RN) : Prop := L = libstdcxx RN \/ L = libcxx RN.
Lemma libs_good (L : libs RN) : bad_libs L -> good_libs L.
Proof.
  intros [->| ->]; (split; [|split; intros m m'; cbn; lia]); [|apply reusing_lib_good].
  intros m m'. cbn. split; [lia|]. split; [lia|]. intros _ _ k. split; [apply msorted_nil|tauto].
Qed.

Lemma C80_failed_assignment_refuted_proof : forall L : libs RN, L = libstdcxx RN \/ L = libcxx RN ->
  good_libs L /\ exists (eig : list (list RN) -> option (list RN)) (cs : list (call2 RN)) (w : world2 RN),
  legal2 cs /\ run2 eig w2_init cs = Ret w /\
  (exists w', exec2_a eig L 0 w (ECopy 2%nat 7%nat) = (w', None) /\
     u2_m (w2_var w' 2%nat) 3 = Assert /\ u2_cov (w2_var w' 2%nat) (w2_var w' 0%nat) = Assert /\
     u2_all (fun _ => true) (w2_var w' 2%nat) = Assert) /\
  (exists w', exec2_a eig L 2 w (ECopy 8%nat 2%nat) = (w', None) /\
     u2_first_order_n (w2_var w 8%nat) = 0 /\ u2_first_order_n (w2_var w 2%nat) = 1 /\ u2_first_order_n (w2_var w' 8%nat) = 0 /\
     u2_cov (w2_var w 8%nat) (w2_var w 0%nat) = Ret 0 /\ u2_cov (w2_var w' 8%nat) (w2_var w' 0%nat) = Ret 1 /\
     u2_hess (w2_var w 2%nat) (w2_var w 0%nat) (w2_var w 1%nat) = Ret 1 /\ u2_hess (w2_var w' 8%nat) (w2_var w 0%nat) (w2_var w 1%nat) = Ret 0).
Proof.
  intros L HL. split; [now apply libs_good|].
  destruct adem2_run as (w & E & E0 & E1 & E2 & E7 & E8). exists no_eig, adem2, w.
  split; [exact adem2_legal|]. split; [exact E|]. split.
  - cbn [exec2_a]. rewrite E2, E7. destruct HL as [->| ->]; (eexists; split; [reflexivity|]); cbn [w2_var fst a2_copy_assign]; unfold upd2; cbn [Nat.eqb]; rewrite E0.
    + repeat split.
    + repeat split.
  - cbn [exec2_a]. rewrite E8, E2. destruct HL as [->| ->]; (eexists; split; [reflexivity|]); cbn [w2_var fst a2_copy_assign]; unfold upd2; cbn [Nat.eqb]; rewrite ?E0, ?E1.
    + split; [reflexivity|]. split; [reflexivity|]. split; [reflexivity|]. num. unfold gauss. cbn [v3 v4]. repeat split; f_equal; lra.
    + split; [reflexivity|]. split; [reflexivity|]. split; [reflexivity|]. num. unfold gauss. cbn [v3 v4]. repeat split; f_equal; lra.
Qed.

(** a = 1 +- 1; b = a fails; c = -a; b = a *)
Definition adem3 : list (call2 RN * nat) :=
  [(ENewStd 0%nat 1 1 gauss (-1), 1%nat); (ECopy 1%nat 0%nat, 0%nat); (ENeg 2%nat 0%nat, 1%nat); (ECopy 1%nat 0%nat, 1%nat)].
Lemma adem3_legal : legal2 (map fst adem3).
Proof.
  split; [repeat constructor|]. split; [|apply max_new_ge; cbn; lia].
  repeat constructor; cbn; intro H; apply Rltb_false in H; exfalso; lra.
Qed.
Definition adem3_w : world2 RN := mkW2 (mkW 1 (fun _ => u_default)) (upd2 (fun _ => u2_default) 0%nat xa).
Lemma adem3_first (L : libs RN) : exec2_a no_eig L 1 w2_init (ENewStd 0%nat 1 1 gauss (-1)) = (adem3_w, Some (Ret tt)).
Proof. cbn [exec2_a]. rewrite new_std_free by lra. reflexivity. Qed.
Lemma adem3_careful : careful no_eig (libstdcxx RN) none_broken w2_init adem3 /\
  snd (exec2_a no_eig (libstdcxx RN) 0 adem3_w (ECopy 1%nat 0%nat)) = None /\
  broken_by no_eig (libstdcxx RN) none_broken w2_init (firstn 3 adem3) 1%nat = true /\
  broken_by no_eig (libstdcxx RN) none_broken w2_init adem3 1%nat = false.
Proof.
  unfold adem3. cbn [firstn careful broken_by fst snd]. rewrite !adem3_first. cbn [fst snd].
  assert (F : exec2_a no_eig (libstdcxx RN) 0 adem3_w (ECopy 1%nat 0%nat) =
    (mkW2 (w2_w adem3_w) (upd2 (w2_var adem3_w) 1%nat u2_default), None)) by reflexivity.
  rewrite !F. cbn [fst snd broken_after used2 reads2 writes2].
  set (w2 := mkW2 (w2_w adem3_w) (upd2 (w2_var adem3_w) 1%nat u2_default)).
  assert (G : exists w3 o, exec2_a no_eig (libstdcxx RN) 1 w2 (ENeg 2%nat 0%nat) = (w3, Some (Ret o)) /\ w2_var w3 0%nat = xa /\ w2_var w3 1%nat = u2_default).
  { cbn [exec2_a]. change (w2_var w2 0%nat) with xa. unfold u2_neg, u2_unary. rewrite half0. num. eexists _, _. split; [reflexivity|split; reflexivity]. }
  destruct G as (w3 & o & -> & G0 & G1). cbn [fst snd].
  assert (K : exists w4, exec2_a no_eig (libstdcxx RN) 1 w3 (ECopy 1%nat 0%nat) = (w4, Some (Ret tt))).
  { cbn [exec2_a]. rewrite G0, G1. eexists. reflexivity. }
  destruct K as (w4 & ->). cbn [fst snd].
  repeat split; intros u Hu; cbn in Hu; destruct Hu as [<-|[]]; reflexivity.
Qed.

Lemma adem4_fails :
  let cs := [(ENewStd 0%nat 1 1 gauss (-1), 1%nat); (ENeg 2%nat 0%nat, 0%nat); (EConst 3%nat 2, 0%nat)] in
  fails_well no_eig (libstdcxx RN) w2_init cs /\
  done_calls no_eig (libstdcxx RN) w2_init cs = [ENewStd 0%nat 1 1 gauss (-1); EConst 3%nat 2].
Proof.
  intro cs. unfold cs. cbn [fails_well done_calls]. rewrite !adem3_first. cbn [fst snd].
  assert (F : exec2_a no_eig (libstdcxx RN) 0 adem3_w (ENeg 2%nat 0%nat) = (adem3_w, None)).
  { cbn [exec2_a]. change (w2_var adem3_w 0%nat) with xa. unfold u2_neg, u2_unary. rewrite half0. num. reflexivity. }
  rewrite !F. cbn. repeat split; discriminate.
Qed.
