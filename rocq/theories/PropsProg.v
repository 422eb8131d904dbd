(** * PropsProg: accuracy of polynomial programs on UReal2<double> (C76)

    Generated from tools/PropsProg.in. *)

From Coq Require Import List ZArith Bool Reals Lra Lia.
From Flocq Require Import Core BinarySingleNaN.
From Verif Require Import Base Num Map UReal World HessGrad Moments CheckMoments UReal2 World2 SpecObs SpecU2 SpecU2Run SpecCast
  Ieee SpecIeee SpecAcc2 SpecAcc3 PolyAcc3 DemoAcc2.
Import ListNotations.
Local Open Scope R_scope.

(** ** C76 *)
Theorem C76_derivatives : forall eig eigR eigA eigB cs, legal2 cs -> List.Forall polynomial cs ->
  exists (w : world2 DN) (wr : world2 RN) (wa : world2 (mag 0)) (wb : world2 (mag tiny)),
    run2 eig w2_init cs = Ret w /\ run2 eigR w2_init (map exactly_call cs) = Ret wr /\
    run2 eigA w2_init (map (sized_call 0) cs) = Ret wa /\ run2 eigB w2_init (map (sized_call tiny) cs) = Ret wb /\
    w2_last wr = w2_last w /\
    forall v, let x := w2_var w v in let r := w2_var wr v in let a := w2_var wa v in let b := w2_var wb v in
      map fst (diagmap (u2hg r)) = map fst (diagmap (u2hg x)) /\
      (finite (u2mu x) -> approximates (u2mu x) (u2mu r) (u2mu a) (u2mu b) (rounds cs v)) /\
      (forall i, finite (grad_at x i) -> approximates (grad_at x i) (grad_at r i) (grad_at a i) (grad_at b i) (rounds cs v)) /\
      (forall i j, finite (hess_at x i j) -> approximates (hess_at x i j) (hess_at r i j) (hess_at a i j) (hess_at b i j) (rounds cs v)).
Proof. exact C76_derivatives_proof. Qed.
Print Assumptions C76_derivatives.
Theorem C76_queries : forall eig eigR eigA eigB cs, legal2 cs -> List.Forall polynomial cs ->
  exists (w : world2 DN) (wr : world2 RN) (wa : world2 (mag 0)) (wb : world2 (mag tiny)),
    run2 eig w2_init cs = Ret w /\ run2 eigR w2_init (map exactly_call cs) = Ret wr /\
    run2 eigA w2_init (map (sized_call 0) cs) = Ret wa /\ run2 eigB w2_init (map (sized_call tiny) cs) = Ret wb /\
    let infl v := inflate tiny (rounds cs v) (w2_var wb v) in
    (forall v n, (1 <= n <= 4)%nat -> exists d, u2_m (w2_var w v) (Z.of_nat n) = Ret d /\ (finite d -> exists r a b,
       u2_m (w2_var wr v) (Z.of_nat n) = Ret r /\ u2_m (w2_var wa v) (Z.of_nat n) = Ret a /\ u2_m (infl v) (Z.of_nat n) = Ret b /\
       approximates d r a b (depth n (n_ids (w2_var w v))))) /\
    (forall v p, exists d, u2_n p (w2_var w v) = Ret d /\ (finite d -> exists r a b,
       u2_n p (w2_var wr v) = Ret r /\ u2_n p (w2_var wa v) = Ret a /\ u2_n p (infl v) = Ret b /\
       approximates d r a b (depth_mean (n_ids (w2_var w v))))) /\
    (forall v u, exists d, u2_cov (w2_var w v) (w2_var w u) = Ret d /\ (finite d -> exists r a b,
       u2_cov (w2_var wr v) (w2_var wr u) = Ret r /\ u2_cov (w2_var wa v) (w2_var wa u) = Ret a /\ u2_cov (infl v) (infl u) = Ret b /\
       approximates d r a b (depth_cov (n_ids (w2_var w v)) (n_ids (w2_var w u))))).
Proof. exact C76_queries_proof. Qed.
Print Assumptions C76_queries.
(** x = 3 +- 2, y = 5 +- 1, z = (x y) x: eight roundings, and s = x + y: two. *)
Example C76_case : legal2 acc_demo /\ List.Forall polynomial acc_demo /\ run2 no_eig w2_init acc_demo = Ret acc_world /\
  rounds acc_demo 3 = 8%nat /\ rounds acc_demo 4 = 2%nat /\
  finite (u2mu (w2_var acc_world 3%nat)) /\ finite (hess_at (w2_var acc_world 3%nat) 1 2) /\ n_ids (w2_var acc_world 3%nat) = 2%nat.
Proof.
  split; [exact acc_demo_legal|]. split; [repeat constructor|]. split; [exact acc_demo_run|]. repeat split; vm_compute; reflexivity.
Qed.
