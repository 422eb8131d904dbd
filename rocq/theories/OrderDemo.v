(** * OrderDemo: histories in two orders *)

From Coq Require Import List ZArith Bool Reals Lra Lia Sorted.
From Verif Require Import Base Num Map UReal World HessGrad Moments CheckMoments UReal2 World2 Sums SpecLin SpecObs
  URealFacts URealR URealProofs HessProofs U2Facts U2World SpecU2 U2Values U2Ret SpecU2Run U2Proofs Demo Demo2 SpecOrder OrderProofs3.
Import ListNotations.
Local Open Scope R_scope.

(** ** UReal *)
(** a, b, c = a + b, d = a * a  and  b, a, d = a * a, c = a + b *)
Definition ord1 : list (call RN) := [CNew 0%nat 3 1; CNew 1%nat 5 2; CAdd 2%nat 0%nat 1%nat; CMul 3%nat 0%nat 0%nat].
Definition ord1' : list (call RN) := [CNew 1%nat 5 2; CNew 0%nat 3 1; CMul 3%nat 0%nat 0%nat; CAdd 2%nat 0%nat 1%nat].
Lemma ord1_legal : legal ord1.
Proof. split; [repeat constructor|]. split; [|apply max_new_ge; cbn; lia]. cbn. tauto. Qed.
Lemma ord1_reordered : reordered unrelated ord1 ord1'.
Proof.
  apply (reord_trans _ _ [CNew 1%nat 5 2; CNew 0%nat 3 1; CAdd 2%nat 0%nat 1%nat; CMul 3%nat 0%nat 0%nat]).
  - apply (reord_swap unrelated [] (CNew 0%nat 3 1) (CNew 1%nat 5 2) [CAdd 2%nat 0%nat 1%nat; CMul 3%nat 0%nat 0%nat]).
    unfold unrelated. cbn. lia.
  - apply (reord_swap unrelated [CNew 1%nat 5 2; CNew 0%nat 3 1] (CAdd 2%nat 0%nat 1%nat) (CMul 3%nat 0%nat 0%nat) []).
    unfold unrelated. cbn. lia.
Qed.

(** ** UReal2: x = a b + c, then x + x^2 *)
Definition mk3 (u v w : nat) : list (call2 RN) :=
  [ENewStd u 0 1 gauss (-1); ENewStd v 0 1 gauss (-1); ENewStd w 0 1 gauss (-1); EMul 3%nat 0%nat 1%nat; EAdd 4%nat 3%nat 2%nat;
   EUnary 5%nat 4%nat (fun x => x + x * x) (fun x => 1 + 2 * x) (fun _ => 2)].
Definition ord2 : list (call2 RN) := mk3 0 1 2.
Definition ord2' : list (call2 RN) := mk3 0 2 1.
Lemma mk3_legal u v w : legal2 (mk3 u v w).
Proof.
  split; [repeat constructor|]. split; [|apply max_new_ge; cbn; lia].
  repeat constructor; cbn; intro H; apply Rltb_false in H; exfalso; lra.
Qed.
Lemma ord2_reordered : reordered unrelated2 ord2 ord2'.
Proof.
  apply (reord_swap unrelated2 [ENewStd 0%nat 0 1 gauss (-1)] (ENewStd 1%nat 0 1 gauss (-1)) (ENewStd 2%nat 0 1 gauss (-1))
    [EMul 3%nat 0%nat 1%nat; EAdd 4%nat 3%nat 2%nat; EUnary 5%nat 4%nat (fun x => x + x * x) (fun x => 1 + 2 * x) (fun _ => 2)]).
  cbn. lia.
Qed.
Lemma half1 : neqb (ndiv (nofZ 1) (nofZ 2) : RN) n0 = false.
Proof. apply Reqb_false. cbn. lra. Qed.
Lemma wrap3 : wrap32 (2 + 1) = 3%Z. Proof. reflexivity. Qed.


Definition ind (i : Z) : ureal2 RN := mkU2 (mkHG [(i, mkD 1 0 (Some gauss))] []) 0.
Definition D (g h : R) : diag RN := mkD g h (Some gauss).
Definition mk (ds : list (Z * diag RN)) (ts : list ((Z * Z) * RN)) : ureal2 RN := mkU2 (mkHG ds ts) 0.
Ltac ev := cbn -[Rltb Reqb Rleb Rplus Rmult Rdiv Ropp IZR]; unfold mk, D; f_equal; f_equal; [unfold hg_diag, mupd; cbn -[Rplus Rmult Rdiv Ropp IZR]; f_equal|]; repeat f_equal; lra.

Lemma mul12 : u2_mul (ind 1) (ind 2) = Ret (mk [(1%Z, D 0 0); (2%Z, D 0 0)] [((1%Z, 2%Z), / 2)]).
Proof. unfold u2_mul, u2_binary. rewrite !half0, ?half1. ev. Qed.
Lemma mul13 : u2_mul (ind 1) (ind 3) = Ret (mk [(1%Z, D 0 0); (3%Z, D 0 0)] [((1%Z, 3%Z), / 2)]).
Proof. unfold u2_mul, u2_binary. rewrite !half0, ?half1. ev. Qed.
Lemma add12 : u2_add (mk [(1%Z, D 0 0); (2%Z, D 0 0)] [((1%Z, 2%Z), / 2)]) (ind 3) =
  Ret (mk [(1%Z, D 0 0); (2%Z, D 0 0); (3%Z, D 1 0)] [((1%Z, 2%Z), / 2)]).
Proof. unfold u2_add, u2_binary. rewrite !half0. ev. Qed.
Lemma add13 : u2_add (mk [(1%Z, D 0 0); (3%Z, D 0 0)] [((1%Z, 3%Z), / 2)]) (ind 2) =
  Ret (mk [(1%Z, D 0 0); (2%Z, D 1 0); (3%Z, D 0 0)] [((1%Z, 3%Z), / 2)]).
Proof. unfold u2_add, u2_binary. rewrite !half0. ev. Qed.
Lemma sq12 : u2_unary (mk [(1%Z, D 0 0); (2%Z, D 0 0); (3%Z, D 1 0)] [((1%Z, 2%Z), / 2)]) (0 + 0 * 0) (1 + 2 * 0) 2 =
  Ret (mk [(1%Z, D 0 0); (2%Z, D 0 0); (3%Z, D 1 1)] [((1%Z, 2%Z), / 2)]).
Proof. unfold u2_unary. change (ndiv (2 : RN) (nofZ 2)) with (ndiv (nofZ 2) (nofZ 2) : RN). rewrite !half2. ev. Qed.
Lemma sq13 : u2_unary (mk [(1%Z, D 0 0); (2%Z, D 1 0); (3%Z, D 0 0)] [((1%Z, 3%Z), / 2)]) (0 + 0 * 0) (1 + 2 * 0) 2 =
  Ret (mk [(1%Z, D 0 0); (2%Z, D 1 1); (3%Z, D 0 0)] [((1%Z, 2%Z), 0)]).
Proof. unfold u2_unary. change (ndiv (2 : RN) (nofZ 2)) with (ndiv (nofZ 2) (nofZ 2) : RN). rewrite !half2. ev. Qed.

Lemma new_ind (w : world2 RN) v : exec2 no_eig w (ENewStd v 0 1 gauss (-1)) = assign2 (set_last w (wrap32 (w2_last w + 1))) v (Ret (ind (wrap32 (w2_last w + 1)))).
Proof. cbn [exec2]. rewrite new_std_free by lra. reflexivity. Qed.
Definition st (l : Z) (f : nat -> ureal2 RN) : world2 RN := mkW2 (mkW l (fun _ => u_default)) f.
Lemma st_new l f v cs : run2 no_eig (st l f) (ENewStd v 0 1 gauss (-1) :: cs) = run2 no_eig (st (wrap32 (l + 1)) (upd2 f v (ind (wrap32 (l + 1))))) cs.
Proof. cbn [run2]. rewrite new_ind. reflexivity. Qed.
Lemma st_mul l f v x y z cs : u2_mul (f x) (f y) = Ret z -> run2 no_eig (st l f) (EMul v x y :: cs) = run2 no_eig (st l (upd2 f v z)) cs.
Proof. intro E. cbn [run2 exec2 st w2_var]. rewrite E. reflexivity. Qed.
Lemma st_add l f v x y z cs : u2_add (f x) (f y) = Ret z -> run2 no_eig (st l f) (EAdd v x y :: cs) = run2 no_eig (st l (upd2 f v z)) cs.
Proof. intro E. cbn [run2 exec2 st w2_var]. rewrite E. reflexivity. Qed.
Lemma st_un l f v x (g g1 g2 : RN -> RN) z cs : u2_unary (f x) (g (u2mu (f x))) (g1 (u2mu (f x))) (g2 (u2mu (f x))) = Ret z ->
  run2 no_eig (st l f) (EUnary v x g g1 g2 :: cs) = run2 no_eig (st l (upd2 f v z)) cs.
Proof. intro E. cbn [run2 exec2 st w2_var]. rewrite E. reflexivity. Qed.
Lemma ord2_run : exists w, run2 no_eig w2_init ord2 = Ret w /\ w2_var w 0%nat = ind 1 /\ w2_var w 1%nat = ind 2 /\
  w2_var w 5%nat = mk [(1%Z, D 0 0); (2%Z, D 0 0); (3%Z, D 1 1)] [((1%Z, 2%Z), / 2)].
Proof.
  change w2_init with (st 0 (fun _ => u2_default : ureal2 RN)). unfold ord2, mk3. rewrite !st_new, wrap1, wrap2, wrap3.
  erewrite st_mul by exact mul12. erewrite st_add by exact add12.
  erewrite st_un by exact sq12. eexists. split; [reflexivity|]. repeat split.
Qed.
Lemma ord2_run' : exists w, run2 no_eig w2_init ord2' = Ret w /\ w2_var w 0%nat = ind 1 /\ w2_var w 1%nat = ind 3 /\
  w2_var w 5%nat = mk [(1%Z, D 0 0); (2%Z, D 1 1); (3%Z, D 0 0)] [((1%Z, 2%Z), 0)].
Proof.
  change w2_init with (st 0 (fun _ => u2_default : ureal2 RN)). unfold ord2', mk3. rewrite !st_new, wrap1, wrap2, wrap3.
  erewrite st_mul by exact mul13. erewrite st_add by exact add13.
  erewrite st_un by exact sq13. eexists. split; [reflexivity|]. repeat split.
Qed.

Lemma C59_UReal2_refuted_proof : exists eig (cs cs' : list (call2 RN)) w w' (t u v : nat),
  legal2 cs /\ legal2 cs' /\ reordered unrelated2 cs cs' /\ run2 eig w2_init cs = Ret w /\ run2 eig w2_init cs' = Ret w' /\
  u2_hess (w2_var w t) (w2_var w u) (w2_var w v) = Ret 1 /\ u2_hess (w2_var w' t) (w2_var w' u) (w2_var w' v) = Ret 0 /\
  u2_var (w2_var w t) = Ret 4 /\ u2_var (w2_var w' t) = Ret 3.
Proof.
  destruct ord2_run as (w & E & E0 & E1 & E5). destruct ord2_run' as (w' & E' & E0' & E1' & E5').
  exists no_eig, ord2, ord2', w, w', 5%nat, 0%nat, 1%nat. split; [apply mk3_legal|]. split; [apply mk3_legal|].
  split; [exact ord2_reordered|]. split; [exact E|]. split; [exact E'|]. rewrite E0, E1, E5, E0', E1', E5'.
  split; [|split; [|split]].
  - cbn -[Rplus Rmult Rdiv Ropp IZR]. f_equal. lra.
  - cbn -[Rplus Rmult Rdiv Ropp IZR]. f_equal. lra.
  - unfold u2_var, u2_m, update_mom. cbn -[Rplus Rmult Rdiv Ropp Rminus IZR]. f_equal. unfold gauss. cbn. lra.
  - unfold u2_var, u2_m, update_mom. cbn -[Rplus Rmult Rdiv Ropp Rminus IZR]. f_equal. unfold gauss. cbn. lra.
Qed.

(** A history with a product, a quotient and a mixed call, to which the theorem applies. *)
Definition ord3 : list (call2 RN) :=
  [ENewStd 0%nat 1 1 gauss (-1); ENewStd 1%nat 2 1 gauss (-1); E1 (CNew 0%nat 1 1); EMul 2%nat 0%nat 1%nat; EDiv 3%nat 0%nat 1%nat].
Definition ord3' : list (call2 RN) :=
  [ENewStd 0%nat 1 1 gauss (-1); E1 (CNew 0%nat 1 1); ENewStd 1%nat 2 1 gauss (-1); EMul 2%nat 0%nat 1%nat; EDiv 3%nat 0%nat 1%nat].
Lemma ord3_legal : legal2 ord3.
Proof.
  split; [repeat constructor|]. split; [|apply max_new_ge; cbn; lia].
  repeat constructor; cbn; intro H; apply Rltb_false in H; exfalso; lra.
Qed.
Lemma ord3_reordered : reordered unrelated2 ord3 ord3'.
Proof.
  apply (reord_swap unrelated2 [ENewStd 0%nat 1 1 gauss (-1)] (ENewStd 1%nat 2 1 gauss (-1)) (E1 (CNew 0%nat 1 1))
    [EMul 2%nat 0%nat 1%nat; EDiv 3%nat 0%nat 1%nat]). exact I.
Qed.
Lemma ord3_covered : covered_run no_eig w2_init ord3.
Proof.
  unfold ord3. cbn [covered_run jet_covered]. split; [exact I|]. split; [exact I|]. split; [exact I|]. split; [exact I|]. split; [|exact I].
  right. cbn [exec2]. rewrite new_std_free by lra. cbn [assign2 fst]. rewrite new_std_free by lra. cbn [assign2 fst].
  match goal with |- context [exec ?a ?b] => destruct (exec a b) as [w1 o] end. cbn [fst].
  match goal with |- context [u2_mul ?a ?b] => destruct (u2_mul a b) end; cbn; unfold upd2; cbn; intros i j; cbn; intuition congruence.
Qed.
