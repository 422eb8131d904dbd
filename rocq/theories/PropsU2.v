(** * PropsU2: the storage of UReal2 and its propagation (C01, C25-C27, C34-C36)

    Generated from tools/PropsU2.in. *)

From Coq Require Import List ZArith Bool Reals Lra Lia Sorted.
From Verif Require Import Base Num Map UReal World HessGrad Moments CheckMoments UReal2 World2 Sums SpecLin SpecObs
  U2Facts SpecU2 SpecU2Run SpecU2Mixed SpecU2Mixed2 U2Proofs U2Proofs2 U2Mixed U2Mixed2 AssignProofs3 UReal2Self AssignSelf AssignTri World2Assign SpecAssign2 AssignWf Demo Demo2 Demo2Mixed.
Import ListNotations.
Local Open Scope R_scope.

(** ** C01, both classes *)
Theorem C01_ids_unique_both_classes : forall (N : Num) (eig : list (list N) -> option (list N)),
  nltb (n0 : N) n0 = false -> forall cs1 c1 cs2 c2,
  legal2 (cs1 ++ c1 :: cs2 ++ [c2]) -> is_new2 c1 = true -> is_new2 c2 = true ->
  exists w1 w1' o1 w2 w2' o2,
    run2 eig w2_init cs1 = Ret w1 /\ exec2 eig w1 c1 = (w1', o1) /\
    run2 eig w1' cs2 = Ret w2 /\ exec2 eig w2 c2 = (w2', o2) /\
    (o1 = Ret tt -> o2 = Ret tt ->
     exists i1 i2, new_id w1' c1 = Ret i1 /\ new_id w2' c2 = Ret i2 /\ (0 < i1)%Z /\ (0 < i2)%Z /\ i1 <> i2).
Proof. exact C01_ids_unique_both_classes_proof. Qed.
Print Assumptions C01_ids_unique_both_classes.
(** A UReal and then a UReal2, with other calls in between. *)
Example C01_both_case :
  (nltb (n0 : RN) n0 = false) /\
  legal2 (N := RN) ([EConst 0%nat 1] ++ E1 (CNew 0%nat 1 2) :: [ENeg 1%nat 0%nat] ++ [ENewStd 2%nat 1 2 gauss (-1)]).
Proof.
  split; [exact Rltb_00|].
  split; [repeat constructor|]. split; [|apply max_new_ge; cbn; lia].
  repeat constructor; cbn; intro H; apply Rltb_false in H; exfalso; lra.
Qed.

(** ** C25 *)
Theorem C25_storage_invariants : forall (N : Num) (eig : list (list N) -> option (list N)),
  nltb (n0 : N) n0 = false -> forall cs, legal2 cs ->
  exists (w : world2 N) (moments : Z -> moms N), run2 eig w2_init cs = Ret w /\ forall v : nat,
    let h := u2hg (w2_var w v) in
    StronglySorted Z.lt (map fst (diagmap h)) /\
    NoDup (map fst (trimap h)) /\
    (forall i d, In (i, d) (diagmap h) -> (1 <= i <= w2_last w)%Z /\ dmom d = Some (moments i)) /\
    (forall i j, In (i, j) (map fst (trimap h)) ->
       (i < j)%Z /\ In i (map fst (diagmap h)) /\ In j (map fst (diagmap h))).
Proof. exact C25_storage_invariants_proof. Qed.
Print Assumptions C25_storage_invariants.
Theorem C25_iterators : forall (N : Num) (eig : list (list N) -> option (list N)),
  nltb (n0 : N) n0 = false -> forall w, reachable2 eig w -> forall v : nat,
  let h := u2hg (w2_var w v) in
  (exists vs, hess_visits h true = Ret vs /\ StronglySorted vle vs /\
     forall i j a, In (i, j, a) (map (fun t => (vid1 t, vid2 t, vval t)) vs) <->
       (i = j /\ exists d, In (i, d) (diagmap h) /\ dhh d = a) \/ In ((i, j), a) (trimap h)) /\
  (exists vs, hess_visits h false = Ret vs) /\
  (exists ts, tri_visits h true = Ret ts /\
     map (fun t => ((vid1 t, vid2 t), vval t)) ts = trimap h) /\
  (exists ts, tri_visits h false = Ret ts /\
     forall i j a, In (i, j, a) (map (fun t => (vid1 t, vid2 t, vval t)) ts) <->
       (i < j)%Z /\ In i (map fst (diagmap h)) /\ In j (map fst (diagmap h)) /\
       a = match mfind (i, j) (trimap h) with Some x => x | None => n0 end).
Proof. exact C25_iterators_proof. Qed.
Print Assumptions C25_iterators.
Theorem C25_queries_return : forall (N : Num) (eig : list (list N) -> option (list N)),
  nltb (n0 : N) n0 = false -> forall w, reachable2 eig w -> forall u v t : nat,
  let x := w2_var w u in let y := w2_var w v in let z := w2_var w t in
  (forall n, (1 <= n <= 4)%Z -> exists m, u2_m x n = Ret m) /\
  (exists c, u2_cov x y = Ret c) /\
  (exists i, u2_indepid x = Ret i) /\
  (forall p, exists b, u2_all p x = Ret b) /\
  ((exists g, u2_grad z x = Ret g) \/ u2_grad z x = Throw InvalidArgument) /\
  ((exists g, u2_hess z x y = Ret g) \/ u2_hess z x y = Throw InvalidArgument) /\
  (forall f f1 f2, exists r, u2_unary x f f1 f2 = Ret r) /\
  (forall f fx fy fxx fyy fxy, exists r, u2_binary x y f fx fy fxx fyy fxy = Ret r).
Proof. exact C25_queries_return_proof. Qed.
Print Assumptions C25_queries_return.
(** The history a = 0 +- 1; b = 0 +- 1; c = a + b. *)
Example C25_case : nltb (n0 : RN) n0 = false /\ legal2 demo2 /\
  exists w, reachable2 no_eig w /\ length (diagmap (u2hg (w2_var w 2%nat))) = 2%nat.
Proof.
  split; [exact Rltb_00|]. split; [exact demo2_legal|].
  destruct demo2_reachable as (w & HR & _ & _ & E & _). exists w. split; [exact HR|]. now rewrite E.
Qed.

(** ** C26 *)
Theorem C26_neg_add_sub_mul : forall eig (w : world2 RN), reachable2 eig w -> forall u v : nat,
  let x := w2_var w u in let y := w2_var w v in
  (exists z, u2_neg x = Ret z /\ jet_eq (jet_of z) (jet_neg (jet_of x))) /\
  (exists z, u2_add x y = Ret z /\ jet_eq (jet_of z) (jet_add (jet_of x) (jet_of y))) /\
  (exists z, u2_sub x y = Ret z /\ jet_eq (jet_of z) (jet_sub (jet_of x) (jet_of y))) /\
  (exists z, u2_mul x y = Ret z /\ jet_eq (jet_of z) (jet_mul (jet_of x) (jet_of y))).
Proof. exact C26_neg_add_sub_mul_proof. Qed.
Print Assumptions C26_neg_add_sub_mul.
Theorem C26_no_pure_second_derivative : forall eig (w : world2 RN), reachable2 eig w -> forall u v : nat,
  let x := w2_var w u in let y := w2_var w v in
  (forall f f1, exists z, u2_unary x f f1 0 = Ret z /\ jet_eq (jet_of z) (jet_unary (jet_of x) f f1 0)) /\
  (forall f fx fy fxy, exists z, u2_binary x y f fx fy 0 0 fxy = Ret z /\
     jet_eq (jet_of z) (jet_binary (jet_of x) (jet_of y) f fx fy 0 0 fxy)).
Proof. exact C26_no_pure_second_derivative_proof. Qed.
Print Assumptions C26_no_pure_second_derivative.
(** In the same state, (a + b) * b has a mixed derivative. *)
Example C26_case : exists w, reachable2 no_eig w /\
  j_h (jet_mul (jet_of (w2_var w 2%nat)) (jet_of (w2_var w 1%nat))) 1%Z 2%Z = 1 / 2.
Proof.
  destruct demo2_reachable as (w & HR & _ & E1 & E2 & _ & M1 & M2 & _). exists w. split; [exact HR|].
  cbn [jet_mul j_h j_g j_mean jet_of]. rewrite E1, E2, M1, M2. cbn. lra.
Qed.

(** ** C27 *)
(** Missing from the full statement: mixed second derivatives when a pure second
    derivative of the function is nonzero and the operand depends on several variables.
    The library drops them, see the refutation. *)
Theorem C27_second_order_chain_rule_partial : forall eig (w : world2 RN), reachable2 eig w -> forall u v : nat,
  let x := w2_var w u in let y := w2_var w v in
  (forall f f1 f2, exists z, u2_unary x f f1 f2 = Ret z /\
     jet_eq_diag (jet_of z) (jet_unary (jet_of x) f f1 f2) /\
     (f2 = 0 \/ single (jet_of x) -> jet_eq (jet_of z) (jet_unary (jet_of x) f f1 f2))) /\
  (forall f fx fy fxx fyy fxy, exists z, u2_binary x y f fx fy fxx fyy fxy = Ret z /\
     jet_eq_diag (jet_of z) (jet_binary (jet_of x) (jet_of y) f fx fy fxx fyy fxy) /\
     (fxx = 0 \/ single (jet_of x) -> fyy = 0 \/ single (jet_of y) ->
      jet_eq (jet_of z) (jet_binary (jet_of x) (jet_of y) f fx fy fxx fyy fxy))).
Proof. exact C27_second_order_chain_rule_partial_proof. Qed.
Print Assumptions C27_second_order_chain_rule_partial.
Theorem C27_mixed_derivatives_refuted : exists eig (w : world2 RN) (u : nat) f f1 f2,
  reachable2 eig w /\
  forall z, u2_unary (w2_var w u) f f1 f2 = Ret z ->
    j_h (jet_unary (jet_of (w2_var w u)) f f1 f2) 1%Z 2%Z = 1 /\ j_h (jet_of z) 1%Z 2%Z = 0.
Proof. exact C27_mixed_derivatives_refuted_proof. Qed.
Print Assumptions C27_mixed_derivatives_refuted.
Example C27_case : exists w, reachable2 no_eig w /\ single (jet_of (w2_var w 0%nat)) /\ j_g (jet_of (w2_var w 0%nat)) 1%Z = 1.
Proof.
  destruct demo2_reachable as (w & HR & E0 & _). exists w. split; [exact HR|]. split.
  - intros i j. cbn [jet_of j_dep]. rewrite E0. cbn. intuition congruence.
  - cbn [jet_of j_g]. now rewrite E0.
Qed.

(** Exactly which mixed second derivatives a function of one argument with non-zero
    second derivative leaves: at most those of a variable and its successor. *)
Theorem C27_mixed_exact_partial : forall eig (w : world2 RN), reachable2 eig w -> forall (v : nat) (f f1 f2 : R) z,
  let x := w2_var w v in
  let good i j := (f1 * j_h (jet_of x) i j + f2 / 2 * (j_g (jet_of x) i * j_g (jet_of x) j))%R in
  f2 <> 0%R -> u2_unary x f f1 f2 = Ret z -> forall i j, (i < j)%Z ->
  (~ follows (jet_of x) i j -> j_h (jet_of z) i j = 0%R) /\
  ((forall k, ~ recorded x i k) -> j_h (jet_of z) i j = 0%R) /\
  (follows (jet_of x) i j -> recorded x i j -> (forall k, recorded x i k -> k = j) ->
   j_h (jet_of z) i j = good i j) /\
  (follows (jet_of x) i j -> forall k, recorded x i k -> k <> j ->
   j_h (jet_of z) i j = (good i j - f1 * j_h (jet_of x) i j)%R).
Proof. exact C27_mixed_exact_partial_proof. Qed.
Print Assumptions C27_mixed_exact_partial.
Example C27_mixed_case : exists w, reachable2 no_eig w /\
  let p := w2_var w 3%nat in let q := w2_var w 5%nat in
  (follows (jet_of p) 1%Z 2%Z /\ recorded p 1%Z 2%Z /\ (forall k, recorded p 1%Z k -> k = 2%Z)) /\
  (follows (jet_of q) 1%Z 2%Z /\ recorded q 1%Z 3%Z) /\ ~ follows (jet_of q) 1%Z 3%Z /\ (forall k, ~ recorded q 2%Z k).
Proof.
  destruct demo3_reachable as (w & HR & D3 & T3 & D5 & T5). exists w. split; [exact HR|]. cbv zeta.
  unfold follows, recorded. cbn [jet_of j_dep]. rewrite D3, T3, D5, T5. cbn.
  split; [|split; [|split]].
  - split; [|split; [now left|intros k [H|[]]; congruence]]. repeat split; auto. intros k Hk; lia.
  - split; [|now auto]. repeat split; auto. intros k Hk; lia.
  - intros (_ & _ & _ & H). apply (H 2%Z); [auto|lia].
  - intros k [H|[H|[]]]; congruence.
Qed.

(** What functions of two arguments leave, in every case: the term of each argument is the one
    that functions of one argument leave, but it is lost if the other argument has more
    recorded mixed derivatives with the same first variable. *)
Theorem C27_mixed_two_arguments_partial : forall eig (w : world2 RN), reachable2 eig w -> forall (u v : nat) (f fx fy fxx fyy fxy : R) z zx zy,
  let x := w2_var w u in let y := w2_var w v in
  u2_binary x y f fx fy fxx fyy fxy = Ret z -> u2_unary x 0 fx fxx = Ret zx -> u2_unary y 0 fy fyy = Ret zy ->
  forall i j n m, (i < j)%Z -> passes fxx x i j n -> passes fyy y i j m ->
  j_h (jet_of z) i j = (if (m <=? n)%nat then j_h (jet_of zx) i j else 0) + (if (n <=? m)%nat then j_h (jet_of zy) i j else 0)
    + fxy / 2 * (j_g (jet_of x) i * j_g (jet_of y) j + j_g (jet_of x) j * j_g (jet_of y) i).
Proof. exact C27_mixed_two_arguments_partial_proof. Qed.
Print Assumptions C27_mixed_two_arguments_partial.
(** p = a b, q = a b + a c: in p / q the mixed derivative of p is lost. *)
Example C27_two_arguments_case : exists w, reachable2 no_eig w /\
  let p := w2_var w 3%nat in let q := w2_var w 5%nat in passes 0 p 1%Z 2%Z 1 /\ passes 1 q 1%Z 2%Z 2.
Proof.
  destruct demo3_reachable as (w & HR & D3 & T3 & D5 & T5). exists w. split; [exact HR|]. cbv zeta. split.
  - split; [|congruence]. intros _. split; [reflexivity|]. unfold recorded. rewrite T3. intro H. destruct H. now left.
  - split; [intro H; exfalso; lra|]. intros _. unfold row_length, follows. cbn [jet_of j_dep]. rewrite D5, T5. split; [reflexivity|]. intro H. exfalso. apply H.
    cbn. repeat split; auto. intros k Hk. lia.
Qed.

(** A function with non-zero second derivative of a value computed with sums and
    differences has no mixed second derivatives at all; they should be the products of
    the first derivatives. *)
Theorem C27_function_of_a_sum_partial : forall eig cs (w : world2 RN), legal2 cs -> List.Forall sums_only cs ->
  run2 eig w2_init cs = Ret w -> forall (v : nat) (f f1 f2 : R), f2 <> 0%R ->
  let x := jet_of (w2_var w v) in
  exists z, u2_unary (w2_var w v) f f1 f2 = Ret z /\ forall i j, i <> j ->
    j_h (jet_unary x f f1 f2) i j = (f2 / 2 * (j_g x i * j_g x j))%R /\ j_h (jet_of z) i j = 0%R.
Proof. exact C27_function_of_a_sum_partial_proof. Qed.
Print Assumptions C27_function_of_a_sum_partial.
Example C27_sum_case : List.Forall sums_only demo2 /\ legal2 demo2 /\ exists w, run2 no_eig w2_init demo2 = Ret w /\
  j_g (jet_of (w2_var w 2%nat)) 1%Z * j_g (jet_of (w2_var w 2%nat)) 2%Z = 1.
Proof.
  split; [repeat constructor|]. split; [exact demo2_legal|].
  destruct demo2_world as (w & E & _ & _ & E2 & _). exists w. split; [exact E|].
  cbn [jet_of j_g]. rewrite E2. cbn. lra.
Qed.

(** ** C34 *)
Theorem C34_isindep_indepid : forall eig (w : world2 RN), reachable2 eig w -> forall v : nat,
  let x := w2_var w v in
  (u2_isindep x = true <-> forall i j, j_dep (jet_of x) i -> j_dep (jet_of x) j -> i = j) /\
  exists i, u2_indepid x = Ret i /\
    ((i = 0%Z /\ forall k, ~ j_dep (jet_of x) k) \/
     ((0 < i)%Z /\ j_dep (jet_of x) i /\ forall k, j_dep (jet_of x) k -> k = i) \/
     (i = invalid_id /\ ~ (forall j k, j_dep (jet_of x) j -> j_dep (jet_of x) k -> j = k))).
Proof. exact C34_isindep_indepid_proof. Qed.
Print Assumptions C34_isindep_indepid.
Theorem C34_grad : forall eig (w : world2 RN), reachable2 eig w -> forall u v : nat,
  let t := w2_var w u in let x := w2_var w v in
  (~ (exists i, j_dep (jet_of x) i /\ forall k, j_dep (jet_of x) k -> k = i) -> u2_grad t x = Throw InvalidArgument) /\
  (forall i, j_dep (jet_of x) i -> (forall k, j_dep (jet_of x) k -> k = i) -> j_g (jet_of x) i <> 0 ->
     exists D, u2_grad t x = Ret D /\ j_g (jet_of t) i = D * j_g (jet_of x) i).
Proof. exact C34_grad_proof. Qed.
Print Assumptions C34_grad.
Theorem C34_hess : forall eig (w : world2 RN), reachable2 eig w -> forall s u v : nat,
  let t := jet_of (w2_var w s) in let x := jet_of (w2_var w u) in let y := jet_of (w2_var w v) in
  let h := u2_hess (w2_var w s) (w2_var w u) (w2_var w v) in
  (~ (exists i, j_dep x i /\ forall k, j_dep x k -> k = i) \/ ~ (exists i, j_dep y i /\ forall k, j_dep y k -> k = i) ->
     h = Throw InvalidArgument) /\
  (forall i j, j_dep x i -> (forall k, j_dep x k -> k = i) -> j_dep y j -> (forall k, j_dep y k -> k = j) ->
     (i <> j -> j_g x i <> 0 -> j_g y j <> 0 -> exists D, h = Ret D /\ j_h t i j = D / 2 * (j_g x i * j_g y j)) /\
     (i = j -> (j_g x i <> j_g y i \/ j_h x i i <> j_h y i i) -> h = Throw InvalidArgument) /\
     (i = j -> j_g x i = j_g y i -> j_h x i i = j_h y i i -> j_g x i <> 0 ->
        exists D F, h = Ret D /\ u2_grad (w2_var w s) (w2_var w u) = Ret F /\
          j_h t i i = F * j_h x i i + D / 2 * (j_g x i * j_g x i))).
Proof. exact C34_hess_proof. Qed.
Print Assumptions C34_hess.
Example C34_case : exists w, reachable2 no_eig w /\
  let a := jet_of (w2_var w 0%nat) in let b := jet_of (w2_var w 1%nat) in let c := jet_of (w2_var w 2%nat) in
  j_dep a 1%Z /\ (forall k, j_dep a k -> k = 1%Z) /\ j_g a 1%Z <> 0 /\
  j_dep b 2%Z /\ (forall k, j_dep b k -> k = 2%Z) /\ j_g b 2%Z <> 0 /\
  ~ (exists i, j_dep c i /\ forall k, j_dep c k -> k = i).
Proof.
  destruct demo2_reachable as (w & HR & E0 & E1 & E2 & _). exists w. split; [exact HR|].
  cbn [jet_of j_dep j_g]. rewrite E0, E1, E2. cbn. repeat split; try (now left); try lra; try (intros k [H|H]; lia).
  intros (i & _ & H). assert (1 = i)%Z by (apply H; auto). assert (2 = i)%Z by (apply H; auto). lia.
Qed.

(** ** C35 *)
Theorem C35_binary_assign_refuted : exists eig (w : world2 RN) (u v : nat) f fx fy,
  reachable2 eig w /\
  exists z z', u2_binary (w2_var w u) (w2_var w v) f fx fy 0 0 0 = Ret z /\
               u2_binary_assign (w2_var w u) (w2_var w v) f fx fy 0 0 0 = Ret z' /\
               j_g (jet_of z) 1%Z = 1 /\ j_g (jet_of z') 1%Z = 2.
Proof. exact C35_binary_assign_refuted_proof. Qed.
Print Assumptions C35_binary_assign_refuted.
(** The call always returns; the derivatives it stores, for any x and y. *)
Theorem C35_gradient_and_diagonal : forall eig (w : world2 RN), reachable2 eig w ->
  forall (u v : nat) f fx fy fxx fyy fxy, u <> v ->
  let x := jet_of (w2_var w u) in let y := jet_of (w2_var w v) in
  exists z', u2_binary_assign (w2_var w u) (w2_var w v) f fx fy fxx fyy fxy = Ret z' /\
    let z := jet_of z' in
    j_mean z = f /\ (forall i, j_dep z i <-> j_dep x i \/ j_dep y i) /\
    (forall i, j_g z i = j_g x i + (fx * j_g x i + fy * j_g y i)) /\
    (forall i, j_h z i i = (1 + fx) * (j_h x i i + fxx / 2 * (j_g x i * j_g x i))
                           + (fy * j_h y i i + fyy / 2 * (j_g y i * j_g y i)) + fxy * j_g z i * j_g y i).
Proof. exact C35_gradient_and_diagonal_proof. Qed.
Print Assumptions C35_gradient_and_diagonal.
(** The gradient it stores is the right one only if all first derivatives of x are zero. *)
Theorem C35_never_right : forall eig (w : world2 RN), reachable2 eig w ->
  forall (u v : nat) f fx fy fxx fyy fxy, u <> v ->
  exists z z', u2_binary (w2_var w u) (w2_var w v) f fx fy fxx fyy fxy = Ret z /\
    u2_binary_assign (w2_var w u) (w2_var w v) f fx fy fxx fyy fxy = Ret z' /\
    ((forall i, j_g (jet_of z') i = j_g (jet_of z) i) <-> (forall i, j_g (jet_of (w2_var w u)) i = 0)).
Proof. exact C35_never_right_proof. Qed.
Print Assumptions C35_never_right.
(** binary_assign(x, x, ...): the gradient is multiplied by (1 + fx) (1 + fy) instead of fx + fy. *)
Theorem C35_same_object : forall eig (w : world2 RN), reachable2 eig w ->
  forall (u : nat) f fx fy fxx fyy fxy,
  let x := jet_of (w2_var w u) in
  exists z', u2_self_assign (w2_var w u) f fx fy fxx fyy fxy = Ret z' /\
    let z := jet_of z' in
    j_mean z = f /\ (forall i, j_dep z i <-> j_dep x i) /\
    (forall i, j_g z i = (1 + fx) * (1 + fy) * j_g x i) /\
    (forall i, j_h z i i = (1 + fy) * ((1 + fx) * (j_h x i i + fxx / 2 * (j_g x i * j_g x i))
                                       + fyy / 2 * ((1 + fx) * j_g x i * ((1 + fx) * j_g x i)))
                           + fxy * (j_g z i * j_g z i)) /\
    ((forall i, j_g z i = (fx + fy) * j_g x i) <-> fx * fy = -1 \/ (forall i, j_g x i = 0)).
Proof. exact C35_same_object_proof. Qed.
Print Assumptions C35_same_object.
(** The mixed second derivatives, when the pure second derivative with respect to x is zero, and the one with respect
    to y is zero or y depends on one variable (sums, differences, products, quotients by a variable).  Missing: the
    other functions, for which the loop over x also stops at pairs it has itself just created. *)
Theorem C35_mixed_partial : forall eig (w : world2 RN), reachable2 eig w ->
  forall (u v : nat) f fx fy fyy fxy, u <> v ->
  let x := jet_of (w2_var w u) in let y := jet_of (w2_var w v) in fyy = 0 \/ single y ->
  exists z', u2_binary_assign (w2_var w u) (w2_var w v) f fx fy 0 fyy fxy = Ret z' /\
    let z := jet_of z' in
    forall i j, i <> j ->
      j_h z i j = (1 + fx) * j_h x i j + fy * j_h y i j + fyy / 2 * (j_g y i * j_g y j) + fxy / 2 * (j_g z i * j_g y j + j_g z j * j_g y i).
Proof. exact C35_mixed_partial_proof. Qed.
Print Assumptions C35_mixed_partial.
(** For the same functions, all that is stored: what second-order propagation gives with other derivatives. *)
Theorem C35_stored_partial : forall eig (w : world2 RN), reachable2 eig w ->
  forall (u v : nat) f fx fy fyy fxy, u <> v ->
  let x := jet_of (w2_var w u) in let y := jet_of (w2_var w v) in fyy = 0 \/ single y ->
  exists z', u2_binary_assign (w2_var w u) (w2_var w v) f fx fy 0 fyy fxy = Ret z' /\
    jet_eq (jet_of z') (jet_binary x y f (1 + fx) fy 0 (fyy + 2 * fy * fxy) ((1 + fx) * fxy)).
Proof. exact C35_stored_partial_proof. Qed.
Print Assumptions C35_stored_partial.
(** The same for binary_assign(x, x, ...), when both pure second derivatives are zero. *)
Theorem C35_same_object_stored_partial : forall eig (w : world2 RN), reachable2 eig w ->
  forall (u : nat) f fx fy fxy,
  let k := (1 + fx) * (1 + fy) in
  exists z', u2_self_assign (w2_var w u) f fx fy 0 0 fxy = Ret z' /\
    jet_eq (jet_of z') (jet_unary (jet_of (w2_var w u)) f k (2 * fxy * k * k)).
Proof. exact C35_same_object_stored_partial_proof. Qed.
Print Assumptions C35_same_object_stored_partial.
Theorem C35_storage_kept : forall (N : Num) (eig : list (list N) -> option (list N)),
  nltb (n0 : N) n0 = false -> forall cs : list (call3 N), legal3 cs ->
  exists (w : world2 N) (moments : Z -> moms N), run3 eig w2_init cs = Ret w /\
  (forall v : nat, let h := u2hg (w2_var w v) in
    StronglySorted Z.lt (map fst (diagmap h)) /\
    NoDup (map fst (trimap h)) /\
    (forall i d, In (i, d) (diagmap h) -> (1 <= i <= w2_last w)%Z /\ dmom d = Some (moments i)) /\
    (forall i j, In (i, j) (map fst (trimap h)) ->
       (i < j)%Z /\ In i (map fst (diagmap h)) /\ In j (map fst (diagmap h)))) /\
  (forall u v t : nat, let x := w2_var w u in let y := w2_var w v in let z := w2_var w t in
    (forall n, (1 <= n <= 4)%Z -> exists m, u2_m x n = Ret m) /\
    (exists c, u2_cov x y = Ret c) /\
    (exists i, u2_indepid x = Ret i) /\
    (forall p, exists b, u2_all p x = Ret b) /\
    ((exists g, u2_grad z x = Ret g) \/ u2_grad z x = Throw InvalidArgument) /\
    ((exists g, u2_hess z x y = Ret g) \/ u2_hess z x y = Throw InvalidArgument) /\
    (forall f f1 f2, exists r, u2_unary x f f1 f2 = Ret r) /\
    (forall f fx fy fxx fyy fxy, exists r, u2_binary x y f fx fy fxx fyy fxy = Ret r) /\
    (u <> v -> forall f fx fy fxx fyy fxy, exists r, u2_binary_assign x y f fx fy fxx fyy fxy = Ret r) /\
    (forall f fx fy fxx fyy fxy, exists r, u2_self_assign x f fx fy fxx fyy fxy = Ret r)).
Proof. exact C35_storage_kept_proof. Qed.
Print Assumptions C35_storage_kept.
(** a = 0 +- 1; b = 0 +- 1; c = a + b; binary_assign(c, a, ...) and binary_assign(c, c, ...) for the product; d = 2 +- 1. *)
Example C35_storage_case : legal3 (map F2 demo2 ++
  [FAssign 2%nat 0%nat (fun a b => a * b) (fun _ b => b) (fun a _ => a) (fun _ _ => 0) (fun _ _ => 0) (fun _ _ => 1);
   FAssign 2%nat 2%nat (fun a b => a * b) (fun _ b => b) (fun a _ => a) (fun _ _ => 0) (fun _ _ => 0) (fun _ _ => 1);
   F2 (ENewStd 3%nat 2 1 gauss (-1))]).
Proof.
  split; [repeat constructor|]. split; [|apply max_new_ge; cbn; lia].
  repeat constructor; cbn; intro H; apply Rltb_false in H; exfalso; lra.
Qed.
Example C35_case : exists w : world2 RN, reachable2 no_eig w /\ j_g (jet_of (w2_var w 0%nat)) 1%Z = 1 /\ j_g (jet_of (w2_var w 1%nat)) 2%Z = 1.
Proof.
  destruct demo2_reachable as (w & HR & E0 & E1 & _). exists w. split; [exact HR|].
  unfold jet_of. cbn [j_g]. rewrite E0, E1. cbn. split; reflexivity.
Qed.
Example C35_mixed_case : exists w : world2 RN, reachable2 no_eig w /\ single (jet_of (w2_var w 1%nat)) /\ j_g (jet_of (w2_var w 1%nat)) 2%Z = 1.
Proof.
  destruct demo2_reachable as (w & HR & E0 & E1 & _). exists w. split; [exact HR|].
  unfold single, jet_of. cbn [j_g j_dep]. rewrite E1. split; [|reflexivity].
  cbn. intros i j [<-|[]] [<-|[]]. reflexivity.
Qed.

(** ** C36 *)
Theorem C36_agrees_with_UReal : forall eig (cs : list (call2 RN)),
  legal2 cs -> List.Forall only2 cs -> accepted eig w2_init cs ->
  exists w w1, run2 eig w2_init cs = Ret w /\ run w_init (map first_call cs) = Ret w1 /\
    w2_last w = w_last w1 /\ forall u v : nat,
    let x := w2_var w u in let y := w2_var w v in let x1 := w_var w1 u in let y1 := w_var w1 v in
    u2_first_order_n x = u_n x1 /\
    u_cov x1 y1 = sum_ids (w2_last w) (fun i => j_g (jet_of x) i * j_g (jet_of y) i) /\
    u_s x1 = sqrt (sum_ids (w2_last w) (fun i => j_g (jet_of x) i ^ 2)) /\
    u_isindep x1 = Ret (u2_isindep x) /\
    u_indepid x1 = u2_indepid x.
Proof. exact C36_agrees_with_UReal_proof. Qed.
Print Assumptions C36_agrees_with_UReal.
Example C36_case : legal2 demo2 /\ List.Forall only2 demo2 /\ accepted no_eig w2_init demo2.
Proof.
  split; [exact demo2_legal|]. split; [repeat constructor|].
  unfold demo2. cbn [accepted exec2]. rewrite new_std_free by lra. cbn [assign2 fst snd].
  split; [reflexivity|]. split; [|].
  { cbn [exec2]. rewrite new_std_free by lra. reflexivity. }
  cbn [exec2]. rewrite new_std_free by lra. cbn [assign2 fst snd]. split; [|exact I].
  cbn [exec2]. unfold u2_add, u2_binary. rewrite !half0.
  cbn -[Rltb Reqb Rleb Rplus Rmult Rdiv IZR]. reflexivity.
Qed.
