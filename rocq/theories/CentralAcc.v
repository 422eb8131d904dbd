(** * CentralAcc: central_moments on doubles (C84) *)

From Coq Require Import List ZArith Bool Arith Reals Lra Lia Psatz.
From Flocq Require Import Core BinarySingleNaN.
From Verif Require Import Base Num Distr SpecProb SpecCast ConvProofs.
From Verif Require Import Ieee IeeeFacts SpecIeee SpecMathIeee IoAcc1 SpecAcc2 Track AccMom2 SpecAcc5 SpecAcc6 UPoly2 DistrProofs.
Import ListNotations.
Local Open Scope R_scope.

(** ** The computation, unrolled *)
Section Expr.
  Context {N : Num}.
  Fixpoint mpow (m : N) (i : nat) : N := match i with O => n1 | S i' => nmul (mpow m i') m end.
  Definition csign (n k : nat) : Z := (parity_sign n * parity_sign k * pascal n k)%Z.
  Definition cterm (z : nat -> N) (n k : nat) : N := nmul (nmul (nofZ (csign n k)) (z k)) (mpow (z 1%nat) (n - k)).
  Definition cexpr (z : nat -> N) (n : nat) : N :=
    nadd (fold_left (fun c k => nadd c (cterm z n k)) (seq 2 (n - 2)) (nmul (nofZ (parity_sign n * (1 - Z.of_nat n))) (mpow (z 1%nat) n))) (z n).
  Definition of8 (z1 z2 z3 z4 z5 z6 z7 z8 : N) (k : nat) : N := nth (k - 1) [z1; z2; z3; z4; z5; z6; z7; z8] n0.
  Lemma central_expr z1 z2 z3 z4 z5 z6 z7 z8 :
    central_moments (N := N) [z1; z2; z3; z4; z5; z6; z7; z8] = Ret (map (cexpr (of8 z1 z2 z3 z4 z5 z6 z7 z8)) (seq 2 7)).
  Proof. vm_compute. reflexivity. Qed.
  Lemma central_list (d : nat -> N) : central_moments (N := N) (map d (seq 1 8)) = Ret (map (cexpr d) (seq 2 7)).
  Proof. vm_compute. reflexivity. Qed.
End Expr.
Lemma mpow_c {N M : Num} (c : N -> M) (K : keeps_ring c) (K1 : c n1 = n1) m i : c (mpow m i) = mpow (c m) i.
Proof. induction i as [|i IH]; [exact K1|]. cbn [mpow]. now rewrite (c_mul c K), IH. Qed.
Lemma cexpr_c {N M : Num} (c : N -> M) (K : keeps_ring c) (K1 : c n1 = n1) z n : c (cexpr z n) = cexpr (fun k => c (z k)) n.
Proof.
  unfold cexpr. rewrite (c_add c K). f_equal.
  assert (F : forall l a, c (fold_left (fun e k => nadd e (cterm z n k)) l a) = fold_left (fun e k => nadd e (cterm (fun k => c (z k)) n k)) l (c a)).
  { induction l as [|k l IH]; intro a; [reflexivity|]. cbn [fold_left]. rewrite IH. f_equal. rewrite (c_add c K). f_equal. unfold cterm. now rewrite !(c_mul c K), (c_ofZ c K), (mpow_c c K K1). }
  rewrite F. f_equal. now rewrite (c_mul c K), (c_ofZ c K), (mpow_c c K K1).
Qed.

(** ** On the reals and on sizes *)
Lemma central_real z n : (2 <= n <= 8)%nat -> z 0%nat = 1 -> cexpr (N := RN) z n = central z n.
Proof.
  intros Hn Z0. unfold cexpr, central, cterm, csign. change (nadd (n := RN)) with Rplus. change (nmul (n := RN)) with Rmult. change (nofZ (n := RN)) with IZR.
  assert (Mp : forall m i, mpow (N := RN) m i = m ^ i) by (intros m i; induction i as [|i IH]; [reflexivity|]; cbn [mpow pow]; rewrite <- IH; apply Rmult_comm).
  destruct n as [|[|n]]; [lia|lia|]. do 7 (destruct n as [|n]; [cbn [seq Nat.sub fold_left map fold_right pascal]; rewrite !Mp, Z0;
    repeat match goal with |- context [IZR ?z] => progress (let v := eval vm_compute in z in change (IZR z) with (IZR v)) end; match goal with |- @eq _ ?a ?b => change (@eq R a b); ring end|]). lia.
Qed.
Lemma central_size eta z n : (2 <= n <= 8)%nat -> cexpr (N := mag eta) (fun k => Rabs (z k)) n = size_central eta z n.
Proof.
  intros Hn. unfold cexpr, size_central, cterm, csign. change (nadd (n := mag eta)) with Rplus. change (nmul (n := mag eta)) with (times eta).
  change (nofZ (n := mag eta)) with (fun z => Rabs (IZR z)).
  assert (Mp : forall m i, mpow (N := mag eta) m i = size_power eta m i) by (intros m i; induction i as [|i IH]; [reflexivity|]; cbn [mpow size_power]; rewrite <- IH; reflexivity).
  assert (Ab : forall z : Z, (fun z => Rabs (IZR z)) z = IZR (Z.abs z)) by (intro; symmetry; apply abs_IZR).
  destruct n as [|[|n]]; [lia|lia|]. do 7 (destruct n as [|n]; [cbn [seq Nat.sub fold_left map fold_right pascal]; cbv beta; rewrite !Mp, <- !abs_IZR;
    repeat match goal with |- context [IZR ?z] => progress (let v := eval vm_compute in z in change (IZR z) with (IZR v)) end; match goal with |- @eq _ ?a ?b => change (@eq R a b); ring end|]). lia.
Qed.

(** ** Roundings *)
Local Open Scope nat_scope.
Lemma kmpow (m : TN) k0 i : tk m <= k0 -> tk (mpow m i) <= i * (1 + k0).
Proof.
  intro H. induction i as [|i IH]; [apply Nat.le_refl|]. cbn [mpow]. change (tk (nmul (n := TN) (mpow m i) m)) with (S (tk (mpow m i) + tk m)). lia.
Qed.
Lemma small_Z z : (Z.abs z <= 1000)%Z -> tk (nofZ (n := TN) z) = 0.
Proof. intro H. change (kZ z = 0). unfold kZ. destruct (Z.leb_spec (Z.abs z) (2 ^ 53)); [reflexivity|lia]. Qed.
Lemma kcexpr (z : nat -> TN) k0 n : 2 <= n <= 8 -> (forall k, 1 <= k <= n -> tk (z k) <= k0) -> tk (cexpr z n) <= n * (2 + k0).
Proof.
  intros Hn Hz. assert (M : forall i, tk (mpow (z 1) i) <= i * (1 + k0)) by (intro i; apply kmpow, Hz; lia).
  assert (Cs : forall k, 2 <= k < n -> tk (cterm z n k) <= n * (1 + k0)).
  { intros k Hk. unfold cterm. change (tk (nmul (n := TN) (nmul (nofZ (csign n k)) (z k)) (mpow (z 1) (n - k)))) with (S (S (tk (nofZ (n := TN) (csign n k)) + tk (z k)) + tk (mpow (z 1) (n - k)))).
    rewrite small_Z. 2:{ destruct n as [|[|n]]; [lia|lia|]. do 7 (destruct n as [|n]; [do 8 (destruct k as [|k]; [try lia; vm_compute; discriminate|]); lia|]). lia. }
    assert (Mk := M (n - k)). assert (Hk' := Hz k ltac:(lia)). assert (Q : n * (1 + k0) = (n - k) * (1 + k0) + k * (1 + k0)) by (rewrite <- Nat.mul_add_distr_r; f_equal; lia).
    assert (2 * (1 + k0) <= k * (1 + k0)) by (apply Nat.mul_le_mono_r; lia). lia. }
  assert (F : forall l (a : TN) j, (forall k, In k l -> 2 <= k < n) -> tk a <= n * (1 + k0) + S j ->
    tk (fold_left (fun c k => nadd c (cterm z n k)) l a) <= n * (1 + k0) + S j + length l).
  { induction l as [|k l IH]; intros a j Hl Ha; [cbn; lia|]. cbn [fold_left length]. eapply Nat.le_trans; [apply (IH _ (S j))|lia].
    - intros k' Hk'. apply Hl. now right.
    - change (tk (nadd (n := TN) a (cterm z n k))) with (S (Nat.max (tk a) (tk (cterm z n k)))). specialize (Cs k (Hl k (or_introl eq_refl))). lia. }
  unfold cexpr. match goal with |- tk (nadd ?a ?b) <= _ => change (tk (nadd (n := TN) a b)) with (S (Nat.max (tk a) (tk b))); assert (Q : tk a <= n * (1 + k0) + 1 + length (seq 2 (n - 2))) end.
  { apply (F _ _ 0).
    - intros k Hk. apply in_seq in Hk. lia.
    - change (tk (nmul (n := TN) (nofZ (parity_sign n * (1 - Z.of_nat n))) (mpow (z 1) n))) with (S (tk (nofZ (n := TN) (parity_sign n * (1 - Z.of_nat n))) + tk (mpow (z 1) n))).
      rewrite small_Z; [assert (Mn := M n); lia|]. destruct n as [|[|n]]; [lia|lia|]. do 7 (destruct n as [|n]; [vm_compute; discriminate|]). lia. }
  rewrite seq_length in Q. assert (Hn2 := Hz n ltac:(lia)). replace (n * (2 + k0)) with (n * (1 + k0) + n) by ring. assert (1 * (1 + k0) <= n * (1 + k0)) by (apply Nat.mul_le_mono_r; lia). lia.
Qed.
Local Open Scope R_scope.

(** A number known up to [k] roundings. *)
Lemma close_rel k d r : close ((1 + uround) ^ k - 1) d r -> rel d r (Rabs r) (Rabs r) k.
Proof. intros [F E]. split; [lra|]. intros _. unfold close in E. lra. Qed.
Lemma C84_central_proof : forall k0 (z : nat -> R) (d : nat -> double), z 0%nat = 1 -> (forall k, (1 <= k <= 8)%nat -> close ((1 + uround) ^ k0 - 1) (d k) (z k)) ->
  exists cm, central_moments (N := DN) (map d (seq 1 8)) = Ret cm /\ length cm = 7%nat /\
  forall n, (2 <= n <= 8)%nat -> let c := nth (n - 2) cm (n0 (n := DN)) in
    finite c -> approximates c (central z n) (size_central 0 z n) (size_central tiny z n) (n * (2 + k0)).
Proof.
  intros k0 z d Z0 H.
  set (zt k := match le_dec 1 k, le_dec k 8 with left a, left b => mkTrk (d k) (z k) (Rabs (z k)) (Rabs (z k)) k0 (close_rel _ _ _ (H k (conj a b))) | _, _ => t_0 end : TN).
  set (x n := cexpr zt n).
  assert (Zd : forall k, (1 <= k <= 8)%nat -> td (zt k) = d k /\ tr (zt k) = z k /\ ta (zt k) = Rabs (z k) /\ tb (zt k) = Rabs (z k) /\ tk (zt k) = k0).
  { intros k [A B]. unfold zt. destruct (le_dec 1 k), (le_dec k 8); try contradiction. cbn. auto. }
  assert (Ext : forall (M : Num) (f g : nat -> M) n, (2 <= n <= 8)%nat -> (forall k, (1 <= k <= 8)%nat -> f k = g k) -> cexpr f n = cexpr g n).
  { intros M f g n Hn E. unfold cexpr. rewrite (E n), (E 1%nat) by lia. f_equal.
    assert (F : forall l a, (forall k, In k l -> (1 <= k <= 8)%nat) -> fold_left (fun e k => nadd e (cterm f n k)) l a = fold_left (fun e k => nadd e (cterm g n k)) l a).
    { induction l as [|k l IH]; intros a Hl; [reflexivity|]. cbn [fold_left]. rewrite IH by (intros; apply Hl; now right). f_equal. f_equal. unfold cterm. rewrite (E k) by (apply Hl; now left). now rewrite (E 1%nat) by lia. }
    apply F. intros k Hk. apply in_seq in Hk. lia. }
  exists (map (cexpr (N := DN) d) (seq 2 7)). split.
  { exact (central_list (N := DN) d). }
  split; [now rewrite map_length, seq_length|]. intros n Hn c.
  assert (Ec : c = td (x n)).
  { unfold c. rewrite nth_indep with (d' := cexpr (N := DN) d 0) by (rewrite map_length, seq_length; lia). rewrite map_nth, seq_nth by lia. replace (2 + (n - 2))%nat with n by lia.
    unfold x. rewrite (cexpr_c (N := TN) (M := DN) td td_ring eq_refl). apply Ext; [exact Hn|]. intros k Hk. symmetry. now apply Zd. }
  assert (Er : central z n = tr (x n)).
  { rewrite <- central_real by assumption. unfold x. rewrite (cexpr_c (N := TN) (M := RN) tr tr_ring one_real). apply Ext; [exact Hn|]. intros k Hk. symmetry. now apply Zd. }
  assert (Ea : size_central 0 z n = ta (x n)).
  { rewrite <- central_size by assumption. unfold x. rewrite (cexpr_c (N := TN) (M := mag 0) ta ta_ring one_a). apply (Ext (mag 0)); [exact Hn|]. intros k Hk. symmetry. now apply Zd. }
  assert (Eb : size_central tiny z n = tb (x n)).
  { rewrite <- central_size by assumption. unfold x. rewrite (cexpr_c (N := TN) (M := mag tiny) tb tb_ring one_b). apply (Ext (mag tiny)); [exact Hn|]. intros k Hk. symmetry. now apply Zd. }
  rewrite Ec, Er, Ea, Eb. intro F. apply approx_of; [|exact F]. apply kcexpr; [exact Hn|]. intros k Hk. destruct (Zd k ltac:(lia)) as (_ & _ & _ & _ & ->). apply Nat.le_refl.
Qed.
