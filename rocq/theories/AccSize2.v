(** * AccSize2: sizes in the loops of moments.hpp (C75) *)

From Coq Require Import List ZArith Bool Reals Lra Lia Psatz Sorted.
From Flocq Require Import Core BinarySingleNaN.
From Verif Require Import Base Num Map HessGrad Moments UReal2 World2 HessProofs U2Facts U2World U2Ret SpecU2 SpecCast ConvProofs Ieee SpecIeee IeeeProofs3
  SpecAcc2 Track AccMom AccSize.
Import ListNotations.
Local Open Scope R_scope.

(** a number stored by the variable; a term of degree [g] added to the sum; a sum of [j] terms *)
Definition leaf (t : TN) : Prop := sz 1 big 0 t.
Definition tm (g : nat) (t : TN) : Prop := sz g (128 * big ^ g) 6 t.
Definition sm (g j : nat) (t : TN) : Prop := few (6 + j) -> sz g (INR j * (128 * big ^ g)) (6 + j) t.

Lemma big_6 : 128 * big ^ 6 = pow2 907.
Proof. change 128 with (pow2 7). unfold big. cbn [pow]. rewrite Rmult_1_r, <- !pow2_add. reflexivity. Qed.
Lemma cbig g : (g <= 6)%nat -> 1 <= 128 * big ^ g <= pow2 907.
Proof. intro H. rewrite <- big_6. assert (A := big_ge1 g). assert (B := big_mono _ _ H). lra. Qed.
Lemma sm_mono g j j' t : (j <= j')%nat -> sm g j t -> sm g j' t.
Proof.
  intros H S F. eapply sz_weaken; [apply S; lia|lia| |lia]. apply Rmult_le_compat_r; [assert (A := big_ge1 g); lra|]. now apply le_INR.
Qed.
Lemma sm_0 g : sm g 0 (t_0 : TN).
Proof.
  intros _. split; [reflexivity|]. cbn [t_0 td ta tb tk]. change (INR 0) with 0. split; [lra|]. split; [now left|]. split; [lra|lia].
Qed.
Lemma sstep g (m e : TN) j : (g <= 6)%nat -> sm g j m -> tm g e -> sm g (S j) (nadd m e).
Proof.
  intros G Sm E F. assert (S' := Sm ltac:(lia)). destruct (cbig g G) as [C1 C2]. assert (J := few_R _ F).
  assert (INR j <= pow2 45) by (eapply Rle_trans; [apply le_INR|exact J]; lia).
  assert (B : INR (S j) * (128 * big ^ g) <= pow2 1000).
  { rewrite S_INR. apply Rle_trans with (pow2 46 * pow2 907); [|rewrite <- pow2_add; apply pow2_le; lia].
    apply Rmult_le_compat; try lra; [assert (P := pos_INR j); lra|]. replace (pow2 46) with (2 * pow2 45) by (change 2 with (pow2 1); rewrite <- pow2_add; reflexivity).
    assert (1 <= pow2 45) by (change 1 with (pow2 0); apply pow2_le; lia). lra. }
  rewrite S_INR in B |- *. eapply sz_weaken; [apply (sz_add _ _ _ _ _ _ _ _ S' E)|lia|lra|lia]; [lra|lia].
Qed.

(** *** terms *)
Lemma tm_const z : (Z.abs z <=? 128)%Z = true -> sz 0 (128 * big ^ 0) 0 (nofZ z : TN).
Proof.
  intro H. apply Z.leb_le in H. assert (HR : Rabs (IZR z) <= 128) by (rewrite <- abs_IZR; now apply IZR_le).
  assert (K : kZ z = 0%nat) by (unfold kZ; replace (Z.abs z <=? 2 ^ 53)%Z with true; [reflexivity|symmetry; apply Z.leb_le; lia]).
  split; [|cbn [nofZ TN t_ofZ td ta tb tk]; rewrite K; cbn [pow]; repeat split; try lra; try lia].
  - cbn [nofZ TN t_ofZ td]. apply (IoAcc1.dofZ_exact z). lia.
  - destruct (Z.eq_dec z 0) as [->|N]; [left; apply Rabs_R0|right]. rewrite <- abs_IZR. apply (IZR_le 1). lia.
Qed.
Lemma tm_leaf (a : TN) : leaf a -> sz 1 (128 * big ^ 1) 1 a.
Proof. intro L. eapply sz_weaken; [exact L|lia| |lia]. assert (P := big_ge1 1). cbn [pow] in *. lra. Qed.
Lemma tm_mul i (e a : TN) : sz i (128 * big ^ i) i e -> leaf a -> (S i <= 6)%nat -> sz (S i) (128 * big ^ S i) (S i) (nmul e a).
Proof.
  intros E L H. destruct (cbig (S i) H) as [C1 C2]. assert (Q : pow2 907 <= pow2 1000) by (apply pow2_le; lia).
  replace (S i) with (i + 1)%nat by lia. replace (128 * big ^ (i + 1)) with ((128 * big ^ i) * big) by (rewrite pow_add; cbn [pow]; ring).
  eapply sz_weaken; [apply (sz_mul _ _ _ _ _ _ _ _ E L)|lia|lra|lia]; [|lia|lia].
  replace (128 * big ^ i * big) with (128 * big ^ S i) by (cbn [pow]; ring). lra.
Qed.
Lemma tm_weaken g i (e : TN) : sz i (128 * big ^ i) i e -> (i <= g)%nat -> (g <= 6)%nat -> tm g e.
Proof. intros E H G. eapply sz_weaken; [exact E|exact H| |lia]. assert (B := big_mono _ _ H). lra. Qed.

Definition rleaf (d : rdiag TN) : Prop :=
  leaf (G d) /\ leaf (H d) /\ leaf (v3 (M d)) /\ leaf (v4 (M d)) /\ leaf (v5 (M d)) /\ leaf (v6 (M d)) /\ leaf (v7 (M d)) /\ leaf (v8 (M d)).
Definition lde (it : dentry TN) : Prop := rleaf (snd it).
Definition lte (it : tentry TN) : Prop := rleaf (diag1 it) /\ rleaf (diag2 it) /\ leaf (val it).

Ltac lsplit := repeat match goal with
  | X : lde _ |- _ => red in X
  | X : lte _ |- _ => destruct X as (? & ? & ?)
  | X : rleaf _ |- _ => destruct X as (? & ? & ? & ? & ? & ? & ? & ?)
  end.
Ltac prod := match goal with
  | |- sz _ _ _ (nmul _ _) => eapply tm_mul; [prod|eassumption|lia]
  | |- sz _ _ _ (nofZ _) => apply tm_const; reflexivity
  | _ => apply tm_leaf; eassumption
  end.
Ltac term := eapply tm_weaken; [prod|lia|lia].
Ltac ssteps := eapply sm_mono; [|repeat (eapply sstep; [lia| |term]); eassumption]; lia.

Section Loops.
  Variable g : nat.
  Notation P := (sm g).
  Lemma seach {A} (Q : A -> Prop) (f : A -> TN -> TN) c l : (forall a, Q a -> forall m j, P j m -> P (c + j) (f a m)) ->
    List.Forall Q l -> forall m j, P j m -> P (length l * c + j) (for_each f l m).
  Proof.
    intros H F. induction F as [|a l Qa F IH]; intros m j L; [exact L|]. cbn [for_each fold_left length].
    eapply sm_mono; [|exact (IH (f a m) (c + j)%nat (H a Qa m j L))]. nia.
  Qed.
  Lemma stails {A} (Q : A -> Prop) (f : A -> list A -> TN -> TN) n c l :
    (forall a r, Q a -> List.Forall Q r -> (length r <= n)%nat -> forall m j, P j m -> P (c + j) (f a r m)) ->
    List.Forall Q l -> (length l <= n)%nat -> forall m j, P j m -> P (length l * c + j) (for_tails f l m).
  Proof.
    intros H F. induction F as [|a l Qa F IH]; intros Hn m j L; [exact L|]. cbn [for_tails length] in *.
    eapply sm_mono; [|exact (IH ltac:(lia) (f a l m) (c + j)%nat (H a l Qa F ltac:(lia) m j L))]. nia.
  Qed.
  Definition osm (o : outcome TN) (j : nat) : Prop := match o with Ret m => P j m | _ => True end.
  Lemma sotails {A} (Q : A -> Prop) (f : A -> list A -> TN -> outcome TN) n c l :
    (forall a r, Q a -> List.Forall Q r -> (length r <= n)%nat -> forall m j, P j m -> osm (f a r m) (c + j)) ->
    List.Forall Q l -> (length l <= n)%nat -> forall m j, P j m -> osm (ofor_tails f l m) (length l * c + j).
  Proof.
    intros H F. induction F as [|a l Qa F IH]; intros Hn m j L; [exact L|]. cbn [ofor_tails length] in *.
    assert (B := H a l Qa F ltac:(lia) m j L). destruct (f a l m) as [m'|e| |]; cbn [bind osm] in *; try exact I.
    specialize (IH ltac:(lia) m' (c + j)%nat B). destruct (ofor_tails f l m'); cbn [osm] in *; try exact I. eapply sm_mono; [|exact IH]. nia.
  Qed.
  Lemma sowhile {A} (Q : A -> Prop) (p : A -> bool) (f : A -> TN -> outcome TN) c l :
    (forall a, Q a -> forall m j, P j m -> osm (f a m) (c + j)) ->
    List.Forall Q l -> forall m j, P j m -> osm (ofor_while p f l m) (length l * c + j).
  Proof.
    intros H F. induction F as [|a l Qa F IH]; intros m j L; [exact L|]. cbn [ofor_while length]. destruct (p a); [|eapply sm_mono; [|exact L]; nia].
    assert (B := H a Qa m j L). destruct (f a m) as [m'|e| |]; cbn [bind osm] in *; try exact I.
    specialize (IH m' (c + j)%nat B). destruct (ofor_while p f l m'); cbn [osm] in *; try exact I. eapply sm_mono; [|exact IH]. nia.
  Qed.
End Loops.
Notation BS g f c := (forall m j, sm g j m -> sm g (c + j) (f m)).

Lemma s_m1 (h : hessgrad TN) : (forall k d, In (k, d) (diagmap h) -> leaf (dhh d)) -> sm 1 (length (diagmap h)) (compute_m1 h).
Proof.
  intro H. unfold compute_m1. replace (length (diagmap h)) with (length (diagmap h) * 1 + 0)%nat by lia.
  apply (seach 1 (fun kd : Z * diag TN => leaf (dhh (snd kd)))); [|apply Forall_forall; intros [k d] Hk; eapply H, Hk|apply sm_0].
  intros a Qa m j L. cbv beta in *. ssteps.
Qed.
Lemma s2_A it : lde it -> BS 3 (m2_A it) 3.
Proof. intros Z m j L. lsplit. unfold m2_A. cbv zeta. ssteps. Qed.
(** B1 and B2: the sum of two products is multiplied by 2 *)
Lemma tm_B (a b c : TN) : leaf a -> leaf b -> leaf c -> tm 3 (nmul (nofZ 2) (nadd (nmul a b) (nmul (nmul (nofZ 2) c) c))).
Proof.
  intros A B C. assert (TA : sz 2 (big * big) 1 (nmul a b)).
  { apply (sz_mul 1 big 0 a 1 big 0 b A B); [|lia|lia]. unfold big. rewrite <- pow2_add. apply pow2_le. lia. }
  assert (T2 : sz 0 2 0 (nofZ 2 : TN)).
  { destruct (tm_const 2 eq_refl) as (F & _ & R). split; [exact F|]. split; [|exact R]. cbn [nofZ TN t_ofZ ta]. rewrite Rabs_pos_eq; lra. }
  assert (B0 : 1 <= big) by (rewrite <- (pow_1 big); apply big_ge1). assert (B2 : big * big = pow2 300) by (unfold big; rewrite <- pow2_add; reflexivity).
  assert (Q : 8 * (big * big) <= pow2 1000).
  { rewrite B2. change 8 with (pow2 3). rewrite <- pow2_add. apply pow2_le. lia. }
  assert (TC : sz 1 (2 * big) 1 (nmul (nofZ 2) c)) by (apply (sz_mul _ _ _ _ _ _ _ _ T2 C); [nra|lia|lia]).
  assert (TC2 : sz 2 (2 * big * big) 2 (nmul (nmul (nofZ 2) c) c)) by (apply (sz_mul _ _ _ _ _ _ _ _ TC C); [nra|lia|lia]).
  assert (TS := sz_add _ _ _ _ _ _ _ _ TA TC2 ltac:(nra) ltac:(lia)).
  assert (TT := sz_mul _ _ _ _ _ _ _ _ T2 TS ltac:(nra) ltac:(lia) ltac:(lia)).
  eapply sz_weaken; [exact TT|lia| |lia]. cbn [pow]. nra.
Qed.
Lemma s2_B it : lte it -> BS 3 (m2_B it) 1.
Proof. intros Z m j L. lsplit. unfold m2_B. cbv zeta. apply (sstep 3 _ _ j); [lia|exact L|]. now apply tm_B. Qed.
Lemma s2_loops ds ts : List.Forall lde ds -> List.Forall lte ts -> sm 3 (3 * length ds + length ts) (m2_loops ds ts).
Proof.
  intros F1 F2. unfold m2_loops.
  assert (E1 := seach 3 lde m2_A 3 ds (fun a q => s2_A a q) F1 _ _ (sm_0 3)).
  assert (E2 := seach 3 lte m2_B 1 ts (fun a q => s2_B a q) F2 _ _ E1). eapply sm_mono; [|exact E2]. lia.
Qed.

Lemma s3_C (a b : TN) it : leaf a -> leaf b -> lde it -> BS 5 (m3_C a b it) 1.
Proof. intros A B Z m j L. lsplit. unfold m3_C. cbv zeta. ssteps. Qed.
Lemma s3_B n d it r : rleaf d -> lde it -> List.Forall lde r -> (length r <= n)%nat -> BS 5 (m3_B d it r) (6 + n).
Proof.
  intros D Z F Hn m j L. unfold m3_B. cbv zeta. assert (Hd := proj1 (proj2 D)). assert (Hi := proj1 (proj2 Z)).
  assert (E := fun m j => seach 5 lde (m3_C (H d) (H (snd it))) 1 r (fun a q => s3_C _ _ a Hd Hi q) F m j). clear Hd Hi.
  eapply sm_mono; [|apply (E _ (6 + j)%nat); lsplit; ssteps]. lia.
Qed.
Lemma s3_F id h it : leaf h -> lte it -> BS 5 (m3_F id h it) 1.
Proof. intros A Z m j L. lsplit. unfold m3_F. destruct (_ || _); [eapply sm_mono; [|exact L]; lia|]. cbv zeta. ssteps. Qed.
Lemma s3_A n ts it r : lde it -> List.Forall lde r -> (length r <= n)%nat -> List.Forall lte ts -> BS 5 (m3_A ts it r) (4 + n * (6 + n) + length ts).
Proof.
  intros Z F Hn Ft m j L. unfold m3_A. cbv zeta. assert (Z' := Z). red in Z'. assert (Hh := proj1 (proj2 Z')).
  assert (E1 := fun m j => stails 5 lde (m3_B (snd it)) n (6 + n) r (fun a r q Fr Hr => s3_B n _ a r Z' q Fr Hr) F Hn m j).
  assert (E2 := fun m j => seach 5 lte (m3_F (fst it) (H (snd it))) 1 ts (fun a q => s3_F (fst it) _ a Hh q) Ft m j). clear Hh Z'.
  eapply sm_mono; [|eapply E2; apply (E1 _ (4 + j)%nat); lsplit; ssteps]. nia.
Qed.
Lemma s3_D it : lte it -> BS 5 (m3_D it) 9.
Proof. intros Z m j L. lsplit. unfold m3_D. cbv zeta. ssteps. Qed.

Lemma leaf_0 : leaf (n0 : TN).
Proof. split; [reflexivity|]. cbn [n0 TN t_0 td ta tb tk pow]. split; [apply Rlt_le, pow2_pos|]. split; [now left|]. split; [lra|lia]. Qed.
Definition ltri (h : hessgrad TN) : Prop := forall k v, In (k, v) (trimap h) -> leaf v.
Lemma ltri_find h i j v : ltri h -> hg_tri_find h i j = Some v -> leaf v.
Proof. intros Z E. unfold hg_tri_find in E. eapply Z. eapply mfind_In. exact E. Qed.
Lemma s3_E h it it2 : ltri h -> lte it -> lte it2 -> forall m j, sm 5 j m -> osm 5 (m3_E h it it2 m) (1 + j).
Proof.
  intros Zh Z Z2 m j L. unfold m3_E. unfold hg_tri_get.
  destruct (assert_ _); cbn [bind osm]; try exact I. cbv zeta.
  assert (Lv : leaf (mget n0 (id2 it, id2 it2) (trimap h))).
  { unfold mget. destruct (mfind _ _) as [v|] eqn:E; [eapply Zh, mfind_In; exact E|apply leaf_0]. }
  lsplit. ssteps.
Qed.
Lemma s3_DE h n it r : ltri h -> lte it -> List.Forall lte r -> (length r <= n)%nat -> forall m j, sm 5 j m -> osm 5 (m3_DE h it r m) (9 + n + j).
Proof.
  intros Zh Z F Hn m j L. unfold m3_DE.
  assert (E := sowhile 5 lte (fun it2 => (id1 it2 =? id1 it)%Z) (m3_E h it) 1 r (fun a q => s3_E h it a Zh Z q) F (m3_D it m) (9 + j) (s3_D it Z m j L)).
  destruct (ofor_while _ _ _ _); cbn [osm] in *; try exact I. eapply sm_mono; [|exact E]. lia.
Qed.
Lemma s3_loops h ds ts : ltri h -> List.Forall lde ds -> List.Forall lte ts ->
  osm 5 (ofor_tails (m3_DE h) ts (for_tails (m3_A ts) ds n0)) (length ds * (4 + length ds * (6 + length ds) + length ts) + length ts * (9 + length ts)).
Proof.
  intros Zh F1 F2.
  assert (E1 := stails 5 lde (m3_A ts) (length ds) _ ds (fun a r q Fr Hr => s3_A (length ds) ts a r q Fr Hr F2) F1 (le_n _) _ _ (sm_0 5)).
  assert (E2 := sotails 5 lte (m3_DE h) (length ts) _ ts (fun a r q Fr Hr => s3_DE h (length ts) a r Zh q Fr Hr) F2 (le_n _) _ _ E1).
  cbn [n0 TN] in *. destruct (ofor_tails _ _ _); cbn [osm] in *; try exact I. eapply sm_mono; [|exact E2]. lia.
Qed.

Ltac skip L := eapply sm_mono; [|exact L]; nia.
Lemma s4_D id d d2 d3 it : rleaf d -> rleaf d2 -> rleaf d3 -> lde it -> BS 6 (m4_D id d d2 d3 it) 1.
Proof. intros A B C Z m j L. unfold m4_D. destruct (_ =? _)%Z; [skip L|]. lsplit. cbv zeta. ssteps. Qed.
Lemma s4_C n id d d2 it r : rleaf d -> rleaf d2 -> lde it -> List.Forall lde r -> (length r <= n)%nat -> BS 6 (m4_C id d d2 it r) (4 + n).
Proof.
  intros A B Z F Hn m j L. unfold m4_C. destruct (_ =? _)%Z; [skip L|]. cbv zeta.
  assert (E := fun m j => seach 6 lde (m4_D id d d2 (snd it)) 1 r (fun a q => s4_D id _ _ _ a A B Z q) F m j).
  eapply sm_mono; [|apply (E _ (4 + j)%nat); lsplit; ssteps]. lia.
Qed.
Lemma s4_B0 d d2 : rleaf d -> rleaf d2 -> BS 6 (m4_B0 d d2) 10.
Proof. intros A B m j L. lsplit. unfold m4_B0. cbv zeta. ssteps. Qed.
Lemma s4_B n it it2 r : lde it -> lde it2 -> List.Forall lde r -> (length r <= n)%nat -> BS 6 (m4_B it it2 r) (10 + n * (4 + n)).
Proof.
  intros Z Z2 F Hn m j L. unfold m4_B. destruct (_ =? _)%Z; [skip L|].
  assert (E := stails 6 lde (m4_C (fst it) (snd it) (snd it2)) n _ r (fun a r q Fr Hr => s4_C n (fst it) _ _ a r Z Z2 q Fr Hr) F Hn _ _ (s4_B0 _ _ Z Z2 m j L)).
  eapply sm_mono; [|exact E]. nia.
Qed.
Lemma s4_F it it2 : lde it -> lte it2 -> BS 6 (m4_F it it2) 12.
Proof. intros Z Z2 m j L. unfold m4_F. destruct (_ || _); [skip L|]. lsplit. unfold m4_F0. cbv zeta. ssteps. Qed.
Lemma s4_A0 d : rleaf d -> BS 6 (m4_A0 d) 5.
Proof. intros A m j L. lsplit. unfold m4_A0. cbv zeta. ssteps. Qed.
Lemma s4_A ds ts it : List.Forall lde ds -> List.Forall lte ts -> lde it ->
  BS 6 (m4_A ds ts it) (5 + length ds * (10 + length ds * (4 + length ds)) + 12 * length ts).
Proof.
  intros F1 F2 Z m j L. unfold m4_A. cbv zeta.
  assert (E1 := stails 6 lde (m4_B it) (length ds) _ ds (fun a r q Fr Hr => s4_B (length ds) it a r Z q Fr Hr) F1 (le_n _) _ _ (s4_A0 _ Z m j L)).
  assert (E2 := seach 6 lte (m4_F it) 12 ts (fun a q => s4_F it a Z q) F2 _ _ E1).
  eapply sm_mono; [|exact E2]. nia.
Qed.
Lemma s4_E0 d1 d2 h : rleaf d1 -> rleaf d2 -> leaf h -> BS 6 (m4_E0 d1 d2 h) 27.
Proof. intros A B C m j L. lsplit. unfold m4_E0. cbv zeta. ssteps. Qed.
Lemma s4_J it it2 a b it3 : lte it -> leaf a -> leaf b -> lde it3 -> BS 6 (m4_J it it2 a b it3) 1.
Proof. intros V A B Z m j L. unfold m4_J. cbv zeta. destruct (_ || _); [skip L|]. lsplit. ssteps. Qed.
Lemma s4_L it d it3 : lte it -> rleaf d -> lde it3 -> BS 6 (m4_L it d it3) 1.
Proof. intros V D Z m j L. unfold m4_L. cbv zeta. destruct (_ || _); [skip L|]. lsplit. ssteps. Qed.
Lemma s4_G2 d1 d2 d a b : rleaf d1 -> rleaf d2 -> rleaf d -> leaf a -> leaf b -> BS 6 (m4_G2 d1 d2 d a b) 6.
Proof. intros. lsplit. unfold m4_G2. cbv zeta. ssteps. Qed.
Lemma s4_G3 d1 d2 d a b : rleaf d1 -> rleaf d2 -> rleaf d -> leaf a -> leaf b -> BS 6 (m4_G3 d1 d2 d a b) 6.
Proof. intros. lsplit. unfold m4_G3. cbv zeta. ssteps. Qed.
Lemma s4_H d1 d2 a b c : rleaf d1 -> rleaf d2 -> leaf a -> leaf b -> leaf c -> BS 6 (m4_H d1 d2 a b c) 6.
Proof. intros. lsplit. unfold m4_H. cbv zeta. ssteps. Qed.
Lemma s4_G h ds it it2 r : ltri h -> List.Forall lde ds -> lte it -> lde it2 -> List.Forall lde r -> (length r <= length ds)%nat ->
  BS 6 (m4_G h ds it it2 r) (18 + 2 * length ds).
Proof.
  intros Zh Fd Z Z2 F Hr m j L. assert (Z' := Z). destruct Z' as (D1 & D2 & V). red in Z2. unfold m4_G. destruct (_ || _); [skip L|]. cbv zeta.
  assert (EL := fun m j => seach 6 lde (m4_L it (snd it2)) 1 r (fun a q => s4_L it _ a Z Z2 q) F m j).
  assert (EJ := fun v w (Lv : leaf v) (Lw : leaf w) m j => seach 6 lde (m4_J it it2 v w) 1 ds (fun a q => s4_J it it2 v w a Z Lv Lw q) Fd m j).
  destruct (hg_tri_find h (id1 it) (fst it2)) as [v2|] eqn:E2; [apply (ltri_find _ _ _ _ Zh) in E2|];
    (destruct (hg_tri_find h (id2 it) (fst it2)) as [w|] eqn:E3; [apply (ltri_find _ _ _ _ Zh) in E3|]).
  - eapply sm_mono; [|apply EL, EJ; [exact E2|exact E3|]; apply s4_H; [exact D1|exact D2|exact V|exact E2|exact E3|]; apply s4_G3; [exact D1|exact D2|exact Z2|exact V|exact E3|]; apply s4_G2; [exact D1|exact D2|exact Z2|exact V|exact E2|exact L]]. lia.
  - eapply sm_mono; [|apply EL; apply s4_G2; [exact D1|exact D2|exact Z2|exact V|exact E2|exact L]]. lia.
  - eapply sm_mono; [|apply EL; apply s4_G3; [exact D1|exact D2|exact Z2|exact V|exact E3|exact L]]. lia.
  - eapply sm_mono; [|apply EL; exact L]. lia.
Qed.
Lemma s4_I h it it2 : ltri h -> lte it -> lte it2 -> BS 6 (m4_I h it it2) 3.
Proof.
  intros Zh V Z m j L. destruct V as (_ & _ & V). destruct Z as (_ & _ & V2). unfold m4_I. destruct (_ || _); [skip L|]. cbv zeta.
  destruct (hg_tri_find h (id1 it) (id1 it2)) as [a|] eqn:E1; [apply (ltri_find _ _ _ _ Zh) in E1|];
  destruct (hg_tri_find h (id2 it) (id2 it2)) as [b|] eqn:E2; try (apply (ltri_find _ _ _ _ Zh) in E2);
  destruct (hg_tri_find h (id1 it) (id2 it2)) as [c|] eqn:E3; try (apply (ltri_find _ _ _ _ Zh) in E3);
  destruct (hg_tri_find h (id2 it) (id1 it2)) as [d|] eqn:E4; try (apply (ltri_find _ _ _ _ Zh) in E4); ssteps.
Qed.
Lemma s4_E h ds ts it : ltri h -> List.Forall lde ds -> List.Forall lte ts -> lte it ->
  BS 6 (m4_E h ds ts it) (27 + length ds * (18 + 2 * length ds) + 3 * length ts).
Proof.
  intros Zh F1 F2 Z m j L. assert (Z' := Z). destruct Z' as (D1 & D2 & V). unfold m4_E. cbv zeta.
  assert (E1 := stails 6 lde (m4_G h ds it) (length ds) _ ds (fun a r q Fr Hr => s4_G h ds it a r Zh F1 Z q Fr Hr) F1 (le_n _) _ _ (s4_E0 _ _ _ D1 D2 V m j L)).
  assert (E2 := seach 6 lte (m4_I h it) 3 ts (fun a q => s4_I h it a Zh Z q) F2 _ _ E1).
  eapply sm_mono; [|exact E2]. nia.
Qed.
Lemma s4_loops h ds ts : ltri h -> List.Forall lde ds -> List.Forall lte ts ->
  sm 6 (length ds * (5 + length ds * (10 + length ds * (4 + length ds)) + 12 * length ts) +
    length ts * (27 + length ds * (18 + 2 * length ds) + 3 * length ts)) (m4_loops h ds ts).
Proof.
  intros Zh F1 F2. unfold m4_loops.
  assert (E1 := seach 6 lde (m4_A ds ts) _ ds (fun a q => s4_A ds ts a F1 F2 q) F1 _ _ (sm_0 6)).
  assert (E2 := seach 6 lte (m4_E h ds ts) _ ts (fun a q => s4_E h ds ts a Zh F1 F2 q) F2 _ _ E1).
  eapply sm_mono; [|exact E2]. lia.
Qed.

Lemma sc_A0 p da db : leaf (dgrad da) -> leaf (dhh da) -> leaf (dgrad db) -> leaf (dhh db) -> leaf (v3 p) -> leaf (v4 p) -> BS 3 (c2_A0 p da db) 4.
Proof. intros. unfold c2_A0. cbv zeta. ssteps. Qed.
Definition dleaf (d : diag TN) : Prop :=
  leaf (dgrad d) /\ leaf (dhh d) /\
  (forall p, dmom d = Some p -> leaf (v3 p) /\ leaf (v4 p) /\ leaf (v5 p) /\ leaf (v6 p) /\ leaf (v7 p) /\ leaf (v8 p)).
Lemma sc_A (a : list (Z * diag TN)) : forall (b : list (Z * diag TN)), (forall k d, In (k, d) a -> dleaf d) -> (forall k d, In (k, d) b -> dleaf d) ->
  forall m j, sm 3 j m -> osm 3 (c2_A a b m) (4 * (length a + length b) + j).
Proof.
  induction a as [|[ia da] a IHa]; [intros b _ _ m j L; destruct b; cbn [c2_A osm length]; eapply sm_mono; try exact L; lia|].
  induction b as [|[ib db] b IHb]; intros Za Zb m j L; [cbn [c2_A osm length]; eapply sm_mono; [|exact L]; lia|]. cbn [c2_A].
  assert (Za' : forall k d, In (k, d) a -> dleaf d) by (intros k d Hd; apply (Za k d); now right).
  assert (Zb' : forall k d, In (k, d) b -> dleaf d) by (intros k d Hd; apply (Zb k d); now right).
  match goal with |- osm _ (bind ?e _) _ => assert (P : osm 3 e (4 + j)); [|destruct e as [m'| | |]] end.
  { destruct (ia =? ib)%Z; [|cbn [osm]; eapply sm_mono; [|exact L]; lia]. destruct (Za ia da (or_introl eq_refl)) as (A1 & A2 & A3).
    destruct (Zb ib db (or_introl eq_refl)) as (B1 & B2 & _). destruct (dmom da) as [p|] eqn:Ep; [|exact I].
    destruct (A3 p eq_refl) as (A4 & A5 & _). cbn [osm]. now apply sc_A0. }
  all: cbn [bind osm] in *; try exact I.
  assert (W : forall o A B, osm 3 o A -> (A <= B)%nat -> osm 3 o B) by (intros [q| | |] A B; cbn [osm]; auto; intros; eapply sm_mono; eassumption).
  cbn [length]. destruct (ia <=? ib)%Z; [destruct (ib <=? ia)%Z|].
  - eapply W; [apply (IHa b Za' Zb' m' _ P)|lia].
  - eapply W; [apply (IHa ((ib, db) :: b) Za' Zb m' _ P)|cbn [length]; lia].
  - eapply W; [apply (IHb Za Zb' m' _ P)|cbn [length]; lia].
Qed.
Lemma sc_B (a : list (visit TN)) : forall (b : list (visit TN)), (forall v, In v a -> leaf (vval v)) -> (forall v, In v b -> leaf (vval v)) ->
  forall m j, sm 3 j m -> osm 3 (c2_B a b m) (length a + length b + j).
Proof.
  induction a as [|va a IHa]; [intros b _ _ m j L; destruct b; cbn [c2_B osm length]; eapply sm_mono; try exact L; lia|].
  induction b as [|vb b IHb]; intros Za Zb m j L; [cbn [c2_B osm length]; eapply sm_mono; [|exact L]; lia|]. rewrite c2_B_cons.
  assert (Za' : forall v, In v a -> leaf (vval v)) by (intros v Hd; apply (Za v); now right).
  assert (Zb' : forall v, In v b -> leaf (vval v)) by (intros v Hd; apply (Zb v); now right).
  destruct (assert_ (vid1 va <? vid2 va)%Z); cbn [bind osm]; try exact I. destruct (assert_ (vid1 vb <? vid2 vb)%Z); cbn [bind osm]; try exact I.
  cbv zeta. assert (L1 := Za va (or_introl eq_refl)). assert (L2 := Zb vb (or_introl eq_refl)).
  match goal with |- context [if peqb _ _ then ?q else m] => set (m' := if peqb (vid va) (vid vb) then q else m) end.
  assert (P : sm 3 (1 + j) m') by (unfold m'; destruct (peqb _ _); [ssteps|skip L]).
  assert (W : forall o A B, osm 3 o A -> (A <= B)%nat -> osm 3 o B) by (intros [q| | |] A B; cbn [osm]; auto; intros; eapply sm_mono; eassumption).
  cbn [length]. destruct (pleb (vid va) (vid vb)); [destruct (pleb (vid vb) (vid va))|].
  - eapply W; [apply (IHa b Za' Zb' m' _ P)|lia].
  - eapply W; [apply (IHa (vb :: b) Za' Zb m' _ P)|cbn [length]; lia].
  - eapply W; [apply (IHb Za Zb' m' _ P)|cbn [length]; lia].
Qed.
Lemma sc_C (ha hb : hessgrad TN) : (forall k d, In (k, d) (diagmap ha) -> dleaf d) -> (forall k d, In (k, d) (diagmap hb) -> dleaf d) ->
  forall m j, sm 3 j m -> sm 3 (length (diagmap ha) * length (diagmap hb) + j) (c2_C ha hb m).
Proof.
  intros Za Zb m j L. unfold c2_C.
  apply (seach 3 (fun kd : Z * diag TN => dleaf (snd kd)) _ (length (diagmap hb))).
  - intros a Qa m' j' L'. rewrite <- (Nat.mul_1_r (length (diagmap hb))).
    apply (seach 3 (fun kd : Z * diag TN => dleaf (snd kd)) _ 1); [|apply Forall_forall; intros [k d] Hk; eapply Zb, Hk|exact L'].
    intros b Qb m2 j2 L2. destruct (negb _); [|skip L2]. destruct Qa as (_ & Qa & _), Qb as (_ & Qb & _). ssteps.
  - apply Forall_forall; intros [k d] Hk; eapply Za, Hk.
  - exact L.
Qed.

(** *** storage *)
Definition lhg (h : hessgrad TN) : Prop := hg_ok h /\ ltri h /\ forall k d, In (k, d) (diagmap h) -> dleaf d.
Lemma lread d r : dleaf d -> read_diag d = Ret r -> rleaf r.
Proof.
  intros (A & B & C) E. unfold read_diag in E. destruct (dmom d) as [p|] eqn:Ep; [|discriminate]. injection E as <-.
  destruct (C p eq_refl) as (C3 & C4 & C5 & C6 & C7 & C8). repeat (split; [assumption|]). assumption.
Qed.
Lemma lentries h ds : lhg h -> omapM read_entry (diagmap h) = Ret ds -> List.Forall lde ds /\ length ds = length (diagmap h).
Proof.
  intros (OK & _ & Z) E. destruct (read_entries h OK) as (ds' & E' & F). rewrite E in E'. injection E' as <-. split; [|eapply F2_len; exact F].
  eapply F2_Forall; [| |exact F]; [|apply (Forall_forall (fun kd => dleaf (snd kd))); intros [k d] Hk; eapply Z, Hk].
  intros [k d] b Hz Er. unfold read_entry in Er. cbn [fst snd] in *. destruct (read_diag d) as [r| | |] eqn:Ed; try discriminate. injection Er as <-.
  red. cbn. now apply (lread d).
Qed.
Lemma tpairs_leaf (T : list ((Z * Z) * TN)) (d : list (Z * diag TN)) v : (forall k x, In (k, x) T -> leaf x) -> In v (tpairs T d) -> leaf (vval v).
Proof.
  intro H. induction d as [|[i di] d IH]; cbn [tpairs]; intro Hv; [destruct Hv|]. apply in_app_iff in Hv as [Hv|Hv]; [|auto].
  apply in_map_iff in Hv as ([j dj] & <- & _). cbn [vval]. unfold mget. destruct (mfind _ _) as [x|] eqn:E; [|apply leaf_0]. eapply H, mfind_In, E.
Qed.
Lemma tpairs_len' {N : Num} T (d : list (Z * diag N)) : (length (tpairs T d) <= length d * length d)%nat.
Proof. induction d as [|[i di] d IH]; cbn [tpairs length]; [lia|]. rewrite app_length, map_length. nia. Qed.
Lemma tri_len' {N : Num} (h : hessgrad N) : hg_ok h -> (length (trimap h) <= length (diagmap h) * length (diagmap h))%nat.
Proof.
  intros (SD & ST & HK & _). rewrite <- (map_length fst (trimap h)), <- (map_length fst (diagmap h)). rewrite <- prod_length.
  apply NoDup_incl_length; [now apply msorted_NoDup|]. intros [i j] Hij. destruct (HK i j Hij) as (_ & A & B). now apply in_prod.
Qed.
Lemma lvisits h skip ts0 ts : lhg h -> tri_visits h skip = Ret ts0 -> omapM read_visit ts0 = Ret ts ->
  List.Forall lte ts /\ (length ts <= length (diagmap h) * length (diagmap h))%nat.
Proof.
  intros (OK & Zt & Z) E1 E2. destruct (read_visits h skip OK) as (a & b & E1' & E2' & F & E0). rewrite E1 in E1'. injection E1' as <-.
  rewrite E2 in E2'. injection E2' as <-. assert (Q : List.Forall (fun v => dleaf (vd1 v) /\ dleaf (vd2 v) /\ leaf (vval v)) ts0).
  { apply Forall_forall. intros v Hv. rewrite E0 in Hv. destruct skip.
    - apply in_map_iff in Hv as ([[i j] x] & <- & Hx). destruct OK as (SD & _ & HK & _). destruct (HK i j (in_map fst _ _ Hx)) as (_ & Hi & Hj).
      unfold tvisit. cbn [vd1 vd2 vval fst snd].
      apply in_map_iff in Hi as ([i' di] & Ei & Hi). apply in_map_iff in Hj as ([j' dj] & Ej & Hj). cbn [fst] in *. subst i' j'.
      rewrite (mget_In _ _ di _ SD Hi), (mget_In _ _ dj _ SD Hj). split; [eapply Z, Hi|]. split; [eapply Z, Hj|]. eapply Zt, Hx.
    - assert (I := tpairs_In _ _ _ Hv). split; [eapply Z, I|]. split; [eapply Z, I|]. eapply tpairs_leaf; [exact Zt|exact Hv]. }
  split.
  - eapply F2_Forall; [|exact Q|exact F]. intros v t (A & B & C) Er. unfold read_visit in Er.
    destruct (read_diag (vd1 v)) as [d1| | |] eqn:D1; try discriminate. destruct (read_diag (vd2 v)) as [d2| | |] eqn:D2; try discriminate.
    injection Er as <-. split; [exact (lread _ _ A D1)|]. split; [exact (lread _ _ B D2)|exact C].
  - rewrite (F2_len _ _ _ F), E0. destruct skip; [rewrite map_length; now apply tri_len'|apply tpairs_len'].
Qed.
Lemma s_m2 h m : lhg h -> let n := length (diagmap h) in compute_m2 h = Ret m -> sm 3 (3 * n + n * n) m.
Proof.
  intros Z n E. unfold compute_m2 in E. destruct (omapM read_entry (diagmap h)) as [ds| | |] eqn:E1; try discriminate. cbn [bind] in E.
  destruct (tri_visits h false) as [ts0| | |] eqn:E2; try discriminate. cbn [bind] in E.
  destruct (omapM read_visit ts0) as [ts| | |] eqn:E3; try discriminate. injection E as <-.
  destruct (lentries h ds Z E1) as [F1 L1]. destruct (lvisits h false ts0 ts Z E2 E3) as [F2 L2]. eapply sm_mono; [|exact (s2_loops ds ts F1 F2)]. fold n in L1, L2. lia.
Qed.
Lemma s_m3 h m : lhg h -> let n := length (diagmap h) in compute_m3 h = Ret m -> sm 5 (4 * n + 15 * n * n + 2 * n * n * n + n * n * n * n) m.
Proof.
  intros Z n E. unfold compute_m3 in E. destruct (omapM read_entry (diagmap h)) as [ds| | |] eqn:E1; try discriminate. cbn [bind] in E.
  destruct (tri_visits h true) as [ts0| | |] eqn:E2; try discriminate. cbn [bind] in E.
  destruct (omapM read_visit ts0) as [ts| | |] eqn:E3; try discriminate. cbn [bind] in E.
  destruct (lentries h ds Z E1) as [F1 L1]. destruct (lvisits h true ts0 ts Z E2 E3) as [F2 L2].
  assert (K := s3_loops h ds ts (proj1 (proj2 Z)) F1 F2). rewrite E in K. cbn [osm] in K. fold n in L1, L2. rewrite L1 in K. eapply sm_mono; [|exact K].
  set (t := length ts) in *. assert (n * t <= n * (n * n))%nat by (apply Nat.mul_le_mono_l; exact L2). assert (t * t <= (n * n) * (n * n))%nat by (apply Nat.mul_le_mono; exact L2). lia.
Qed.
Lemma s_m4 h m : lhg h -> let n := length (diagmap h) in compute_m4 h = Ret m -> sm 6 (5 * n + 37 * n * n + 34 * n * n * n + 6 * n * n * n * n) m.
Proof.
  intros Z n E. unfold compute_m4 in E. destruct (omapM read_entry (diagmap h)) as [ds| | |] eqn:E1; try discriminate. cbn [bind] in E.
  destruct (tri_visits h true) as [ts0| | |] eqn:E2; try discriminate. cbn [bind] in E.
  destruct (omapM read_visit ts0) as [ts| | |] eqn:E3; try discriminate. injection E as <-.
  destruct (lentries h ds Z E1) as [F1 L1]. destruct (lvisits h true ts0 ts Z E2 E3) as [F2 L2].
  assert (K := s4_loops h ds ts (proj1 (proj2 Z)) F1 F2). fold n in L1, L2. rewrite L1 in K. eapply sm_mono; [|exact K].
  set (t := length ts) in *. assert (n * t <= n * (n * n))%nat by (apply Nat.mul_le_mono_l; exact L2). assert (t * t <= (n * n) * (n * n))%nat by (apply Nat.mul_le_mono; exact L2).
  assert (n * n * t <= n * n * (n * n))%nat by (apply Nat.mul_le_mono_l; exact L2). lia.
Qed.

(** *** queries on variables that depend on at most 1024 independent variables *)
Definition sp (g : nat) (e : Z) (k : nat) (t : TN) : Prop := sz g (pow2 e) k t.
Lemma sp_sm g e j t : sm g j t -> (g <= 6)%nat -> (Z.of_nat j <= 2 ^ e)%Z -> (0 <= e <= 44)%Z -> sp g (e + 7 + 150 * Z.of_nat g) (6 + j) t.
Proof.
  intros Sm G J E. assert (F : few (6 + j)) by (assert (2 ^ e <= 2 ^ 44)%Z by (apply Z.pow_le_mono_r; lia); lia).
  eapply sz_weaken; [exact (Sm F)|lia| |lia]. rewrite !pow2_add. replace (pow2 (150 * Z.of_nat g)) with (big ^ g).
  - rewrite <- Rmult_assoc. change (pow2 7) with 128. assert (B := big_ge1 g). apply Rmult_le_compat_r; [lra|]. apply Rmult_le_compat_r; [lra|].
    rewrite INR_IZR_INZ. unfold pow2. rewrite <- IZR_Zpower by lia. now apply IZR_le.
  - unfold big. clear. induction g as [|g IH]; [reflexivity|]. rewrite Nat2Z.inj_succ. replace (150 * Z.succ (Z.of_nat g))%Z with (150 + 150 * Z.of_nat g)%Z by lia.
    rewrite pow2_add, <- IH. reflexivity.
Qed.
Lemma sp_add g1 e1 k1 s g2 e2 k2 t : sp g1 e1 k1 s -> sp g2 e2 k2 t -> (Z.max e1 e2 <= 999)%Z -> few (S (Nat.max k1 k2)) ->
  sp (Nat.max g1 g2) (Z.max e1 e2 + 1) (S (Nat.max k1 k2)) (nadd s t).
Proof.
  intros A B E K. assert (P1 := pow2_le e1 (Z.max e1 e2) ltac:(lia)). assert (P2 := pow2_le e2 (Z.max e1 e2) ltac:(lia)).
  assert (PS : pow2 (Z.max e1 e2 + 1) = 2 * pow2 (Z.max e1 e2)) by (rewrite pow2_add; change (pow2 1) with 2; ring).
  assert (PT := pow2_le (Z.max e1 e2 + 1) 1000 ltac:(lia)).
  eapply sz_weaken; [apply (sz_add _ _ _ _ _ _ _ _ A B); [lra|exact K]|lia|lra|lia].
Qed.
Lemma sp_sub g1 e1 k1 s g2 e2 k2 t : sp g1 e1 k1 s -> sp g2 e2 k2 t -> (Z.max e1 e2 <= 999)%Z -> few (S (Nat.max k1 k2)) ->
  sp (Nat.max g1 g2) (Z.max e1 e2 + 1) (S (Nat.max k1 k2)) (nsub s t).
Proof.
  intros A B E K. assert (P1 := pow2_le e1 (Z.max e1 e2) ltac:(lia)). assert (P2 := pow2_le e2 (Z.max e1 e2) ltac:(lia)).
  assert (PS : pow2 (Z.max e1 e2 + 1) = 2 * pow2 (Z.max e1 e2)) by (rewrite pow2_add; change (pow2 1) with 2; ring).
  assert (PT := pow2_le (Z.max e1 e2 + 1) 1000 ltac:(lia)).
  eapply sz_weaken; [apply (sz_sub _ _ _ _ _ _ _ _ A B); [lra|exact K]|lia|lra|lia].
Qed.
Lemma sp_mul g1 e1 k1 s g2 e2 k2 t : sp g1 e1 k1 s -> sp g2 e2 k2 t -> (e1 + e2 <= 1000)%Z -> few (S (k1 + k2)) -> (g1 + g2 <= 6)%nat ->
  sp (g1 + g2) (e1 + e2) (S (k1 + k2)) (nmul s t).
Proof.
  intros A B E K G. unfold sp. rewrite pow2_add. apply (sz_mul _ _ _ _ _ _ _ _ A B); [|exact K|exact G]. rewrite <- pow2_add. now apply pow2_le.
Qed.
Lemma sp_lit z : (Z.abs z <=? 128)%Z = true -> sp 0 7 0 (nofZ z : TN).
Proof. intro H. eapply sz_weaken; [exact (tm_const z H)|lia| |lia]. cbn [pow]. change (pow2 7) with 128. lra. Qed.

(** finite, and the underflow accounted for *)
Definition fine (t : TN) : Prop := finite (td t) /\ tb t <= u1 ^ tk t * ta t.
Lemma sp_fine g e k t : sp g e k t -> fine t.
Proof. intros (F & _ & _ & B & _). now split. Qed.
Lemma f_u (x : ureal2 TN) n m : lhg (u2hg x) -> (length (diagmap (u2hg x)) <= 1024)%nat -> (1 <= n <= 4)%nat -> u2_m x (Z.of_nat n) = Ret m -> fine m.
Proof.
  intros Z L Hn. set (i := length (diagmap (u2hg x))) in *.
  assert (I2 : (i * i <= 1024 * 1024)%nat) by (apply Nat.mul_le_mono; exact L).
  assert (I3 : (Z.of_nat (i * i * i) <= 2 ^ 30)%Z) by (assert (i * i * i <= 1024 * 1024 * 1024)%nat; [apply Nat.mul_le_mono; assumption|]; nia).
  assert (I4 : (Z.of_nat (i * i * i * i) <= 2 ^ 40)%Z) by (rewrite Nat2Z.inj_mul; nia).
  assert (K1 : sp 1 167 (6 + i) (compute_m1 (u2hg x))).
  { apply (sp_sm 1 10 i); [|lia|lia|lia]. apply s_m1. intros k d Hk. exact (proj1 (proj2 (proj2 (proj2 Z) k d Hk))). }
  assert (K11 : sp 2 334 (13 + 2 * i) (nmul (compute_m1 (u2hg x)) (compute_m1 (u2hg x)))).
  { eapply sz_weaken; [apply (sp_mul _ _ _ _ _ _ _ _ K1 K1); lia|lia|apply Rle_refl|lia]. }
  assert (K2 : forall m, u2_m x 2 = Ret m -> sp 3 480 (20 + 3 * i + i * i) m).
  { intros q E. destruct (u2_m_split x 2 q ltac:(lia) E) as (m2 & _ & E2 & ->). apply s_m2 in E2; [|exact Z]. fold i in E2.
    apply (sp_sm 3 21) in E2; [|lia|lia|lia]. eapply sz_weaken; [apply (sp_sub _ _ _ _ _ _ _ _ E2 K11); lia|lia|apply pow2_le; lia|lia]. }
  assert (K3 : forall m, u2_m x 3 = Ret m -> sp 5 800 (40 + 6 * i + 15 * (i * i) + 2 * (i * i * i) + i * i * i * i) m).
  { intros q E. destruct (u2_m_split x 3 q ltac:(lia) E) as (m2 & m3 & E2 & E3 & ->). apply K2 in E2. apply s_m3 in E3; [|exact Z]. fold i in E3.
    apply (sp_sm 5 41) in E3; [|lia|lia|lia].
    assert (A1 := sp_mul _ _ _ _ _ _ _ _ (sp_lit 3 eq_refl) E2 ltac:(lia) ltac:(lia) ltac:(lia)).
    assert (A2 := sp_add _ _ _ _ _ _ _ _ A1 K11 ltac:(lia) ltac:(lia)).
    assert (A3 := sp_mul _ _ _ _ _ _ _ _ K1 A2 ltac:(lia) ltac:(lia) ltac:(lia)).
    eapply sz_weaken; [apply (sp_sub _ _ _ _ _ _ _ _ E3 A3); lia|lia|apply pow2_le; lia|lia]. }
  assert (H : (n = 1 \/ n = 2 \/ n = 3 \/ n = 4)%nat) by lia. intro E. destruct H as [-> | [-> | [-> | ->]]].
  - apply (u2_m_split x 1 m ltac:(lia)) in E. subst m. eapply sp_fine, K1.
  - eapply sp_fine, K2. exact E.
  - eapply sp_fine, K3. exact E.
  - destruct (u2_m_split x 4 m ltac:(lia) E) as (m2 & m3 & m4 & E2 & E3 & E4 & ->). apply K2 in E2. apply K3 in E3. apply s_m4 in E4; [|exact Z]. fold i in E4.
    apply (sp_sm 6 43) in E4; [|lia|lia|lia].
    assert (A1 := sp_mul _ _ _ _ _ _ _ _ (sp_lit 6 eq_refl) E2 ltac:(lia) ltac:(lia) ltac:(lia)).
    assert (A2 := sp_add _ _ _ _ _ _ _ _ A1 K11 ltac:(lia) ltac:(lia)).
    assert (A3 := sp_mul _ _ _ _ _ _ _ _ K1 A2 ltac:(lia) ltac:(lia) ltac:(lia)).
    assert (A4 := sp_mul _ _ _ _ _ _ _ _ (sp_lit 4 eq_refl) E3 ltac:(lia) ltac:(lia) ltac:(lia)).
    assert (A5 := sp_add _ _ _ _ _ _ _ _ A4 A3 ltac:(lia) ltac:(lia)).
    assert (A6 := sp_mul _ _ _ _ _ _ _ _ K1 A5 ltac:(lia) ltac:(lia) ltac:(lia)).
    eapply sp_fine, (sp_sub _ _ _ _ _ _ _ _ E4 A6); lia.
Qed.
Lemma f_n (x : ureal2 TN) p m : lhg (u2hg x) -> leaf (u2mu x) -> (length (diagmap (u2hg x)) <= 1024)%nat -> u2_n p x = Ret m -> fine m.
Proof.
  intros Z Lm L E. unfold u2_n in E. destruct (u2_m x 1) as [m1| | |] eqn:E1; cbn [bind] in E; try discriminate. injection E as <-.
  apply (u2_m_split x 1 m1 ltac:(lia)) in E1. subst m1. set (i := length (diagmap (u2hg x))) in *.
  assert (K1 : sp 1 167 (6 + i) (compute_m1 (u2hg x))).
  { apply (sp_sm 1 10 i); [|lia|lia|lia]. apply s_m1. intros k d Hk. exact (proj1 (proj2 (proj2 (proj2 Z) k d Hk))). }
  assert (Kp : sp 0 7 0 (nofZ (propsign p) : TN)) by (destruct p; apply sp_lit; reflexivity).
  assert (A1 := sp_mul _ _ _ _ _ _ _ _ Kp K1 ltac:(lia) ltac:(lia) ltac:(lia)).
  assert (A0 : sp 1 150 0 (u2mu x)) by exact Lm.
  eapply sp_fine, (sp_add _ _ _ _ _ _ _ _ A0 A1); lia.
Qed.
Lemma f_cov (x y : ureal2 TN) m : lhg (u2hg x) -> lhg (u2hg y) -> (length (diagmap (u2hg x)) <= 1024)%nat -> (length (diagmap (u2hg y)) <= 1024)%nat ->
  u2_cov x y = Ret m -> fine m.
Proof.
  intros Zx Zy Lx Ly E. set (i := length (diagmap (u2hg x))) in *. set (j := length (diagmap (u2hg y))) in *. unfold u2_cov in E.
  destruct (compute_c2 (u2hg x) (u2hg y)) as [c| | |] eqn:Ec; cbn [bind] in E; try discriminate.
  destruct (u2_m x 1) as [mx| | |] eqn:Ex; cbn [bind] in E; try discriminate. destruct (u2_m y 1) as [my| | |] eqn:Ey; cbn [bind] in E; try discriminate.
  injection E as <-. apply (u2_m_split x 1 mx ltac:(lia)) in Ex. apply (u2_m_split y 1 my ltac:(lia)) in Ey. subst mx my.
  assert (Kx : sp 1 167 (6 + i) (compute_m1 (u2hg x))).
  { apply (sp_sm 1 10 i); [|lia|lia|lia]. apply s_m1. intros k d Hk. exact (proj1 (proj2 (proj2 (proj2 Zx) k d Hk))). }
  assert (Ky : sp 1 167 (6 + j) (compute_m1 (u2hg y))).
  { apply (sp_sm 1 10 j); [|lia|lia|lia]. apply s_m1. intros k d Hk. exact (proj1 (proj2 (proj2 (proj2 Zy) k d Hk))). }
  assert (Kp := sp_mul _ _ _ _ _ _ _ _ Kx Ky ltac:(lia) ltac:(lia) ltac:(lia)).
  unfold compute_c2 in Ec. destruct Zx as (Ox & Tx & Zx), Zy as (Oy & Ty & Zy).
  assert (KA := sc_A (diagmap (u2hg x)) (diagmap (u2hg y)) Zx Zy _ _ (sm_0 3)). cbn [n0 TN] in Ec.
  destruct (c2_A _ _ _) as [m1| | |]; cbn [bind osm] in Ec, KA; try discriminate.
  rewrite (tri_visits_skip _ Ox), (tri_visits_skip _ Oy) in Ec. cbn [bind] in Ec.
  assert (V : forall (h : hessgrad TN), ltri h -> forall v, In v (map (tvisit (diagmap h)) (trimap h)) -> leaf (vval v)).
  { intros h Zh v Hv. apply in_map_iff in Hv as ([k q] & <- & Hk). cbn [tvisit vval snd]. eapply Zh, Hk. }
  assert (KB := sc_B _ _ (V _ Tx) (V _ Ty) m1 _ KA). destruct (c2_B _ _ _) as [m2| | |]; cbn [bind osm] in Ec, KB; try discriminate.
  injection Ec as <-. assert (KC := sc_C (u2hg x) (u2hg y) Zx Zy m2 _ KB). rewrite !map_length in KC.
  assert (Tlx := tri_len' _ Ox). assert (Tly := tri_len' _ Oy). fold i in Tlx, KC. fold j in Tly, KC.
  assert (I1 : (i * i <= 1024 * 1024)%nat) by (apply Nat.mul_le_mono; assumption). assert (I2 : (j * j <= 1024 * 1024)%nat) by (apply Nat.mul_le_mono; assumption).
  assert (I3 : (i * j <= 1024 * 1024)%nat) by (apply Nat.mul_le_mono; assumption).
  apply (sp_sm 3 22) in KC; [|lia|lia|lia].
  eapply sp_fine, (sp_sub _ _ _ _ _ _ _ _ KC Kp); lia.
Qed.
