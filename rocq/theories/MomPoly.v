(** * MomPoly: the expectations over few variables, computed symbolically

    Powers of a quadratic form in k <= 4 variables are expanded by a verified
    computation on polynomials; the result is evaluated to an explicit formula. *)

From Coq Require Import List ZArith Bool Reals Lra Lia Permutation.
From Verif Require Import Base Num Map HessGrad Sums SpecU2 SpecProb MomSums MomSpec.
Import ListNotations.

(** Monomials: coefficient, coefficient symbols (i < 4: g_i, 4 + 4 i + j: h_ij) and
    variables. *)
Definition mono : Type := (Z * list nat * list nat)%type.

Fixpoint lcmp (a b : list nat) : comparison :=
  match a, b with
  | [], [] => Eq
  | [], _ => Lt
  | _, [] => Gt
  | x :: a', y :: b' => match Nat.compare x y with Eq => lcmp a' b' | c => c end
  end.
Lemma lcmp_eq a : forall b, lcmp a b = Eq -> a = b.
Proof.
  induction a as [|x a IH]; intros [|y b]; cbn; try discriminate; [reflexivity|].
  destruct (Nat.compare x y) eqn:E; try discriminate. apply Nat.compare_eq in E. intro H. f_equal; auto.
Qed.

Fixpoint linsert (x : nat) (l : list nat) : list nat :=
  match l with [] => [x] | y :: l' => if Nat.leb x y then x :: l else y :: linsert x l' end.
Lemma linsert_perm x l : Permutation (linsert x l) (x :: l).
Proof.
  induction l as [|y l IH]; cbn; [reflexivity|]. destruct (Nat.leb x y); [reflexivity|].
  rewrite IH. apply perm_swap.
Qed.

(** addition of a monomial to a sorted polynomial *)
Fixpoint padd (m : mono) (p : list mono) : list mono :=
  match p with
  | [] => [m]
  | m' :: p' =>
      match lcmp (snd (fst m)) (snd (fst m')) with
      | Lt => m :: p
      | Gt => m' :: padd m p'
      | Eq => match lcmp (snd m) (snd m') with
              | Lt => m :: p
              | Gt => m' :: padd m p'
              | Eq => ((fst (fst m) + fst (fst m'))%Z, snd (fst m'), snd m') :: p'
              end
      end
  end.

(** The terms of the form in the variables 0, ..., k-1. *)
Definition yterms (k : nat) : list (nat * list nat) :=
  map (fun i => (i, [i])) (seq 0 k) ++
  flat_map (fun i => map (fun j => ((4 + 4 * Nat.min i j + Nat.max i j)%nat, [i; j])) (seq 0 k)) (seq 0 k).
Definition tmul (t : nat * list nat) (m : mono) : mono :=
  (fst (fst m), linsert (fst t) (snd (fst m)), fold_right linsert (snd m) (snd t)).
Definition mulY (k : nat) (p : list mono) : list mono :=
  fold_right (fun t q => fold_right (fun m q => padd (tmul t m) q) q p) [] (yterms k).
Fixpoint ypow (k n : nat) : list mono :=
  match n with O => [(1%Z, [], [])] | S n' => mulY k (ypow k n') end.

(** Monomials in which each of the k variables occurs at least twice, with the
    exponents of the variables. *)
Definition ncnt := count_occ Nat.eq_dec.
Definition yfinal (k n : nat) : list (Z * list nat * list nat) :=
  map (fun m => (fst (fst m), snd (fst m), map (fun i => ncnt (snd m) i) (seq 0 k)))
    (filter (fun m => forallb (fun i => Nat.leb 2 (ncnt (snd m) i)) (seq 0 k)) (ypow k n)).

Local Open Scope R_scope.

Section Poly.
  Variables (G : Z -> R) (T : Z -> Z -> R).
  Hypothesis Tsym : forall i j, T i j = T j i.
  Variable V : Z -> nat -> R.
  Hypothesis V1 : forall i, V i 1%nat = 0.
  Variable A : list Z.
  Hypothesis ND : NoDup A.
  Hypothesis A4 : (length A <= 4)%nat.

  Definition nm (i : nat) : Z := nth i A 0%Z.
  Definition ev (c : nat) : R :=
    if (c <? 4)%nat then G (nm c) else T (nm ((c - 4) / 4)) (nm ((c - 4) mod 4)).

  Definition mval (K : list Z -> R) (m : mono) : R :=
    IZR (fst (fst m)) * rprod (snd (fst m)) ev * K (map nm (snd m)).
  Definition Lam (K : list Z -> R) (p : list mono) : R := rsum p (mval K).

  Definition pinv (K : list Z -> R) : Prop := forall w w', Permutation w w' -> K w = K w'.
  Lemma pinv_cons K i : pinv K -> pinv (fun w => K (i :: w)).
  Proof. intros H w w' P. apply H. now constructor. Qed.

  Lemma Lam_padd K m p : Lam K (padd m p) = mval K m + Lam K p.
  Proof.
    induction p as [|m' p IH]; [reflexivity|]. cbn [padd].
    destruct (lcmp (snd (fst m)) (snd (fst m'))) eqn:E1; [destruct (lcmp (snd m) (snd m')) eqn:E2|reflexivity|];
      unfold Lam in *; cbn [rsum]; try reflexivity; try (rewrite IH; ring).
    apply lcmp_eq in E1, E2. unfold mval. cbn [fst snd]. rewrite plus_IZR, E1, E2. ring.
  Qed.

  Lemma mval_tmul K t m : pinv K ->
    mval K (tmul t m) = ev (fst t) * mval (fun w => K (map nm (snd t) ++ w)) m.
  Proof.
    intro PK. unfold mval, tmul. cbn [fst snd].
    rewrite (rprod_perm _ _ ev (linsert_perm (fst t) (snd (fst m)))). cbn [rprod].
    rewrite (PK (map nm (fold_right linsert (snd m) (snd t))) (map nm (snd t) ++ map nm (snd m))); [ring|].
    rewrite <- map_app. apply Permutation_map. induction (snd t) as [|x l IH]; cbn; [reflexivity|].
    rewrite linsert_perm. now constructor.
  Qed.

  Lemma Lam_mulY K k p : pinv K ->
    Lam K (mulY k p) = rsum (yterms k) (fun t => ev (fst t) * Lam (fun w => K (map nm (snd t) ++ w)) p).
  Proof.
    intro PK. unfold mulY. induction (yterms k) as [|t ts IH]; [reflexivity|]. cbn [fold_right rsum].
    rewrite <- IH. clear IH. set (q := fold_right _ [] ts). clearbody q. clear ts.
    induction p as [|m p IH]; cbn [fold_right]; [cbn; ring|].
    rewrite Lam_padd, IH. rewrite (mval_tmul K t m PK). unfold Lam at 3. cbn [rsum]. fold (Lam (fun w => K (map nm (snd t) ++ w)) p).
    ring.
  Qed.

  Lemma rsum_A (f : Z -> R) : rsum A f = rsum (seq 0 (length A)) (fun i => f (nm i)).
  Proof.
    unfold nm. clear ND A4. induction A as [|a l IH]; [reflexivity|].
    cbn [length seq rsum nth]. f_equal. rewrite IH, <- seq_shift, rsum_map. reflexivity.
  Qed.

  Lemma ev_T i j : (i < 4)%nat -> (j < 4)%nat -> ev (4 + 4 * Nat.min i j + Nat.max i j) = T (nm i) (nm j).
  Proof.
    intros Hi Hj. unfold ev.
    assert (E : forall a b, (a < 4)%nat -> (b < 4)%nat ->
      (if (4 + 4 * a + b <? 4)%nat then G (nm (4 + 4 * a + b)) else T (nm ((4 + 4 * a + b - 4) / 4)) (nm ((4 + 4 * a + b - 4) mod 4))) = T (nm a) (nm b)).
    { intros a b Ha Hb. destruct (Nat.ltb_spec (4 + 4 * a + b) 4); [lia|].
      replace (4 + 4 * a + b - 4)%nat with (b + a * 4)%nat by lia.
      rewrite Nat.div_add, Nat.mod_add by lia. rewrite Nat.div_small, Nat.mod_small by lia. reflexivity. }
    destruct (Nat.le_ge_cases i j) as [H|H].
    - rewrite Nat.min_l, Nat.max_r by lia. now apply E.
    - rewrite Nat.min_r, Nat.max_l by lia. rewrite E by lia. apply Tsym.
  Qed.

  Lemma rsum_flat {B C : Type} (l : list B) (h : B -> list C) f : rsum (flat_map h l) f = rsum l (fun a => rsum (h a) f).
  Proof. induction l as [|a l IH]; cbn; [reflexivity|]. rewrite rsum_app, IH. reflexivity. Qed.

  Lemma qS_Lam n : forall K, pinv K -> qS (repeat (G, T) n) A K = Lam K (ypow (length A) n).
  Proof.
    induction n as [|n IH]; intros K PK; cbn [repeat qS ypow]; [unfold Lam, mval; cbn; ring|].
    rewrite Lam_mulY by exact PK. unfold yterms. rewrite rsum_app, rsum_map, rsum_flat, !rsum_A. cbn [fst snd].
    f_equal.
    - apply rsum_ext. intros i Hi. apply in_seq in Hi. cbn [map app]. rewrite IH by now apply pinv_cons.
      f_equal. unfold ev. destruct (Nat.ltb_spec i 4); [reflexivity|lia].
    - apply rsum_ext. intros i Hi. apply in_seq in Hi. rewrite rsum_A, rsum_map. apply rsum_ext. intros j Hj.
      apply in_seq in Hj. cbn [fst snd map app]. rewrite ev_T by lia. f_equal. rewrite IH; [reflexivity|].
      apply pinv_cons with (K := fun w => K (nm i :: w)). now apply pinv_cons.
  Qed.

  (** variables of the monomials *)
  Lemma in_padd m p x : In x (padd m p) -> snd x = snd m \/ exists m', In m' p /\ snd x = snd m'.
  Proof.
    induction p as [|m' p IH]; cbn [padd].
    - intros [<-|[]]. now left.
    - destruct (lcmp (snd (fst m)) (snd (fst m'))); [destruct (lcmp (snd m) (snd m'))| |]; cbn [In];
        intros [<-|H]; cbn [snd]; try (now left);
        try (destruct (IH H) as [E|(y & Hy & E)]; [now left|right; exists y; split; [now right|exact E]]);
        try (right; exists m'; split; [now left|reflexivity]);
        try (right; exists x; split; [now right|reflexivity]);
        (right; exists x; split; [exact H|reflexivity]).
  Qed.
  Definition small (k : nat) (m : mono) : Prop := forall x, In x (snd m) -> (x < k)%nat.
  Lemma in_linsert x l y : In y (linsert x l) <-> y = x \/ In y l.
  Proof.
    split; intro H.
    - apply (Permutation_in y (linsert_perm x l)) in H. destruct H as [->|H]; auto.
    - apply (Permutation_in y (Permutation_sym (linsert_perm x l))). destruct H as [->|H]; cbn; auto.
  Qed.
  Lemma small_mulY k p : (forall m, In m p -> small k m) -> forall m, In m (mulY k p) -> small k m.
  Proof.
    intro H. unfold mulY.
    assert (HT : forall t, In t (yterms k) -> forall x, In x (snd t) -> (x < k)%nat).
    { intros t Ht x Hx. unfold yterms in Ht. apply in_app_iff in Ht as [Ht|Ht].
      - apply in_map_iff in Ht as (i & <- & Hi). apply in_seq in Hi. destruct Hx as [<-|[]]. lia.
      - apply in_flat_map in Ht as (i & Hi & Ht). apply in_map_iff in Ht as (j & <- & Hj).
        apply in_seq in Hi, Hj. destruct Hx as [<-|[<-|[]]]; lia. }
    induction (yterms k) as [|t ts IH]; cbn [fold_right]; [intros m []|].
    specialize (IH (fun t' Ht' => HT t' (or_intror Ht'))). specialize (HT t (or_introl eq_refl)).
    set (q := fold_right _ [] ts) in *. clearbody q. clear ts.
    induction p as [|m' p IHp]; cbn [fold_right]; [exact IH|].
    intros m Hm. apply in_padd in Hm as [E|(y & Hy & E)].
    - intros x Hx. rewrite E in Hx. unfold tmul in Hx. cbn [snd] in Hx.
      assert (X : In x (snd t) \/ In x (snd m')).
      { clear - Hx. induction (snd t) as [|z l IH]; cbn [fold_right] in Hx; [now right|].
        apply in_linsert in Hx as [->|Hx]; [left; now left|]. destruct (IH Hx); [left; now right|now right]. }
      destruct X as [X|X]; [now apply HT|]. exact (H m' (or_introl eq_refl) x X).
    - intros x Hx. rewrite E in Hx. exact (IHp (fun m1 Hm1 => H m1 (or_intror Hm1)) y Hy x Hx).
  Qed.
  Lemma small_ypow k n : forall m, In m (ypow k n) -> small k m.
  Proof.
    induction n as [|n IH]; cbn [ypow]; [|now apply small_mulY].
    intros m [<-|[]] x [].
  Qed.

  Lemma nm_inj i j : (i < length A)%nat -> (j < length A)%nat -> nm i = nm j -> i = j.
  Proof. intros Hi Hj E. exact (proj1 (NoDup_nth A 0%Z) ND i j Hi Hj E). Qed.
  Lemma cnt_nm w i : (forall x, In x w -> (x < length A)%nat) -> (i < length A)%nat -> cnt (map nm w) (nm i) = ncnt w i.
  Proof.
    intros H Hi. induction w as [|x w IH]; [reflexivity|]. cbn [map count_occ ncnt].
    rewrite IH by (intros; apply H; now right). unfold ncnt. cbn [count_occ].
    destruct (Z.eq_dec (nm x) (nm i)) as [E|E]; destruct (Nat.eq_dec x i) as [E'|E']; try reflexivity.
    - exfalso. apply E'. apply nm_inj; auto. apply H; now left.
    - exfalso. apply E. now subst.
  Qed.
  Lemma rprod_map {B C : Type} (g : B -> C) l f : rprod (map g l) f = rprod l (fun a => f (g a)).
  Proof. induction l as [|a l IH]; cbn; [reflexivity|]. now rewrite IH. Qed.
  Lemma rprod_A (f : Z -> R) : rprod A f = rprod (seq 0 (length A)) (fun i => f (nm i)).
  Proof.
    unfold nm. clear ND A4. induction A as [|a l IH]; [reflexivity|].
    cbn [length seq rprod nth]. f_equal. rewrite IH, <- seq_shift, rprod_map. reflexivity.
  Qed.

  Definition fval (m : Z * list nat * list nat) : R :=
    IZR (fst (fst m)) * rprod (snd (fst m)) ev * rprod (seq 0 (length A)) (fun i => V (nm i) (nth i (snd m) 0%nat)).

  Theorem fstar_explicit n : fstar V (repeat (G, T) n) [] A = rsum (yfinal (length A) n) fval.
  Proof.
    unfold fstar. rewrite app_nil_r.
    set (K := Kf V A []).
    assert (PK : pinv K).
    { intros w w' P. unfold K, Kf. cbn [rprod]. f_equal. apply rprod_ext. intros i _. f_equal.
      exact (proj1 (Permutation_count_occ Z.eq_dec w w') P i). }
    rewrite qS_Lam by exact PK. unfold yfinal. rewrite rsum_map, rsum_filter. unfold Lam. apply rsum_ext.
    intros m Hm. assert (S := small_ypow _ _ m Hm). unfold mval, K, Kf. cbn [rprod]. rewrite Rmult_1_r, rprod_A.
    assert (E : rprod (seq 0 (length A)) (fun i => occ V (nm i) (cnt (map nm (snd m)) (nm i))) =
                rprod (seq 0 (length A)) (fun i => occ V (nm i) (ncnt (snd m) i))).
    { apply rprod_ext. intros i Hi. apply in_seq in Hi. rewrite cnt_nm; [reflexivity|exact S|lia]. }
    rewrite E. clear E.
    destruct (forallb (fun i => Nat.leb 2 (ncnt (snd m) i)) (seq 0 (length A))) eqn:F.
    - unfold fval. cbn [fst snd]. f_equal. apply rprod_ext. intros i Hi.
      rewrite forallb_forall in F. assert (F' := F i Hi). apply Nat.leb_le in F'. apply in_seq in Hi.
      rewrite (nth_indep _ 0%nat (ncnt (snd m) 0)) by (rewrite map_length, seq_length; lia).
      rewrite map_nth, seq_nth by lia. cbn [Nat.add]. unfold occ.
      destruct (Nat.eqb_spec (ncnt (snd m) i) 0) as [E|E]; [exfalso; lia|reflexivity].
    - assert (X : exists i, In i (seq 0 (length A)) /\ Nat.leb 2 (ncnt (snd m) i) = false).
      { clear - F. induction (seq 0 (length A)) as [|i l IH]; cbn in F; [discriminate|].
        apply andb_false_iff in F as [F|F]; [exists i; split; [now left|exact F]|].
        destruct (IH F) as (j & Hj & E). exists j. split; [now right|exact E]. }
      destruct X as (i & Hi & E). apply Nat.leb_gt in E. rewrite (rprod_zero _ _ i Hi); [ring|].
      unfold occ. assert (C : ncnt (snd m) i = 0%nat \/ ncnt (snd m) i = 1%nat) by lia.
      destruct C as [-> | ->]; cbn [Nat.eqb]; [reflexivity|apply V1].
  Qed.
End Poly.

