(** * MomLoops: compute_m1 .. compute_m4 as sums over increasing tuples of variables *)

From Coq Require Import List ZArith Bool Reals Lra Lia Permutation Sorted.
From Verif Require Import Base Num Map HessGrad Moments Sums SpecU2 SpecProb MomSums MomSpec MomCode.
Import ListNotations.
Local Open Scope R_scope.

Section Loops.
  Variables (L : list Z) (g : Z -> R) (h : Z -> Z -> R) (mo : Z -> moms RN).
  Variables (hg : hessgrad RN) (keys : list (Z * Z)).
  Hypothesis HS : StronglySorted Z.lt L.
  Hypothesis hsym : forall i j, h i j = h j i.
  Hypothesis keys_nd : NoDup keys.
  Hypothesis keys_in : forall i j, In (i, j) keys -> In i L /\ In j L /\ (i < j)%Z.
  Hypothesis keys_all : forall i j, In i L -> In j L -> (i < j)%Z -> ~ In (i, j) keys -> h i j = 0.
  Hypothesis find_ok : forall i j, In i L -> In j L -> i <> j ->
    match hg_tri_find hg i j with Some x => x = h i j | None => h i j = 0 end.

  Definition rd (i : Z) : rdiag RN := mkRD (g i : RN) (h i i : RN) (mo i).
  Definition ent (i : Z) : dentry RN := (i, rd i).
  Definition tent (p : Z * Z) : tentry RN := mkT (fst p) (snd p) (rd (fst p)) (rd (snd p)) (h (fst p) (snd p) : RN).

  (** Sum over the stored off-diagonal elements of a function that vanishes with them. *)
  Lemma keys_sum (e : Z -> Z -> R) : (forall i j, In i L -> In j L -> (i < j)%Z -> h i j = 0 -> e i j = 0) ->
    rsum keys (fun p => e (fst p) (snd p)) = t2 L e.
  Proof.
    intro H. rewrite <- pairs_t2. apply rsum_support.
    - intros x y. decide equality; apply Z.eq_dec.
    - exact keys_nd.
    - now apply nodup_pairs.
    - intros [i j] Hk Hn. exfalso. apply Hn. apply in_pairs; [exact HS|]. now apply keys_in.
    - intros [i j] Hp Hn. cbn [fst snd]. apply in_pairs in Hp as (Hi & Hj & Hl); [|exact HS].
      apply H; auto.
  Qed.

  (** ** Second moment *)
  Lemma m2_sum : m2_loops (map ent L) (map tent (pairs L)) =
    rsum L (fun i => m2_A (ent i) 0) + t2 L (fun i j => m2_B (tent (i, j)) 0).
  Proof.
    unfold m2_loops. etransitivity.
    - apply for_each_map with (f := m2_B) (w := fun p => m2_B (tent p) 0). intros [i j] m _. unfold m2_B, tent. rr.
    - rewrite Rplus_comm. etransitivity; [|apply Rplus_comm]. f_equal.
      + rewrite <- pairs_t2. apply rsum_ext. intros [i j] _. reflexivity.
      + etransitivity; [apply for_each_map with (f := m2_A) (w := fun i => m2_A (ent i) 0)|].
        * intros i m _. unfold m2_A, ent. rr.
        * exact (Rplus_0_l _).
  Qed.

  (** ** Third moment *)
  Definition w3A (i : Z) : R := m3_A [] (ent i) [] 0.
  Definition w3B (i j : Z) : R := m3_B (rd i) (ent j) [] 0.
  Definition w3C (i j k : Z) : R := m3_C (h i i : RN) (h j j : RN) (ent k) 0.
  Definition w3F (i j k : Z) : R := m3_F i (h i i : RN) (tent (j, k)) 0.
  Definition w3D (i j : Z) : R := m3_D (tent (i, j)) 0.
  Definition w3E (i j k : Z) : R := 48 * h i j * h i k * h j k.

  Lemma m3_C_sum i j r m : for_each (m3_C (h i i : RN) (h j j : RN)) (map ent r) m = m + rsum r (w3C i j).
  Proof. apply for_each_map with (f := m3_C (h i i : RN) (h j j : RN)). intros k m' _. unfold w3C, m3_C, ent, rd. rr. Qed.
  Lemma m3_B_sum i j r m : m3_B (rd i) (ent j) (map ent r) m = m + (w3B i j + rsum r (w3C i j)).
  Proof.
    unfold m3_B. etransitivity; [apply m3_C_sum|]. rewrite <- Rplus_assoc. f_equal.
    unfold w3B, m3_B, for_each, ent, rd. cbn [fold_left]. rr.
  Qed.
  Lemma m3_F_sum i m : for_each (m3_F i (h i i : RN)) (map tent keys) m = m + t2 L (w3F i).
  Proof.
    rewrite <- keys_sum.
    - apply for_each_map with (f := m3_F i (h i i : RN)) (w := fun p => w3F i (fst p) (snd p)). intros [j k] m' _. unfold w3F, m3_F, tent.
      cbn [id1 id2 fst snd val]. destruct (_ || _); [exact (eq_sym (Rplus_0_r m'))|]. rr.
    - intros j k _ _ _ E. unfold w3F, m3_F, tent. cbn [id1 id2 fst snd val]. destruct (_ || _); [reflexivity|]. rewrite E. rr.
  Qed.
  Lemma m3_A_sum i r m : m3_A (map tent keys) (ent i) (map ent r) m =
    m + (w3A i + (rsum r (w3B i) + t2 r (w3C i)) + t2 L (w3F i)).
  Proof.
    unfold m3_A. etransitivity; [apply m3_F_sum|].
    assert (E : forall m, for_tails (m3_B (snd (ent i))) (map ent r) m = m + tl_sum r (fun j r' => w3B i j + rsum r' (w3C i j))).
    { apply for_tails_map. intros j r' m' _. apply m3_B_sum. }
    rewrite tl_plus, tl_1, tl_2 in E. etransitivity; [exact (f_equal (fun x => x + t2 L (w3F i)) (E _))|].
    generalize (rsum r (w3B i)) (t2 r (w3C i)) (t2 L (w3F i)). intros x y z.
    unfold w3A, m3_A, for_each, ent, rd. cbn [fold_left for_tails fst snd]. rr.
  Qed.
  Lemma m3_first : for_tails (m3_A (map tent keys)) (map ent L) 0 =
    rsum L w3A + t2 L w3B + t3 L w3C + rsum L (fun i => t2 L (w3F i)).
  Proof.
    etransitivity.
    - apply for_tails_map with (f := m3_A (map tent keys)) (w := fun i r => w3A i + (rsum r (w3B i) + t2 r (w3C i)) + t2 L (w3F i)). intros i r m _. apply m3_A_sum.
    - rewrite !tl_plus, !tl_1, tl_2, tl_3. lra.
  Qed.

  Hypothesis keys_sorted : StronglySorted (fun a b : Z * Z => (fst a < fst b \/ fst a = fst b /\ snd a < snd b)%Z) keys.
  Hypothesis get_ok : forall i j, In i L -> In j L -> (i < j)%Z -> hg_tri_get hg i j = Ret (h i j : RN).

  Definition f3E (p q : Z * Z) : R := if (fst q =? fst p)%Z then w3E (fst p) (snd p) (snd q) else 0.
  Lemma m3_row p r m : In p keys -> incl r keys ->
    StronglySorted (fun a b : Z * Z => (fst a < fst b \/ fst a = fst b /\ snd a < snd b)%Z) (p :: r) ->
    ofor_while (fun it2 => (id1 it2 =? id1 (tent p))%Z) (m3_E hg (tent p)) (map tent r) m = Ret (m + rsum r (f3E p) : RN).
  Proof.
    intros Hp Hr Sr. revert m. induction r as [|q r IH]; intro m; cbn [map ofor_while rsum].
    - rewrite Rplus_0_r. reflexivity.
    - inversion Sr as [|? ? S1 F1]; subst. inversion S1 as [|? ? S2 F2]; subst.
      rewrite Forall_forall in F1, F2. cbn [tent id1]. unfold f3E at 1.
      assert (Fq := F1 q (or_introl eq_refl)).
      destruct p as [i j], q as [i' k]. cbn [fst snd] in *.
      destruct (keys_in i j Hp) as (Hi & Hj & Hij). destruct (keys_in i' k (Hr _ (or_introl eq_refl))) as (Hi' & Hk & Hik).
      destruct (Z.eqb_spec i' i) as [->|D].
      + unfold m3_E at 1. cbn [tent id2 val fst snd]. rewrite get_ok by (auto; lia). cbn [bind].
        rewrite IH.
        * f_equal. unfold w3E. rr.
        * intros x Hx. apply Hr. now right.
        * constructor; [exact S2|]. apply Forall_forall. intros x Hx. apply F1. now right.
      + f_equal. rewrite (rsum_zero r).
        * match goal with |- @eq _ ?a ?b => change (@eq R a b) end. change (T RN) with R in *. lra.
        * intros [i2 k2] Hx. unfold f3E. cbn [fst snd]. apply F2 in Hx. cbn [fst snd] in Hx.
          destruct (Z.eqb_spec i2 i); [lia|reflexivity].
  Qed.
  Lemma m3_second ks : incl ks keys ->
    StronglySorted (fun a b : Z * Z => (fst a < fst b \/ fst a = fst b /\ snd a < snd b)%Z) ks -> forall m,
    ofor_tails (m3_DE hg) (map tent ks) m = Ret (m + (rsum ks (fun p => w3D (fst p) (snd p)) + t2 ks f3E) : RN).
  Proof.
    induction ks as [|p ks IH]; intros I S m; cbn [map ofor_tails rsum t2].
    - f_equal. match goal with |- @eq _ ?a ?b => change (@eq R a b) end. change (T RN) with R in *. lra.
    - unfold m3_DE at 1. inversion S as [|? ? S1 F1]; subst.
      rewrite m3_row; [|apply I; now left|intros x Hx; apply I; now right|exact S]. cbn [bind]. rewrite IH; [|intros x Hx; apply I; now right|exact S1].
      f_equal. match goal with |- @eq _ ?a ?b => change (@eq R a b) end.
      assert (E : m3_D (tent p) m = (m : R) + w3D (fst p) (snd p)).
      { unfold w3D, m3_D, tent, rd. rr. }
      rewrite E. change (T RN) with R in *. lra.
  Qed.

  Lemma t2_guard {A : Type} (lt : A -> A -> bool) (l : list A) f :
    StronglySorted (fun a b => lt a b = true) l -> (forall a, lt a a = false) -> (forall a b, lt a b = true -> lt b a = false) ->
    t2 l f = s2 l (fun a b => if lt a b then f a b else 0).
  Proof.
    intros S Ir As. rewrite s2_t2 by (intros a _; now rewrite Ir).
    induction S as [|x l S IH F]; cbn [t2]; [reflexivity|]. rewrite <- IH. f_equal. apply rsum_ext. intros b Hb.
    rewrite Forall_forall in F. rewrite (F b Hb), (As _ _ (F b Hb)). lra.
  Qed.

  Lemma f3E_sum : t2 keys f3E = t3 L w3E.
  Proof.
    set (plt := fun a b : Z * Z => ((fst a <? fst b) || ((fst a =? fst b) && (snd a <? snd b)))%Z).
    rewrite (t2_guard plt).
    - unfold s2.
      assert (E1 : forall p, rsum keys (fun q => if plt p q then f3E p q else 0) =
                   t2 L (fun i k => if plt p (i, k) then f3E p (i, k) else 0)).
      { intro p. rewrite <- keys_sum.
        - apply rsum_ext. intros [i k] _. reflexivity.
        - intros i k Hi Hk Hl E. unfold f3E, w3E. cbn [fst snd]. destruct (Z.eqb_spec i (fst p)) as [->|D]; destruct (plt _ _); try reflexivity.
          rewrite E. ring. }
      rewrite (rsum_ext keys _ _ (fun p _ => E1 p)).
      assert (E2 := keys_sum (fun i j => t2 L (fun i' k => if plt (i, j) (i', k) then f3E (i, j) (i', k) else 0))).
      assert (E3 : rsum keys (fun p => t2 L (fun i k => if plt p (i, k) then f3E p (i, k) else 0)) =
                   rsum keys (fun p => t2 L (fun i k => if plt (fst p, snd p) (i, k) then f3E (fst p, snd p) (i, k) else 0))).
      { apply rsum_ext. intros [i j] _. reflexivity. }
      rewrite E3, E2.
      + rewrite t2_s2, t3_s3 by exact HS. unfold s2 at 1, s3, s2. apply rsum_ext. intros i Hi. apply rsum_ext. intros j Hj.
        destruct (Z.ltb_spec i j) as [Hij|Hij]; cbn [andb]; [|symmetry; now apply rsum_zero].
        rewrite t2_s2 by exact HS. unfold s2.
        rewrite (rsum_single Z.eq_dec L _ i (sorted_nodup L HS) Hi).
        * apply rsum_ext. intros k Hk. unfold plt, f3E. cbn [fst snd]. rewrite !Z.eqb_refl, Z.ltb_irrefl. cbn [orb andb].
          destruct (Z.ltb_spec j k); [|destruct (i <? k)%Z; reflexivity].
          replace (i <? k)%Z with true by (symmetry; apply Z.ltb_lt; lia). reflexivity.
        * intros b Hb Hn. apply rsum_zero. intros k Hk. unfold f3E. cbn [fst snd].
          destruct (Z.eqb_spec b i); [congruence|]. destruct (b <? k)%Z, (plt (i, j) (b, k)); reflexivity.
      + intros i j _ _ _ E. transitivity (t2 L (fun _ _ => 0)).
        * apply t2_ext_lt; [exact HS|]. intros a b _ _ _. unfold f3E, w3E. cbn [fst snd]. rewrite E. destruct (plt _ _), (a =? i)%Z; ring.
        * clear. induction L as [|a l IH]; cbn [t2]; [reflexivity|]. rewrite IH, rsum_zero by reflexivity. lra.
    - clear - keys_sorted. induction keys_sorted as [|p l S IH F]; constructor; [now apply IH|].
      eapply Forall_impl; [|exact F]. intros [i j] H. destruct p as [i' j']. unfold plt. cbn [fst snd] in *.
      apply orb_true_iff. rewrite andb_true_iff, !Z.ltb_lt, Z.eqb_eq. exact H.
    - intros [i j]. unfold plt. cbn. rewrite !Z.ltb_irrefl, andb_false_r. reflexivity.
    - intros [i j] [i' j']. unfold plt. cbn [fst snd]. rewrite orb_true_iff, andb_true_iff, !Z.ltb_lt, Z.eqb_eq.
      intro H. apply orb_false_iff. rewrite andb_false_iff, !Z.ltb_ge, Z.eqb_neq. lia.
  Qed.

  Lemma m3_sum : ofor_tails (m3_DE hg) (map tent keys) (for_tails (m3_A (map tent keys)) (map ent L) (n0 : RN)) =
    Ret (rsum L w3A + t2 L w3B + t3 L w3C + rsum L (fun i => t2 L (w3F i)) + (t2 L w3D + t3 L w3E) : RN).
  Proof.
    rewrite (m3_second keys (incl_refl _) keys_sorted). f_equal.
    rewrite f3E_sum, (keys_sum w3D); [exact (f_equal (fun x => x + (t2 L w3D + t3 L w3E)) m3_first)|].
    intros i j _ _ _ E. unfold w3D, m3_D, tent, rd. cbn [val fst snd]. rewrite E. rr.
  Qed.

  (** ** Fourth moment *)
  Lemma if_0 (c : bool) (x : R) : (if c then 0 else x) = (if c then 0 else 1) * x.
  Proof. destruct c; ring. Qed.
  Lemma if_plus (c : bool) (x y : R) : (if c then 0 else x + y) = (if c then 0 else x) + (if c then 0 else y).
  Proof. destruct c; lra. Qed.
  Lemma if_rsum {A : Type} (c : bool) (l : list A) f : (if c then 0 else rsum l f) = rsum l (fun a => if c then 0 else f a).
  Proof. destruct c; [symmetry; now apply rsum_zero|reflexivity]. Qed.
  Lemma t2_zero {A : Type} (l : list A) : t2 l (fun _ _ => 0) = 0.
  Proof. induction l as [|a l IH]; cbn [t2]; [reflexivity|]. rewrite IH, rsum_zero by reflexivity. lra. Qed.
  Lemma if_t2 {A : Type} (c : bool) (l : list A) f : (if c then 0 else t2 l f) = t2 l (fun a b => if c then 0 else f a b).
  Proof. destruct c; [symmetry; apply t2_zero|reflexivity]. Qed.
  Lemma if_if (c d : bool) (x : R) : (if c then 0 else if d then 0 else x) = if c || d then 0 else x.
  Proof. destruct c; reflexivity. Qed.

  Definition w4A (i : Z) : R := m4_A0 (rd i) 0.
  Definition w4B (i j : Z) : R := if (i =? j)%Z then 0 else m4_B0 (rd i) (rd j) 0.
  Definition w4C (i j k : Z) : R := if (i =? j)%Z || (i =? k)%Z then 0 else m4_C (i + 1) (rd i) (rd j) (i, rd k) [] 0.
  Definition w4D (i j k l : Z) : R :=
    if (i =? j)%Z || (i =? k)%Z || (i =? l)%Z then 0 else m4_D i (rd i) (rd j) (rd k) (ent l) 0.
  Definition w4F (i j k : Z) : R := if (i =? j)%Z || (i =? k)%Z then 0 else m4_F0 (rd i) (rd j) (rd k) (h j k : RN) 0.

  Lemma m4_D_sum i j k r m : for_each (m4_D i (rd i) (rd j) (rd k)) (map ent r) m =
    m + rsum r (fun l => if (i =? l)%Z then 0 else m4_D i (rd i) (rd j) (rd k) (ent l) 0).
  Proof.
    apply for_each_map with (f := m4_D i (rd i) (rd j) (rd k)). intros l m' _. unfold m4_D, ent. cbn [fst snd].
    destruct (i =? l)%Z; [exact (eq_sym (Rplus_0_r m'))|]. unfold rd. rr.
  Qed.
  Lemma m4_C_sum i j k r m : m4_C i (rd i) (rd j) (ent k) (map ent r) m =
    m + (if (i =? k)%Z then 0 else m4_C (i + 1) (rd i) (rd j) (i, rd k) [] 0
         + rsum r (fun l => if (i =? l)%Z then 0 else m4_D i (rd i) (rd j) (rd k) (ent l) 0)).
  Proof.
    unfold m4_C at 1. cbn [ent fst snd]. destruct (i =? k)%Z; [exact (eq_sym (Rplus_0_r m))|].
    etransitivity; [apply m4_D_sum|]. generalize (rsum r (fun l => if (i =? l)%Z then 0 else m4_D i (rd i) (rd j) (rd k) (ent l) 0)).
    intro x. unfold m4_C. cbn [fst snd]. replace (i + 1 =? i)%Z with false by (symmetry; apply Z.eqb_neq; lia).
    unfold for_each. cbn [fold_left]. unfold rd. rr.
  Qed.
  Lemma m4_B_sum i j r m : m4_B (ent i) (ent j) (map ent r) m =
    m + (w4B i j + rsum r (w4C i j) + t2 r (w4D i j)).
  Proof.
    unfold m4_B, w4B, w4C, w4D. cbn [ent fst snd]. destruct (i =? j)%Z; cbn [orb].
    - rewrite rsum_zero, t2_zero by reflexivity. match goal with |- @eq _ ?a ?b => change (@eq R a b) end. change (T RN) with R in *. lra.
    - fold (ent j). fold (ent i).
      assert (E : forall m, for_tails (m4_C i (rd i) (rd j)) (map ent r) m = m + tl_sum r (fun k r' =>
         (if (i =? k)%Z then 0 else m4_C (i + 1) (rd i) (rd j) (i, rd k) [] 0
         + rsum r' (fun l => if (i =? l)%Z then 0 else m4_D i (rd i) (rd j) (rd k) (ent l) 0)))).
      { apply for_tails_map. intros k r' m' _. apply m4_C_sum. }
      etransitivity; [apply E|].
      rewrite (tl_ext r _ (fun k r' => (if (i =? k)%Z then 0 else m4_C (i + 1) (rd i) (rd j) (i, rd k) [] 0) +
           rsum r' (fun l => if (i =? k)%Z || (i =? l)%Z then 0 else m4_D i (rd i) (rd j) (rd k) (ent l) 0))).
      + rewrite tl_plus, tl_1, tl_2.
        rewrite Rplus_assoc, <- (Rplus_assoc m). f_equal. unfold m4_B0, rd. rr.
      + intros k r' _. rewrite if_plus, if_rsum. f_equal. apply rsum_ext. intros l _. apply if_if.
  Qed.
  Lemma m4_F_sum i m : for_each (m4_F (ent i)) (map tent keys) m = m + t2 L (w4F i).
  Proof.
    rewrite <- keys_sum.
    - apply for_each_map with (f := m4_F (ent i)) (w := fun p => w4F i (fst p) (snd p)). intros [j k] m' _. unfold w4F, m4_F, tent, ent.
      cbn [id1 id2 fst snd val diag1 diag2]. destruct (_ || _); [exact (eq_sym (Rplus_0_r m'))|]. unfold m4_F0, rd. rr.
    - intros j k _ _ _ E. unfold w4F. destruct (_ || _); [reflexivity|]. rewrite E. unfold m4_F0, rd. rr.
  Qed.
  Lemma m4_A_sum i m : m4_A (map ent L) (map tent keys) (ent i) m =
    m + (w4A i + (rsum L (w4B i) + t2 L (w4C i) + t3 L (w4D i)) + t2 L (w4F i)).
  Proof.
    unfold m4_A. etransitivity; [apply m4_F_sum|].
    assert (E : forall m, for_tails (m4_B (ent i)) (map ent L) m = m + tl_sum L (fun j r => w4B i j + rsum r (w4C i j) + t2 r (w4D i j))).
    { apply for_tails_map. intros j r' m' _. apply m4_B_sum. }
    rewrite !tl_plus, tl_1, tl_2, tl_3 in E. etransitivity; [exact (f_equal (fun x => x + t2 L (w4F i)) (E _))|].
    generalize (rsum L (w4B i)) (t2 L (w4C i)) (t3 L (w4D i)) (t2 L (w4F i)). intros x y z t.
    unfold w4A, m4_A0, ent, rd. cbn [fst snd]. rr.
  Qed.
  Lemma m4_first : for_each (m4_A (map ent L) (map tent keys)) (map ent L) 0 =
    rsum L w4A + s2 L w4B + rsum L (fun i => t2 L (w4C i)) + rsum L (fun i => t3 L (w4D i)) + rsum L (fun i => t2 L (w4F i)).
  Proof.
    etransitivity.
    - apply for_each_map with (f := m4_A (map ent L) (map tent keys)). intros i m _. apply m4_A_sum.
    - rewrite !rsum_plus. unfold s2. lra.
  Qed.

  Definition w4E (i j : Z) : R := m4_E0 (rd i) (rd j) (h i j : RN) 0.
  Definition out (i j k : Z) : bool := (k =? i)%Z || (k =? j)%Z.
  Definition w4G (i j k : Z) : R := if out i j k then 0 else
    m4_G2 (rd i) (rd j) (rd k) (h i j : RN) (h i k : RN) 0 + m4_G3 (rd i) (rd j) (rd k) (h i j : RN) (h j k : RN) 0
    + m4_H (rd i) (rd j) (h i j : RN) (h i k : RN) (h j k : RN) 0.
  Definition w4J (i j k l : Z) : R := if out i j k || (out i j l || (l =? k)%Z) then 0 else 64 * h l l * h i j * h i k * h j k.
  Definition w4L (i j k l : Z) : R := if out i j k || out i j l then 0 else 48 * h k k * h l l * h i j * h i j.
  Definition w4I (i j k l : Z) : R := if (i =? k)%Z || (i =? l)%Z || (j =? k)%Z || (j =? l)%Z then 0 else
    96 * h i j * h i k * h j l * h k l + 96 * h i j * h j k * h i l * h k l + 48 * h i j * h i j * h k l * h k l.

  Lemma m4_L_sum i j k r m : for_each (m4_L (tent (i, j)) (rd k)) (map ent r) m =
    m + rsum r (fun l => if out i j l then 0 else 48 * h k k * h l l * h i j * h i j).
  Proof.
    apply for_each_map with (f := m4_L (tent (i, j)) (rd k)). intros l m' _. unfold m4_L, ent, tent, out. cbn [fst snd id1 id2].
    destruct (_ || _); [exact (eq_sym (Rplus_0_r m'))|]. unfold rd. rr.
  Qed.
  Lemma m4_J_sum i j k m : for_each (m4_J (tent (i, j)) (ent k) (h i k : RN) (h j k : RN)) (map ent L) m =
    m + rsum L (fun l => if out i j l || (l =? k)%Z then 0 else 64 * h l l * h i j * h i k * h j k).
  Proof.
    apply for_each_map with (f := m4_J (tent (i, j)) (ent k) (h i k : RN) (h j k : RN)). intros l m' _. unfold m4_J, ent, tent, out. cbn [fst snd id1 id2].
    destruct (_ || _); [exact (eq_sym (Rplus_0_r m'))|]. unfold rd. rr.
  Qed.

  Lemma m4_G_sum i j k r m : In i L -> In j L -> (i < j)%Z -> In k L ->
    m4_G hg (map ent L) (tent (i, j)) (ent k) (map ent r) m =
    m + (w4G i j k + rsum L (w4J i j k) + rsum r (w4L i j k)).
  Proof.
    intros Hi Hj Hij Hk. unfold m4_G. cbn [ent fst snd tent id1 id2 diag1 diag2 val].
    unfold w4G, w4J, w4L. unfold out at 1 2 4. destruct ((k =? i)%Z || (k =? j)%Z) eqn:Ek; cbn [orb].
    - rewrite !rsum_zero by reflexivity. match goal with |- @eq _ ?a ?b => change (@eq R a b) end. change (T RN) with R in *. lra.
    - apply orb_false_iff in Ek as [E1 E2]. apply Z.eqb_neq in E1, E2.
      fold (tent (i, j)). fold (ent k).
      set (Lx := rsum r (fun l => if out i j l then 0 else 48 * h k k * h l l * h i j * h i j)).
      set (Jx := rsum L (fun l => if out i j l || (l =? k)%Z then 0 else 64 * h l l * h i j * h i k * h j k)).
      etransitivity; [apply (m4_L_sum i j k r)|]. fold Lx.
      assert (P2 := find_ok i k Hi Hk (not_eq_sym E1)). assert (P3 := find_ok j k Hj Hk (not_eq_sym E2)).
      assert (G2 : forall m, m4_G2 (rd i) (rd j) (rd k) (h i j : RN) (h i k : RN) m = (m : R) + m4_G2 (rd i) (rd j) (rd k) (h i j : RN) (h i k : RN) 0).
      { intro m0. unfold m4_G2. rr. }
      assert (G3 : forall m, m4_G3 (rd i) (rd j) (rd k) (h i j : RN) (h j k : RN) m = (m : R) + m4_G3 (rd i) (rd j) (rd k) (h i j : RN) (h j k : RN) 0).
      { intro m0. unfold m4_G3. rr. }
      assert (HH : forall m, m4_H (rd i) (rd j) (h i j : RN) (h i k : RN) (h j k : RN) m = (m : R) + m4_H (rd i) (rd j) (h i j : RN) (h i k : RN) (h j k : RN) 0).
      { intro m0. unfold m4_H. rr. }
      assert (Z2 : h i k = 0 -> m4_G2 (rd i) (rd j) (rd k) (h i j : RN) (h i k : RN) 0 = 0 :> R).
      { intro E. rewrite E. unfold m4_G2. rr. }
      assert (Z3 : h j k = 0 -> m4_G3 (rd i) (rd j) (rd k) (h i j : RN) (h j k : RN) 0 = 0 :> R).
      { intro E. rewrite E. unfold m4_G3. rr. }
      assert (ZH : h i k = 0 \/ h j k = 0 -> m4_H (rd i) (rd j) (h i j : RN) (h i k : RN) (h j k : RN) 0 = 0 :> R).
      { intros [E|E]; rewrite E; unfold m4_H; rr. }
      assert (ZJ : h i k = 0 \/ h j k = 0 -> Jx = 0).
      { intro E. apply rsum_zero. intros l _. destruct (out i j l || (l =? k)%Z); [reflexivity|]. destruct E as [E|E]; rewrite E; ring. }
      destruct (hg_tri_find hg i k) as [x2|]; destruct (hg_tri_find hg j k) as [x3|]; subst.
      + etransitivity; [exact (f_equal (fun x => x + Lx) (m4_J_sum i j k _))|]. fold Jx.
        etransitivity; [exact (f_equal (fun x => x + Jx + Lx) (HH _))|].
        etransitivity; [exact (f_equal (fun x => x + _ + Jx + Lx) (G3 _))|].
        etransitivity; [exact (f_equal (fun x => x + _ + _ + Jx + Lx) (G2 _))|]. change (T RN) with R in *. ring.
      + etransitivity; [exact (f_equal (fun x => x + Lx) (G2 _))|].
        rewrite (Z3 P3), (ZH (or_intror P3)), (ZJ (or_intror P3)). change (T RN) with R in *. ring.
      + etransitivity; [exact (f_equal (fun x => x + Lx) (G3 _))|].
        rewrite (Z2 P2), (ZH (or_introl P2)), (ZJ (or_introl P2)). change (T RN) with R in *. ring.
      + rewrite (Z2 P2), (Z3 P3), (ZH (or_introl P2)), (ZJ (or_introl P2)). change (T RN) with R in *. ring.
  Qed.

  Lemma m4_I_sum i j m : In i L -> In j L -> (i < j)%Z ->
    for_each (m4_I hg (tent (i, j))) (map tent keys) m = m + t2 L (w4I i j).
  Proof.
    intros Hi Hj Hij. rewrite <- keys_sum.
    - apply for_each_map with (f := m4_I hg (tent (i, j))) (w := fun p => w4I i j (fst p) (snd p)). intros [k l] m' Hkl.
      destruct (keys_in k l Hkl) as (Hk & Hl & Lkl).
      unfold w4I, m4_I, tent. cbn [id1 id2 fst snd val].
      destruct (i =? k)%Z eqn:E1; cbn [orb]; [exact (eq_sym (Rplus_0_r m'))|].
      destruct (i =? l)%Z eqn:E2; cbn [orb]; [exact (eq_sym (Rplus_0_r m'))|].
      destruct (j =? k)%Z eqn:E3; cbn [orb]; [exact (eq_sym (Rplus_0_r m'))|].
      destruct (j =? l)%Z eqn:E4; cbn [orb]; [exact (eq_sym (Rplus_0_r m'))|].
      apply Z.eqb_neq in E1, E2, E3, E4.
      assert (P1 := find_ok i k Hi Hk E1). assert (P2 := find_ok j l Hj Hl E4).
      assert (P3 := find_ok i l Hi Hl E2). assert (P4 := find_ok j k Hj Hk E3).
      destruct (hg_tri_find hg i k) as [x1|]; [|rewrite P1]; (destruct (hg_tri_find hg j l) as [x2|]; [|rewrite P2]);
      (destruct (hg_tri_find hg i l) as [x3|]; [|rewrite P3]); (destruct (hg_tri_find hg j k) as [x4|]; [|rewrite P4]); subst; rr.
    - intros k l _ _ _ E. unfold w4I. destruct (_ || _); [reflexivity|]. rewrite E. ring.
  Qed.

  Lemma m4_E_sum i j m : In i L -> In j L -> (i < j)%Z ->
    m4_E hg (map ent L) (map tent keys) (tent (i, j)) m =
    m + (w4E i j + (rsum L (w4G i j) + s2 L (w4J i j) + t2 L (w4L i j)) + t2 L (w4I i j)).
  Proof.
    intros Hi Hj Hij. unfold m4_E. etransitivity; [apply m4_I_sum; auto|].
    assert (E : forall m, for_tails (m4_G hg (map ent L) (tent (i, j))) (map ent L) m =
      m + tl_sum L (fun k r => w4G i j k + rsum L (w4J i j k) + rsum r (w4L i j k))).
    { apply for_tails_map. intros k r' m' Ik. apply m4_G_sum; auto. apply Ik. now left. }
    rewrite !tl_plus, !tl_1, tl_2 in E. etransitivity; [exact (f_equal (fun x => x + t2 L (w4I i j)) (E _))|]. unfold s2.
    generalize (rsum L (w4G i j)) (rsum L (fun a => rsum L (w4J i j a))) (t2 L (w4L i j)) (t2 L (w4I i j)). intros x y z t.
    unfold w4E, m4_E0, tent, rd. cbn [fst snd diag1 diag2 val]. rr.
  Qed.

  Lemma m4_sum : m4_loops hg (map ent L) (map tent keys) =
    rsum L w4A + s2 L w4B + rsum L (fun i => t2 L (w4C i)) + rsum L (fun i => t3 L (w4D i)) + rsum L (fun i => t2 L (w4F i))
    + t2 L (fun i j => w4E i j + (rsum L (w4G i j) + s2 L (w4J i j) + t2 L (w4L i j)) + t2 L (w4I i j)).
  Proof.
    unfold m4_loops. rewrite <- keys_sum.
    - etransitivity; [apply for_each_map with (f := m4_E hg (map ent L) (map tent keys)) (w := fun p =>
         w4E (fst p) (snd p) + (rsum L (w4G (fst p) (snd p)) + s2 L (w4J (fst p) (snd p)) + t2 L (w4L (fst p) (snd p))) + t2 L (w4I (fst p) (snd p)))|].
      + intros [i j] m Hp. destruct (keys_in i j Hp) as (Hi & Hj & Hij). now apply m4_E_sum.
      + f_equal. exact m4_first.
    - intros i j _ _ _ E.
      rewrite (rsum_zero L (w4G i j)).
      2:{ intros k _. unfold w4G. destruct (out i j k); [reflexivity|]. rewrite E. unfold m4_G2, m4_G3, m4_H. rr. }
      replace (s2 L (w4J i j)) with 0.
      2:{ symmetry. unfold s2. apply rsum_zero. intros k _. apply rsum_zero. intros l _. unfold w4J. destruct (_ || _); [reflexivity|]. rewrite E. ring. }
      replace (t2 L (w4L i j)) with 0.
      2:{ symmetry. etransitivity; [|apply (t2_zero L)]. apply t2_ext_lt; [exact HS|]. intros k l _ _ _. unfold w4L. destruct (_ || _); [reflexivity|]. rewrite E. ring. }
      replace (t2 L (w4I i j)) with 0.
      2:{ symmetry. etransitivity; [|apply (t2_zero L)]. apply t2_ext_lt; [exact HS|]. intros k l _ _ _. unfold w4I. destruct (_ || _); [reflexivity|]. rewrite E. ring. }
      unfold w4E. rewrite E. unfold m4_E0. rr.
  Qed.
End Loops.
