(** * Map: std::map

    A std::map<K,V> is modelled by the sequence of its (key, value) pairs in
    iteration order.  [KeyOrd] is the key order (std::less); for std::pair keys
    this is the lexicographic order. *)

From Coq Require Import List ZArith Bool Sorted Lia Morphisms.
Import ListNotations.

Class KeyOrd (K : Type) : Type := {
  kcmp : K -> K -> comparison;
  kcmp_eq : forall a b, kcmp a b = Eq <-> a = b;
  kcmp_opp : forall a b, kcmp b a = CompOpp (kcmp a b);
  kcmp_trans : forall a b c, kcmp a b = Lt -> kcmp b c = Lt -> kcmp a c = Lt
}.

#[global] Instance ZKey : KeyOrd Z.
Proof.
  refine {| kcmp := Z.compare |}.
  - intros; apply Z.compare_eq_iff.
  - intros; apply Z.compare_antisym.
  - intros a b c; rewrite !Z.compare_lt_iff; lia.
Defined.

Definition ZZcmp (a b : Z * Z) : comparison :=
  match Z.compare (fst a) (fst b) with
  | Eq => Z.compare (snd a) (snd b)
  | c => c
  end.

#[global] Instance ZZKey : KeyOrd (Z * Z).
Proof.
  refine {| kcmp := ZZcmp |}; unfold ZZcmp.
  - intros [a1 a2] [b1 b2]; cbn.
    destruct (Z.compare_spec a1 b1) as [H|H|H];
      [rewrite Z.compare_eq_iff| |]; split; intro E; try congruence; inversion E; lia.
  - intros [a1 a2] [b1 b2]; cbn.
    rewrite (Z.compare_antisym a1 b1).
    destruct (Z.compare a1 b1); cbn; try reflexivity. apply Z.compare_antisym.
  - intros [a1 a2] [b1 b2] [c1 c2]; cbn.
    destruct (Z.compare_spec a1 b1); destruct (Z.compare_spec b1 c1);
      destruct (Z.compare_spec a1 c1); try congruence; try lia;
      rewrite ?Z.compare_lt_iff; lia.
Defined.

Section Map.
  Context {K V : Type} {KO : KeyOrd K}.

  (** m.find(k) *)
  Fixpoint mfind (k : K) (m : list (K * V)) : option V :=
    match m with
    | [] => None
    | (k', v) :: m' =>
        match kcmp k k' with
        | Eq => Some v
        | Lt => None
        | Gt => mfind k m'
        end
    end.

  (** m[k] = v *)
  Fixpoint mset (k : K) (v : V) (m : list (K * V)) : list (K * V) :=
    match m with
    | [] => [(k, v)]
    | (k', v') :: m' =>
        match kcmp k k' with
        | Eq => (k, v) :: m'
        | Lt => (k, v) :: (k', v') :: m'
        | Gt => (k', v') :: mset k v m'
        end
    end.

  (** m[k] used as a reference that is then modified with [f]; [d] is the
      value-initialised element that operator[] inserts when [k] is missing. *)
  Definition mget (d : V) (k : K) (m : list (K * V)) : V :=
    match mfind k m with Some v => v | None => d end.
  Definition mupd (d : V) (k : K) (f : V -> V) (m : list (K * V)) : list (K * V) :=
    mset k (f (mget d k m)) m.

  Definition klt (a b : K) : Prop := kcmp a b = Lt.
  Definition msorted (m : list (K * V)) : Prop :=
    StronglySorted klt (map fst m).

  Lemma klt_irrefl a : ~ klt a a.
  Proof.
    unfold klt; intro H. assert (E : kcmp a a = Eq) by now apply kcmp_eq. congruence.
  Qed.
  Lemma klt_trans a b c : klt a b -> klt b c -> klt a c.
  Proof. apply kcmp_trans. Qed.
  Lemma kcmp_refl a : kcmp a a = Eq.
  Proof. now apply kcmp_eq. Qed.
  Lemma kcmp_gt a b : kcmp a b = Gt <-> kcmp b a = Lt.
  Proof. rewrite (kcmp_opp a b). destruct (kcmp a b); cbn; intuition congruence. Qed.

  Lemma keq_dec (a b : K) : {a = b} + {a <> b}.
  Proof.
    destruct (kcmp a b) eqn:E.
    - left; now apply kcmp_eq.
    - right; intros ->; rewrite kcmp_refl in E; congruence.
    - right; intros ->; rewrite kcmp_refl in E; congruence.
  Qed.

  Lemma mfind_In k v m : mfind k m = Some v -> In (k, v) m.
  Proof.
    induction m as [|[k' v'] m IH]; cbn; [congruence|].
    destruct (kcmp k k') eqn:E; try congruence.
    - apply kcmp_eq in E; subst. intros [= ->]; now left.
    - right; auto.
  Qed.

  Lemma mfind_None_lt k m :
    msorted m -> (forall k', In k' (map fst m) -> klt k k') -> mfind k m = None.
  Proof.
    destruct m as [|[k' v'] m]; cbn; [reflexivity|].
    intros _ H. specialize (H k' (or_introl eq_refl)). unfold klt in H; now rewrite H.
  Qed.

  Lemma msorted_inv k v m :
    msorted ((k, v) :: m) ->
    msorted m /\ (forall k', In k' (map fst m) -> klt k k').
  Proof.
    intro H; inversion H; subst. split; [assumption|].
    now apply Forall_forall.
  Qed.

  Lemma In_mfind k v m : msorted m -> In (k, v) m -> mfind k m = Some v.
  Proof.
    induction m as [|[k' v'] m IH]; cbn; [tauto|].
    intros S [E|H]; apply msorted_inv in S as [S HL].
    - inversion E; subst. now rewrite kcmp_refl.
    - assert (L : klt k' k) by (apply HL; apply (in_map fst) in H; exact H).
      unfold klt in L. rewrite (proj2 (kcmp_gt k k') L). auto.
  Qed.

  Lemma mfind_Some_iff k v m : msorted m -> mfind k m = Some v <-> In (k, v) m.
  Proof. split; [apply mfind_In|now apply In_mfind]. Qed.

  Lemma mfind_None_iff k m : msorted m -> mfind k m = None <-> ~ In k (map fst m).
  Proof.
    intro S; split.
    - intros H Hin. apply in_map_iff in Hin as [[k' v] [E Hin]]; cbn in E; subst.
      apply In_mfind in Hin; congruence.
    - intro H. destruct (mfind k m) eqn:E; [|reflexivity].
      apply mfind_In in E. apply (in_map fst) in E. contradiction.
  Qed.

  Lemma mfind_mset k k' v m : msorted m ->
    mfind k (mset k' v m) = if keq_dec k k' then Some v else mfind k m.
  Proof.
    induction m as [|[k0 v0] m IH]; cbn; intro S.
    - destruct (kcmp k k') eqn:E; destruct (keq_dec k k') as [->|N]; try reflexivity;
        try (rewrite kcmp_refl in E; congruence).
      apply kcmp_eq in E; contradiction.
    - apply msorted_inv in S as [S HL].
      destruct (kcmp k' k0) eqn:E0.
      + apply kcmp_eq in E0; subst k0. cbn.
        destruct (keq_dec k k') as [->|N].
        * now rewrite kcmp_refl.
        * destruct (kcmp k k') eqn:E; try reflexivity.
          apply kcmp_eq in E; contradiction.
      + cbn. destruct (keq_dec k k') as [->|N].
        * now rewrite kcmp_refl.
        * destruct (kcmp k k') eqn:E; try reflexivity.
          -- apply kcmp_eq in E; contradiction.
          -- rewrite (kcmp_trans _ _ _ E E0). reflexivity.
      + cbn. rewrite IH by assumption.
        destruct (keq_dec k k') as [->|N]; [|reflexivity].
        now rewrite E0.
  Qed.

  Lemma keys_mset k k' v m : In k (map fst (mset k' v m)) <-> k = k' \/ In k (map fst m).
  Proof.
    induction m as [|[k0 v0] m IH]; cbn; [intuition|].
    destruct (kcmp k' k0) eqn:E; cbn.
    - apply kcmp_eq in E; subst. intuition.
    - intuition.
    - rewrite IH. intuition.
  Qed.

  Lemma msorted_mset k v m : msorted m -> msorted (mset k v m).
  Proof.
    induction m as [|[k0 v0] m IH]; cbn; intro S.
    - repeat constructor.
    - destruct (msorted_inv _ _ _ S) as [S' HL].
      destruct (kcmp k k0) eqn:E.
      + apply kcmp_eq in E; subst. exact S.
      + constructor; [exact S|]. cbn. constructor; [exact E|].
        apply Forall_forall; intros k1 H1. eapply klt_trans; [exact E|now apply HL].
      + specialize (IH S'). constructor; [exact IH|].
        apply Forall_forall; intros k1 H1. apply keys_mset in H1 as [->|H1].
        * now apply kcmp_gt.
        * now apply HL.
  Qed.

  Lemma mget_mset d k k' v m : msorted m ->
    mget d k (mset k' v m) = if keq_dec k k' then v else mget d k m.
  Proof.
    intro S; unfold mget; rewrite mfind_mset by assumption.
    destruct (keq_dec k k'); reflexivity.
  Qed.

  Lemma mget_mupd d k k' f m : msorted m ->
    mget d k (mupd d k' f m) = if keq_dec k k' then f (mget d k m) else mget d k m.
  Proof.
    intro S; unfold mupd; rewrite mget_mset by assumption.
    destruct (keq_dec k k') as [->|]; reflexivity.
  Qed.

  Lemma msorted_mupd d k f m : msorted m -> msorted (mupd d k f m).
  Proof. apply msorted_mset. Qed.

  Lemma keys_mupd d k k' f m :
    In k (map fst (mupd d k' f m)) <-> k = k' \/ In k (map fst m).
  Proof. apply keys_mset. Qed.

  Lemma msorted_nil : msorted [].
  Proof. constructor. Qed.

  Lemma msorted_NoDup m : msorted m -> NoDup (map fst m).
  Proof.
    induction m as [|[k v] m IH]; cbn; intro S; [constructor|].
    apply msorted_inv in S as [S HL]. constructor; [|now apply IH].
    intro H. apply HL in H. now apply klt_irrefl in H.
  Qed.

  Lemma msorted_ext m1 m2 : msorted m1 -> msorted m2 ->
    (forall k, mfind k m1 = mfind k m2) -> m1 = m2.
  Proof.
    revert m2; induction m1 as [|[k v] m1 IH]; intros [|[k2 v2] m2] S1 S2 H.
    - reflexivity.
    - specialize (H k2); cbn in H; rewrite kcmp_refl in H; discriminate.
    - specialize (H k); cbn in H; rewrite kcmp_refl in H; discriminate.
    - destruct (msorted_inv _ _ _ S1) as [S1' L1].
      destruct (msorted_inv _ _ _ S2) as [S2' L2].
      assert (k = k2) as <-.
      { destruct (kcmp k k2) eqn:E.
        - now apply kcmp_eq.
        - specialize (H k); cbn in H; rewrite kcmp_refl, E in H; discriminate.
        - apply kcmp_gt in E. specialize (H k2); cbn in H; rewrite kcmp_refl, E in H; discriminate. }
      assert (v = v2) as <-.
      { specialize (H k); cbn in H; rewrite !kcmp_refl in H; congruence. }
      f_equal. apply IH; try assumption.
      intro k0. destruct (kcmp k0 k) eqn:E.
      + apply kcmp_eq in E; subst.
        rewrite (proj2 (mfind_None_iff k m1 S1')), (proj2 (mfind_None_iff k m2 S2'));
          [reflexivity| |]; intro Hin; [apply L2 in Hin|apply L1 in Hin]; now apply klt_irrefl in Hin.
      + rewrite (mfind_None_lt k0 m1), (mfind_None_lt k0 m2); auto;
          intros k' Hk'; eapply klt_trans; eauto.
      + specialize (H k0); cbn in H; rewrite E in H; exact H.
  Qed.
End Map.

Section MapMap.
  Context {K V W : Type} {KO : KeyOrd K}.

  (** for (auto &it : m) it.second = f(it.second), possibly at another type *)
  Definition mmap (f : V -> W) (m : list (K * V)) : list (K * W) :=
    map (fun kv => (fst kv, f (snd kv))) m.

  Lemma mmap_keys f m : map fst (mmap f m) = map fst m.
  Proof. unfold mmap; rewrite map_map; reflexivity. Qed.

  Lemma mfind_mmap f k m : mfind k (mmap f m) = option_map f (mfind k m).
  Proof.
    induction m as [|[k' v] m IH]; cbn; [reflexivity|].
    destruct (kcmp k k'); cbn; auto.
  Qed.

  Lemma msorted_mmap f m : msorted (mmap f m) <-> msorted m.
  Proof. unfold msorted. now rewrite mmap_keys. Qed.
End MapMap.
