(** * ThreadCalls2Proofs: threads that use variables of both types *)

From Coq Require Import List ZArith Bool Lia Relation_Operators.
From Verif Require Import Base Num Map UReal World HessGrad Moments CheckMoments UReal2 World2 SpecOrder ThreadCalls ThreadCallsProofs Move MoveProofs ThreadCalls2.
Import ListNotations.

Inductive var : Type := V1 (v : nat) | V2 (v : nat).
Definition var_of (k : cell) : var := match k with C1 v _ => V1 v | C2 v _ => V2 v end.

Section Gen.
  Context {N : Num}.
  Variable eig : list (list N) -> option (list N).

  Arguments upd {N} f v x u : simpl never.
  Arguments upd2 {N} f v x u : simpl never.
  Definition targetv (c : call2 N) : var := match c with E1 c => V1 (writes c) | c => V2 (writes2 c) end.
  Definition readsv (c : call2 N) : list var := match c with E1 c => map V1 (reads c) | c => map V2 (reads2 c) end.
  Definition unrelatedv (a b : call2 N) : Prop :=
    targetv a <> targetv b /\ ~ In (targetv a) (readsv b) /\ ~ In (targetv b) (readsv a).

  Lemma in_V1 v l : In (V1 v) (map V1 l) <-> In v l.
  Proof. rewrite in_map_iff. split; [intros (x & [= ->] & H); exact H|intro H; now exists v]. Qed.
  Lemma in_V2 v l : In (V2 v) (map V2 l) <-> In v l.
  Proof. rewrite in_map_iff. split; [intros (x & [= ->] & H); exact H|intro H; now exists v]. Qed.
  Lemma not_V12 v l : ~ In (V1 v) (map V2 l).
  Proof. rewrite in_map_iff. intros (x & E & _). discriminate. Qed.
  Lemma not_V21 v l : ~ In (V2 v) (map V1 l).
  Proof. rewrite in_map_iff. intros (x & E & _). discriminate. Qed.

  Lemma unrelated2_v a b : unrelated2 a b -> unrelatedv a b.
  Proof.
    intro U. assert (X : forall x y : nat, x <> y -> V1 x <> V1 y) by congruence.
    assert (Y : forall x y : nat, x <> y -> V2 x <> V2 y) by congruence.
    destruct a, b; unfold unrelatedv; cbn [targetv readsv];
      try (split; [discriminate|]; split; first [apply not_V12|apply not_V21]);
      destruct U as (A & B & C); (split; [auto|]); rewrite ?in_V1, ?in_V2; split; assumption.
  Qed.

  (** ** Locations *)
  Definition same_field2 (f : field2) (x y : ureal2 N) : Prop :=
    match f with
    | Fdiag => diagmap (u2hg x) = diagmap (u2hg y)
    | Ftri => trimap (u2hg x) = trimap (u2hg y)
    | Fmean => u2mu x = u2mu y
    end.
  Definition same_cell (k : cell) (m m' : mem N) : Prop :=
    match k with C1 v f => same_field f (mem1 m v) (mem1 m' v) | C2 v f => same_field2 f (mem2 m v) (mem2 m' v) end.

  Lemma same_cell_refl k m : same_cell k m m.
  Proof. destruct k as [v []|v []]; reflexivity. Qed.
  Lemma same_cell_sym k m m' : same_cell k m m' -> same_cell k m' m.
  Proof. destruct k as [v []|v []]; cbn; congruence. Qed.
  Lemma same_cell_trans k m m' m'' : same_cell k m m' -> same_cell k m' m'' -> same_cell k m m''.
  Proof. destruct k as [v []|v []]; cbn; congruence. Qed.
  Lemma same_fields2 (x y : ureal2 N) : (forall f, same_field2 f x y) -> x = y.
  Proof.
    intro H. pose proof (H Fdiag) as A. pose proof (H Ftri) as B. pose proof (H Fmean) as C. cbn in A, B, C.
    destruct x as [[] ], y as [[] ]. cbn in *. now subst.
  Qed.
  Lemma same_cells1 m m' v : (forall f, same_cell (C1 v f) m m') -> mem1 m v = mem1 m' v.
  Proof. intro H. apply same_fields. exact H. Qed.
  Lemma same_cells2 m m' v : (forall f, same_cell (C2 v f) m m') -> mem2 m v = mem2 m' v.
  Proof. intro H. apply same_fields2. exact H. Qed.

  Lemma upd2_same (m : nat -> ureal2 N) v x : upd2 m v x v = x.
  Proof. unfold upd2. now rewrite Nat.eqb_refl. Qed.
  Lemma upd2_other (m : nat -> ureal2 N) v x u : u <> v -> upd2 m v x u = m u.
  Proof. intro H. unfold upd2. destruct (Nat.eqb_spec u v); [contradiction|reflexivity]. Qed.

  Lemma copy_same k src dst : same_cell k (copy_cell k src dst) src.
  Proof.
    destruct k as [v f|v f]; cbn; [rewrite upd_same; apply put_same|rewrite upd2_same; destruct f; reflexivity].
  Qed.
  Lemma copy_other k k' src dst : k <> k' -> same_cell k' (copy_cell k src dst) dst.
  Proof.
    destruct k as [v f|v f], k' as [u g|u g]; intro H; cbn; try (destruct g; reflexivity).
    - destruct (Nat.eq_dec u v) as [->|Nu]; [rewrite upd_same; apply put_other; congruence|rewrite upd_other by exact Nu; apply same_field_refl].
    - destruct (Nat.eq_dec u v) as [->|Nu]; [|rewrite upd2_other by exact Nu; now destruct g].
      rewrite upd2_same. destruct f, g; try reflexivity; congruence.
  Qed.
  Lemma cell_dec (k k' : cell) : {k = k'} + {k <> k'}.
  Proof. repeat decide equality. Qed.
  Lemma var_dec (k k' : var) : {k = k'} + {k <> k'}.
  Proof. repeat decide equality. Qed.

  Lemma in_cells1 k xs : In k (flat_map cells1 xs) <-> In (var_of k) (map V1 xs).
  Proof.
    rewrite in_flat_map. split.
    - intros (x & Hx & Hk). unfold cells1 in Hk. apply in_map_iff in Hk as (f & <- & _). now apply in_V1.
    - destruct k as [v f|v f]; cbn; [|intro H; now apply not_V21 in H]. rewrite in_V1. intro H. exists v. split; [exact H|].
      destruct f; cbn; tauto.
  Qed.
  Lemma in_cells2 k xs : In k (flat_map cells2 xs) <-> In (var_of k) (map V2 xs).
  Proof.
    rewrite in_flat_map. split.
    - intros (x & Hx & Hk). destruct Hk as [<-|[<-|[<-|[]]]]; now apply in_V2.
    - destruct k as [v f|v f]; cbn; [intro H; now apply not_V12 in H|]. rewrite in_V2. intro H. exists v. split; [exact H|].
      destruct f; cbn; auto.
  Qed.
  Lemma in_cells_read (c : call2 N) k : In k (cells_read c) <-> In (var_of k) (readsv c).
  Proof. destruct c; try apply in_cells2. apply in_cells1. Qed.

  Lemma written_target (c : call2 N) buf o k : In k (cells_written c buf o) -> var_of k = targetv c.
  Proof.
    destruct c; cbn [cells_written targetv]; [intro H; apply in_map_iff in H as (f & <- & _); reflexivity|..];
      destruct o; try (intros []; fail); intros [<-|[<-|[<-|[]]]]; reflexivity.
  Qed.
  Lemma written_all2 (c : call2 N) buf k : only_u2 c -> var_of k = targetv c -> In k (cells_written c buf (Ret tt)).
  Proof.
    destruct k as [v f|v f]; destruct c; intros O E; try destruct O; cbn in E; try discriminate; injection E as ->; destruct f; cbn; auto.
  Qed.

  (** ** Effects of a call *)
  Lemma exec2_counter (w : world2 N) c : w2_last (fst (exec2 eig w c)) = counter_after eig (w2_last w) c.
  Proof.
    assert (A : forall w v o, w2_last (fst (assign2 (N := N) w v o)) = w2_last w) by (intros w0 v [| | |]; reflexivity).
    destruct c; cbn [exec2 counter_after]; try apply A.
    - destruct (exec (w2_w w) c) as [w1 o] eqn:E. pose proof (proj1 (ThreadCallsProofs.exec_shape (w2_w w) c)) as H. rewrite E in H. exact H.
    - destruct (u2_new eig (w2_last w) n m thr) as [l o]. rewrite A. reflexivity.
    - destruct (u2_new_std eig (w2_last w) n s m thr) as [l o]. rewrite A. reflexivity.
  Qed.

  Lemma assign2_frame (w : world2 N) v o k : var_of k <> V2 v -> same_cell k (mem_of (fst (assign2 w v o))) (mem_of w).
  Proof.
    intro H. destruct o; try apply same_cell_refl. destruct k as [u f|u f]; cbn; [apply same_field_refl|].
    rewrite upd2_other by (cbn in H; congruence). now destruct f.
  Qed.
  Lemma exec2_keeps (w : world2 N) c k : var_of k <> targetv c -> same_cell k (mem_of (fst (exec2 eig w c))) (mem_of w).
  Proof.
    destruct c as [c| | | | | | | | | | | |]; intro H.
    { cbn [exec2]. destruct (exec (w2_w w) c) as [w1 o] eqn:E.
      destruct (ThreadCallsProofs.exec_shape (w2_w w) c) as (_ & F & _). rewrite E in F. cbn [fst] in *.
      destruct k as [u f|u f]; cbn; [|now destruct f]. rewrite F; [apply same_field_refl|]. cbn in H. congruence. }
    all: match goal with |- context [exec2 _ _ ?c] =>
      destruct (exec2_shape eig w w c I eq_refl) as (l & o & E & _); [reflexivity|]; rewrite E;
      exact (assign2_frame (with_last w l) (writes2 c) o k H) end.
  Qed.

  Lemma reads_mem1 (c : call N) buf g : (forall k, In (var_of k) (readsv (E1 c)) -> same_cell k buf g) ->
    forall u, In u (reads c) -> mem1 buf u = mem1 g u.
  Proof. intros H u Hu. apply same_cells1. intro f. apply H. cbn. now apply in_V1. Qed.
  Lemma reads_mem2 (c : call2 N) buf g : only_u2 c -> (forall k, In (var_of k) (readsv c) -> same_cell k buf g) ->
    forall u, In u (reads2 c) -> mem2 buf u = mem2 g u.
  Proof.
    intros O H u Hu. apply same_cells2. intro f. apply H. destruct c; try destruct O; cbn [readsv var_of]; now apply in_V2.
  Qed.

  Lemma exec2_E1 l m c : exec2 eig (with_counter l m) (E1 c) =
    (mkW2 (fst (exec (mkW l (mem1 m)) c)) (mem2 m), snd (exec (mkW l (mem1 m)) c)).
  Proof. cbn [exec2 with_counter w2_w w2_var]. destruct (exec (mkW l (mem1 m)) c); reflexivity. Qed.

  Lemma exec2_outcome l buf g c : (forall k, In (var_of k) (readsv c) -> same_cell k buf g) ->
    snd (exec2 eig (with_counter l buf) c) = snd (exec2 eig (with_counter l g) c).
  Proof.
    intro H. destruct c as [c| | | | | | | | | | | |].
    { rewrite !exec2_E1. cbn [snd]. exact (proj2 (value_local l (mem1 buf) (mem1 g) c (reads_mem1 c buf g H))). }
    all: match goal with |- context [exec2 _ _ ?c] =>
      destruct (exec2_shape eig (with_counter l buf) (with_counter l g) c I eq_refl (reads_mem2 c buf g I H)) as (l' & o & E & E');
      rewrite E, E'; destruct o; reflexivity end.
  Qed.

  Lemma exec2_written l buf g c k : (forall k, In (var_of k) (readsv c) -> same_cell k buf g) ->
    In k (cells_written c buf (snd (exec2 eig (with_counter l buf) c))) ->
    same_cell k (mem_of (fst (exec2 eig (with_counter l buf) c))) (mem_of (fst (exec2 eig (with_counter l g) c))).
  Proof.
    intros H Hk. pose proof (written_target _ _ _ _ Hk) as T. destruct c as [c| | | | | | | | | | | |].
    { rewrite !exec2_E1 in *. cbn [fst snd cells_written] in *. apply in_map_iff in Hk as (f & <- & Hf).
      destruct (value_local l (mem1 buf) (mem1 g) c (reads_mem1 c buf g H)) as (V & O).
      cbn. unfold value_of in V. rewrite <- O in V. destruct (snd (exec (mkW l (mem1 buf)) c)); try contradiction Hf.
      injection V as V. rewrite V. apply same_field_refl. }
    all: match type of Hk with In _ (cells_written ?c _ _) =>
      destruct (exec2_shape eig (with_counter l buf) (with_counter l g) c I eq_refl (reads_mem2 c buf g I H)) as (l' & o & E & E');
      rewrite E in Hk; rewrite E, E'; destruct o; try contradiction Hk;
      destruct k as [ku kf|ku kf]; [discriminate T|]; cbn [targetv var_of] in T; injection T as ->;
      cbn; rewrite !upd2_same; now destruct kf end.
  Qed.

  Lemma exec2_unwritten l buf g c k : (forall k, In (var_of k) (readsv c) -> same_cell k buf g) -> var_of k = targetv c ->
    ~ In k (cells_written c buf (snd (exec2 eig (with_counter l buf) c))) ->
    same_cell k g (mem_of (fst (exec2 eig (with_counter l g) c))).
  Proof.
    intros H T Hk. destruct c as [c| | | | | | | | | | | |].
    { rewrite !exec2_E1 in *. cbn [fst snd cells_written] in *. destruct k as [u f|u f]; [|discriminate T]. cbn in T. injection T as ->.
      assert (Hf : ~ In f (write_fields c (mem1 buf) (snd (exec (mkW l (mem1 buf)) c)))) by (intro Y; apply Hk; now apply in_map).
      pose proof (reads_mem1 c buf g H) as R. destruct (value_local l (mem1 buf) (mem1 g) c R) as (V & O).
      pose proof (write_fields_rest c l (mem1 buf) f Hf (mem1 g) R O) as Q.
      destruct (ThreadCallsProofs.exec_shape (mkW l (mem1 g)) c) as (_ & _ & X). cbn [w_last w_var] in X.
      cbn. rewrite X. exact Q. }
    all: match type of Hk with context [cells_written ?c _ _] =>
      destruct (exec2_shape eig (with_counter l buf) (with_counter l g) c I eq_refl (reads_mem2 c buf g I H)) as (l' & o & E & E');
      rewrite E in Hk; rewrite E'; destruct o; try (destruct k as [ku kf|ku kf]; [discriminate T|now destruct kf]);
      exfalso; apply Hk; apply (written_all2 c buf k I T) end.
  Qed.
End Gen.
