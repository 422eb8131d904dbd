(** * Mem2Demo: a*b + a*c, for the theorems about the memory used by UReal2 *)

From Coq Require Import List ZArith Bool Sorted Lia Reals Lra.
From Verif Require Import Base Num Map HessGrad Moments CheckMoments UReal UReal2 World World2 URealProofs2 URealProofs HessProofs U2Facts
  U2World U2Values SpecU2 SpecU2Run SpecU2Mixed U2Proofs U2Mixed SpecOrder Alloc SpecAlloc Alloc2 SpecAlloc2 SpecMem2 Mem2Proofs
  Demo Demo2 Demo2Mixed.
Import ListNotations.

Lemma size_lists (x : ureal2 RN) l l' : NoDup l -> NoDup l' -> (forall i, In i l <-> j_dep (jet_of x) i) ->
  (forall i j, In (i, j) l' <-> recorded x i j) -> size_of x (length l) (length l').
Proof. intros. split; [exists l|exists l']; auto. Qed.
Lemma alloc_known eig L c w d p : legal2 (demo3 ++ [c]) -> run2 eig w2_init demo3 = Ret w -> computes2 c = true ->
  snd (exec2 eig w c) = Ret tt -> size_of (w2_var (fst (exec2 eig w c)) (writes2 c)) d p -> allocates2 eig L w c (d + p).
Proof.
  intros Lg E Hc HS Sz. destruct (C88_allocations_proof eig L demo3 c w Lg E) as (A & _). destruct (A Hc HS) as (d' & p' & Sz' & _ & Al).
  destruct (reach_step eig demo3 c w Lg E) as (env & W & HN & HT & B). destruct (gen_exec2 Rltb_00 eig env w c W HN HT B) as (env1 & W1 & _).
  assert (OK : hg_ok (u2hg (w2_var (fst (exec2 eig w c)) (writes2 c)))) by apply W1.
  apply (size_ok _ _ _ OK) in Sz as [-> ->]. apply (size_ok _ _ _ OK) in Sz' as [-> ->]. exact Al.
Qed.

Lemma demo3_legal1 c : nary_ok2 c -> thr_number c -> legal2 (demo3 ++ [c]).
Proof.
  intros A B. destruct demo3_legal as (L1 & L2 & _). split; [apply Forall_app; split; auto|]. split; [apply Forall_app; split; auto|].
  apply max_new_ge. rewrite count_new2_app. unfold count_new2 at 2. cbn [filter]. destruct (is_new2 c); cbn; lia.
Qed.
Lemma frame2 eig (w : world2 RN) c u : (match c with E1 _ => True | _ => writes2 c <> u end) -> w2_var (fst (exec2 eig w c)) u = w2_var w u.
Proof.
  intro H.
  assert (A : forall (w0 : world2 RN) v o, v <> u -> w2_var (fst (assign2 w0 v o)) u = w2_var w0 u).
  { intros w0 v o NE. destruct o; cbn [assign2 fst w2_var]; try reflexivity. unfold upd2. destruct (Nat.eqb_spec u v); [congruence|reflexivity]. }
  destruct c; cbn [exec2 writes2] in *; try (now apply A).
  - destruct (exec (w2_w w) c). reflexivity.
  - destruct (u2_new eig (w2_last w) n m thr). now rewrite A.
  - destruct (u2_new_std eig (w2_last w) n s m thr). now rewrite A.
Qed.
Lemma frame_run eig u cs : forall (w w' : world2 RN), List.Forall (fun c => match c with E1 _ => True | _ => writes2 c <> u end) cs ->
  run2 eig w cs = Ret w' -> w2_var w' u = w2_var w u.
Proof.
  induction cs as [|c cs IH]; intros w w' F E; [injection E as <-; reflexivity|]. inversion F; subst.
  cbn [run2] in E. assert (Q := frame2 eig w c u ltac:(assumption)). destruct (exec2 eig w c) as [w1 o]. cbn [fst] in Q.
  destruct o; try discriminate; rewrite <- Q; now apply IH.
Qed.
Ltac dup := repeat constructor; cbn; intuition congruence.

Lemma mem2_case : exists w, run2 no_eig w2_init demo3 = Ret w /\ reachable2 no_eig w /\
  size_of (w2_var w 5%nat) 3 2 /\ size_of (w2_var w 6%nat) 0 0 /\
  reuses (lib_diag (libstdcxx RN)) /\ reuses (lib_tri (libstdcxx RN)) /\
  legal2 (demo3 ++ [EMul 6%nat 3%nat 5%nat]) /\ allocates2 no_eig (libstdcxx RN) w (EMul 6%nat 3%nat 5%nat) 6 /\
  allocates2 no_eig (libstdcxx RN) w (EUnary 6%nat 5%nat (fun _ => 1) (fun _ => 1) (fun _ => 1))%R 4 /\
  allocates2 no_eig (libstdcxx RN) w (ECopy 6%nat 5%nat) 5 /\
  (legal2 demo2 /\ List.Forall sums_only demo2) /\ (legal2 (firstn 5 demo3) /\ List.Forall products_only (firstn 5 demo3)).
Proof.
  destruct demo3_world as (w & E & D3 & T3 & D5 & T5). exists w. split; [exact E|].
  assert (HR : reachable2 no_eig w) by (exists demo3; split; [exact demo3_legal|exact E]). split; [exact HR|].
  assert (X3 : forall i, j_dep (jet_of (w2_var w 3%nat)) i <-> In i [1; 2]%Z) by (intro i; cbn [jet_of j_dep]; now rewrite D3).
  assert (X5 : forall i, j_dep (jet_of (w2_var w 5%nat)) i <-> In i [1; 2; 3]%Z) by (intro i; cbn [jet_of j_dep]; now rewrite D5).
  assert (P3 : forall i j, recorded (w2_var w 3%nat) i j <-> In (i, j) [(1, 2)]%Z) by (intros i j; unfold recorded; now rewrite T3).
  assert (P5 : forall i j, recorded (w2_var w 5%nat) i j <-> In (i, j) [(1, 2); (1, 3)]%Z) by (intros i j; unfold recorded; now rewrite T5).
  destruct (reach_ok no_eig w HR 3%nat) as [OK3 K3], (reach_ok no_eig w HR 5%nat) as [OK5 K5].
  assert (S5 : size_of (w2_var w 5%nat) 3 2).
  { apply (size_lists _ [1; 2; 3]%Z [(1, 2); (1, 3)]%Z); [dup|dup| |]; intros; symmetry; auto. }
  assert (V6 : w2_var w 6%nat = u2_default).
  { rewrite (frame_run no_eig 6%nat demo3 w2_init w); [reflexivity| |exact E]. repeat constructor; discriminate. }
  assert (S6 : size_of (w2_var w 6%nat) 0 0).
  { rewrite V6. apply (size_lists _ [] []); [constructor|constructor| |]; intros; cbn; reflexivity. }
  split; [exact S5|]. split; [exact S6|]. split; [intros m m'; reflexivity|]. split; [intros m m'; reflexivity|].
  split; [now apply demo3_legal1|].
  assert (Rd : forall v x, w2_var (mkW2 (w2_w w) (upd2 (w2_var w) v x)) v = x) by (intros; cbn; unfold upd2; now rewrite Nat.eqb_refl).
  split; [|split; [|split]].
  - destruct (binary_result (w2_var w 3%nat) (w2_var w 5%nat) (nmul (u2mu (w2_var w 3%nat)) (u2mu (w2_var w 5%nat))) (u2mu (w2_var w 5%nat)) (u2mu (w2_var w 3%nat))
      (nofZ 0) (nofZ 0) (nofZ 1) OK3 OK5 K3 K5) as (r & Er & _).
    assert (Em : u2_mul (w2_var w 3%nat) (w2_var w 5%nat) = Ret (mkU2 r (nmul (u2mu (w2_var w 3%nat)) (u2mu (w2_var w 5%nat))))) by exact Er.
    apply (alloc_known no_eig (libstdcxx RN) _ w 3%nat 3%nat); [now apply demo3_legal1|exact E|reflexivity| |]; cbn [exec2]; rewrite Em; cbn [assign2 fst snd writes2]; [reflexivity|].
    rewrite Rd. apply (size_lists _ [1; 2; 3]%Z [(1, 2); (1, 3); (2, 3)]%Z); [dup|dup| |].
    + intro i. rewrite (binary_deps _ _ _ _ _ _ _ _ _ OK3 OK5 K3 K5 Er), X3, X5. cbn. tauto.
    + intros i j. rewrite (binary_pairs _ _ _ _ _ _ _ _ _ OK3 OK5 K3 K5 Er). unfold keeps, crossed. rewrite P3, P5, !X3, !X5. cbn [In].
      assert (Z0 : @nofZ RN 0 = 0%R) by reflexivity. assert (Z1 : @nofZ RN 1 <> 0%R) by (change (1 <> 0)%R; lra).
      split.
      * intros [H|[H|[H|[]]]]; injection H as <- <-; [left; left; auto|right; left; left; auto|right; right; split; [exact Z1|]; split; [lia|]; left; split; auto].
      * intros [[[_ H]|[H _]]|[[[_ H]|[H _]]|(_ & L & H)]]; [tauto|congruence|tauto|congruence|].
        destruct H as [[[<-|[<-|[]]] [<-|[<-|[<-|[]]]]]|[[<-|[<-|[]]] [<-|[<-|[<-|[]]]]]]; try lia; auto.
  - destruct (unary_result (w2_var w 5%nat) 1%R 1%R 1%R OK5) as (r & Er & _).
    apply (alloc_known no_eig (libstdcxx RN) _ w 3%nat 1%nat); [now apply demo3_legal1|exact E|reflexivity| |]; cbn [exec2]; cbv beta zeta; rewrite Er; cbn [assign2 fst snd writes2]; [reflexivity|].
    rewrite Rd. apply (size_lists _ [1; 2; 3]%Z [(1, 2)]%Z); [dup|dup| |].
    + intro i. rewrite (unary_deps _ _ _ _ _ OK5 Er), X5. reflexivity.
    + intros i j. rewrite (unary_pairs _ _ _ _ _ OK5 Er). unfold keeps, follows. rewrite !X5. split.
      * intros [H|[]]. injection H as <- <-. right. split; [lra|]. split; [|exists 2%Z; apply P5; now left].
        split; [now left|]. split; [right; now left|]. split; [lia|]. intros k _. lia.
      * intros [[H _]|(_ & (Hi & Hj & L & Hk) & k & Hr)]; [lra|]. apply P5 in Hr. destruct Hr as [Hr|[Hr|[]]]; injection Hr as <- <-; left;
          (destruct Hj as [<-|[<-|[<-|[]]]]; [lia|reflexivity|]; exfalso; apply (Hk 2%Z); [apply X5; right; now left|lia]).
  - destruct (C88_allocations_proof no_eig (libstdcxx RN) demo3 (ECopy 6%nat 5%nat) w) as (_ & _ & A); [now apply demo3_legal1|exact E|].
    apply (A 6%nat 5%nat 0%nat 0%nat 3%nat 2%nat); auto; intros m m'; reflexivity.
  - split; [split; [exact demo2_legal|repeat constructor]|]. split; [|repeat constructor].
    split; [repeat constructor|]. split; [|apply max_new_ge; cbn; lia]. destruct demo3_legal as (_ & T & _).
    unfold demo3 in T. cbn [firstn demo3]. repeat match goal with H : List.Forall _ (_ :: _) |- _ => inversion H; clear H; subst end. repeat constructor; assumption.
Qed.
