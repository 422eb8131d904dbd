(** * OrderProofs: the order of unrelated calls does not matter (UReal) *)

From Coq Require Import List ZArith Bool Reals Lra Lia Permutation.
From Verif Require Import Base Num Map UReal World Sums SpecLin SpecObs URealFacts URealR URealProofs SpecOrder.
Import ListNotations.
Local Open Scope R_scope.

(** ** Renamings *)
Lemma renaming_id last : renaming last (fun i => i).
Proof. split; [exists (fun i => i); intro; split; reflexivity|reflexivity]. Qed.
Lemma renaming_comp last p p' : renaming last p -> renaming last p' -> renaming last (fun i => p' (p i)).
Proof.
  intros ((q & Q) & F) ((q' & Q') & F'). split.
  - exists (fun i => q (q' i)). intro i. destruct (Q (q' i)) as [A _]. destruct (Q' i) as [B _].
    destruct (Q' (p i)) as [_ C]. destruct (Q i) as [_ D]. split; [now rewrite A|now rewrite C].
  - intros i H. rewrite (F i H). now apply F'.
Qed.
Lemma renaming_mono last last' p : (last <= last')%Z -> renaming last p -> renaming last' p.
Proof. intros H (Q & F). split; [exact Q|]. intros i Hi. apply F. lia. Qed.
Lemma renaming_range last p i : renaming last p -> (1 <= i <= last)%Z <-> (1 <= p i <= last)%Z.
Proof.
  intros ((q & Q) & F). assert (Fq : forall i, (i < 1 \/ last < i)%Z -> q i = i).
  { intros j Hj. rewrite <- (F j Hj) at 1. apply Q. }
  split; intro H.
  - destruct (Z_lt_le_dec (p i) 1); [|destruct (Z_lt_le_dec last (p i))]; [| |lia];
      exfalso; (assert (E : q (p i) = p i) by (apply Fq; lia)); destruct (Q i) as [_ D]; rewrite D in E; lia.
  - destruct (Z_lt_le_dec i 1); [|destruct (Z_lt_le_dec last i)]; [| |lia]; rewrite (F i) in H by lia; lia.
Qed.
Lemma renaming_ids last p : renaming last p -> Permutation (map p (ids last)) (ids last).
Proof.
  intro H. assert (H' := H). destruct H' as ((q & Q) & F). apply NoDup_Permutation.
  - apply FinFun.Injective_map_NoDup; [|apply ids_NoDup]. intros a b E. rewrite <- (proj2 (Q a)), E. apply Q.
  - apply ids_NoDup.
  - intro i. rewrite in_map_iff. split.
    + intros (j & <- & Hj). apply ids_In. apply ids_In in Hj. now apply (renaming_range last p j).
    + intro Hi. exists (q i). split; [apply Q|]. apply ids_In. apply (renaming_range last p _ H).
      rewrite (proj1 (Q i)). now apply ids_In.
Qed.
Lemma renaming_sum last p f : renaming last p -> sum_ids last (fun i => f (p i)) = sum_ids last f.
Proof. intro H. unfold sum_ids. rewrite <- (rsum_map p (ids last) f). apply rsum_perm, renaming_ids, H. Qed.

Definition transp (a b i : Z) : Z := if (i =? a)%Z then b else if (i =? b)%Z then a else i.
Lemma transp_inv a b i : transp a b (transp a b i) = i.
Proof.
  unfold transp. destruct (Z.eqb_spec i a) as [->|Ha].
  - rewrite Z.eqb_refl. destruct (Z.eqb_spec b a); congruence.
  - destruct (Z.eqb_spec i b) as [->|Hb].
    + now rewrite Z.eqb_refl.
    + destruct (Z.eqb_spec i a); [congruence|]. destruct (Z.eqb_spec i b); congruence.
Qed.
Lemma renaming_transp last : (0 <= last)%Z -> renaming (last + 2) (transp (last + 1) (last + 2)).
Proof.
  intro H. split.
  - exists (transp (last + 1) (last + 2)). intro i. split; apply transp_inv.
  - intros i Hi. unfold transp. destruct (Z.eqb_spec i (last + 1)); [lia|]. destruct (Z.eqb_spec i (last + 2)); [lia|reflexivity].
Qed.

(** ** Renaming the ids of a state *)
Definition lin_ren (p : Z -> Z) (a b : lin) : Prop :=
  l_mean a = l_mean b /\ (forall i, l_dep a i <-> l_dep b (p i)) /\ (forall i, l_coef a i = l_coef b (p i)).
Definition bounded (last : Z) (a : lin) : Prop := forall i, (i < 1 \/ last < i)%Z -> ~ l_dep a i /\ l_coef a i = 0.
Definition sren (p : Z -> Z) (w w' : sworld) : Prop :=
  s_last w = s_last w' /\ renaming (s_last w) p /\ forall v, lin_ren p (s_var w v) (s_var w' v).

Lemma lin_ren_number p n : lin_ren p (lin_number n) (lin_number n).
Proof. split; [reflexivity|]. split; [reflexivity|reflexivity]. Qed.
Lemma lin_ren_unary p x x' m d : lin_ren p x x' -> lin_ren p (lin_unary x m d) (lin_unary x' m d).
Proof. intros (M & D & C). split; [reflexivity|]. split; [exact D|]. intro i. cbn. now rewrite C. Qed.
Lemma lin_ren_binary p x x' y y' m dx dy : lin_ren p x x' -> lin_ren p y y' ->
  lin_ren p (lin_binary x y m dx dy) (lin_binary x' y' m dx dy).
Proof.
  intros (M & D & C) (M' & D' & C'). split; [reflexivity|]. split; [intro i; cbn; now rewrite D, D'|].
  intro i. cbn. now rewrite C, C'.
Qed.
Lemma lin_ren_nary p (xs : list nat) (g g' : nat -> lin) ds m : (forall v, lin_ren p (g v) (g' v)) ->
  lin_ren p (lin_nary (combine (map g xs) ds) m) (lin_nary (combine (map g' xs) ds) m).
Proof.
  intro H. split; [reflexivity|]. cbn [lin_nary l_dep l_coef]. split.
  - intro i. revert ds. induction xs as [|x xs IH]; intros [|d ds];
      [cbn; split; intros (xd & [] & _)|cbn; split; intros (xd & [] & _)|cbn; split; intros (xd & [] & _)|cbn].
    split; intros (xd & [<-|Hin] & Hd).
    + exists (g' x, d). split; [now left|]. cbn. now apply H.
    + destruct (proj1 (IH ds)) as (xd' & A & B); [now exists xd|]. exists xd'. split; [now right|exact B].
    + exists (g x, d). split; [now left|]. cbn. now apply H.
    + destruct (proj2 (IH ds)) as (xd' & A & B); [now exists xd|]. exists xd'. split; [now right|exact B].
  - intro i. revert ds. induction xs as [|x xs IH]; intros [|d ds]; cbn; try reflexivity.
    rewrite IH. destruct (H x) as (_ & _ & C). now rewrite C.
Qed.

Lemma sren_set p w w' v a b : sren p w w' -> lin_ren p a b -> sren p (s_set w v a) (s_set w' v b).
Proof.
  intros (L & P & H) Hab. split; [exact L|]. split; [exact P|]. intro u. cbn. destruct (Nat.eqb u v); auto.
Qed.

Lemma spec_exec_ren p w w' c : (0 <= s_last w)%Z -> sren p w w' -> sren p (spec_exec w c) (spec_exec w' c).
Proof.
  intros Hl HS. destruct HS as (L & P & H) eqn:EHS. assert (HS' := HS). clear EHS HS.
  assert (M : forall v, l_mean (s_var w v) = l_mean (s_var w' v)) by (intro; apply H).
  assert (MM : forall xs, map (fun v => l_mean (s_var w v)) xs = map (fun v => l_mean (s_var w' v)) xs).
  { intro xs. apply map_ext. exact M. }
  destruct c; cbn [spec_exec]; rewrite <- ?M, <- ?MM;
    try (apply sren_set; [exact HS'|];
         try apply lin_ren_number; try apply lin_ren_unary; try apply lin_ren_binary; try apply H;
         try (apply lin_ren_nary; exact H)); try exact HS'.
  - (* CNew *)
    assert (HS1 : sren p (mkS (s_last w + 1) (s_var w)) (mkS (s_last w' + 1) (s_var w'))).
    { split; [cbn; congruence|]. split; [|exact H]. cbn. apply (renaming_mono (s_last w)); [lia|exact P]. }
    destruct (Rlt_dec s 0); [exact HS1|]. apply sren_set; [exact HS1|]. rewrite <- L.
    assert (Fx : forall i, (i = s_last w + 1)%Z <-> (p i = s_last w + 1)%Z).
    { assert (E : p (s_last w + 1)%Z = (s_last w + 1)%Z) by (apply P; lia).
      intro i. split; [intros ->; exact E|]. intro Hi. destruct P as ((q & Q) & _).
      rewrite <- (proj2 (Q i)), Hi. rewrite <- E at 1. apply Q. }
    split; [reflexivity|]. cbn [lin_fresh l_dep l_coef]. split; [exact Fx|]. intro i.
    destruct (Z.eq_dec i (s_last w + 1)), (Z.eq_dec (p i) (s_last w + 1)); try reflexivity; exfalso; apply Fx in e; auto.
  - split; [reflexivity|]. split; cbn; apply H.
Qed.

Lemma spec_last_mono w c : (s_last w <= s_last (spec_exec w c))%Z.
Proof. destruct c; cbn; try lia. destruct (Rlt_dec s 0); cbn; lia. Qed.
Lemma spec_run_ren p cs : forall w w', (0 <= s_last w)%Z -> sren p w w' -> sren p (spec_run w cs) (spec_run w' cs).
Proof.
  induction cs as [|c cs IH]; intros w w' Hl HS; [exact HS|]. cbn [spec_run fold_left]. apply IH.
  - assert (K := spec_last_mono w c). lia.
  - now apply spec_exec_ren.
Qed.
Lemma sren_trans p p' w w' w'' : sren p w w' -> sren p' w' w'' -> sren (fun i => p' (p i)) w w''.
Proof.
  intros (L & P & H) (L' & P' & H'). split; [congruence|]. split; [apply renaming_comp; [exact P|now rewrite L]|].
  intro v. destruct (H v) as (M & D & C), (H' v) as (M' & D' & C'). split; [congruence|].
  split; intro i; [rewrite D; apply D'|rewrite C; apply C'].
Qed.
Lemma sren_refl w : sren (fun i => i) w w.
Proof.
  split; [reflexivity|]. split; [apply renaming_id|]. intro v. split; [reflexivity|]. split; [reflexivity|reflexivity].
Qed.

(** ** Exchanging two unrelated calls *)

(** A call that is not a construction assigns a function of what it reads. *)
Lemma spec_exec_frame w c u : u <> writes c -> s_var (spec_exec w c) u = s_var w u.
Proof.
  intro H. destruct c; cbn in *; try reflexivity;
    try (destruct (Nat.eqb_spec u v); [congruence|reflexivity]).
  destruct (Rlt_dec s 0); [reflexivity|]. cbn. destruct (Nat.eqb_spec u v); [congruence|reflexivity].
Qed.
Lemma spec_exec_last w c : s_last (spec_exec w c) = (s_last w + (if is_new c then 1 else 0))%Z.
Proof. destruct c; cbn; try lia. destruct (Rlt_dec s 0); reflexivity. Qed.
Lemma spec_exec_local w w' c : (forall u, In u (reads c) -> s_var w u = s_var w' u) ->
  s_var w (writes c) = s_var w' (writes c) -> (is_new c = true -> s_last w = s_last w') ->
  s_var (spec_exec w c) (writes c) = s_var (spec_exec w' c) (writes c).
Proof.
  intros H HW HL.
  destruct c; cbn [spec_exec writes s_set s_var reads] in *; rewrite ?Nat.eqb_refl;
    rewrite ?(H x) by (cbn; auto); rewrite ?(H y) by (cbn; auto); rewrite ?(H v) by (cbn; auto); try reflexivity; try exact HW.
  - rewrite (HL eq_refl). destruct (Rlt_dec s 0); [exact HW|]. cbn. now rewrite Nat.eqb_refl.
  - rewrite (map_ext_in _ _ _ H).
    replace (map (fun v0 => l_mean (s_var w v0)) xs) with (map (fun v0 => l_mean (s_var w' v0)) xs)
      by (apply map_ext_in; intros a Ha; now rewrite (H a Ha)). reflexivity.
Qed.

Lemma lin_ren_refl a : lin_ren (fun i => i) a a.
Proof. split; [reflexivity|]. split; [reflexivity|reflexivity]. Qed.
Definition sbounded (w : sworld) : Prop := (0 <= s_last w)%Z /\ forall v, bounded (s_last w) (s_var w v).
Lemma transp_bounded last a : (0 <= last)%Z -> bounded last a -> lin_ren (transp (last + 1) (last + 2)) a a.
Proof.
  intros Hl B. split; [reflexivity|].
  assert (K : forall i, transp (last + 1) (last + 2) i = i \/ ((last < i)%Z /\ (last < transp (last + 1) (last + 2) i)%Z)).
  { intro i. unfold transp. destruct (Z.eqb_spec i (last + 1)); [right; lia|]. destruct (Z.eqb_spec i (last + 2)); [right; lia|]. now left. }
  split; intro i; destruct (K i) as [E|[E1 E2]]; try (now rewrite E).
  - split; intro H; exfalso; [apply (B i) in H|apply (B (transp (last + 1) (last + 2) i)) in H]; auto; lia.
  - destruct (B i) as [_ ->]; [lia|]. destruct (B (transp (last + 1) (last + 2) i)) as [_ ->]; [lia|]. reflexivity.
Qed.
Lemma transp_fresh last n s :
  lin_ren (transp (last + 1) (last + 2)) (lin_fresh (last + 1) n s) (lin_fresh (last + 2) n s) /\
  lin_ren (transp (last + 1) (last + 2)) (lin_fresh (last + 2) n s) (lin_fresh (last + 1) n s).
Proof.
  assert (A : forall i, (i = last + 1)%Z <-> (transp (last + 1) (last + 2) i = last + 2)%Z).
  { intro i. unfold transp. destruct (Z.eqb_spec i (last + 1)); [lia|]. destruct (Z.eqb_spec i (last + 2)); lia. }
  assert (B : forall i, (i = last + 2)%Z <-> (transp (last + 1) (last + 2) i = last + 1)%Z).
  { intro i. unfold transp. destruct (Z.eqb_spec i (last + 1)); [lia|]. destruct (Z.eqb_spec i (last + 2)); lia. }
  split; (split; [reflexivity|]; split; [assumption|]; intro i; cbn).
  - destruct (Z.eq_dec i (last + 1)), (Z.eq_dec (transp (last + 1) (last + 2) i) (last + 2)); try reflexivity; exfalso; apply A in e; auto.
  - destruct (Z.eq_dec i (last + 2)), (Z.eq_dec (transp (last + 1) (last + 2) i) (last + 1)); try reflexivity; exfalso; apply B in e; auto.
Qed.

Lemma spec_swap w a b : sbounded w -> unrelated a b ->
  exists p, sren p (spec_exec (spec_exec w a) b) (spec_exec (spec_exec w b) a).
Proof.
  intros (Hl & B) (U1 & U2 & U3).
  assert (L : s_last (spec_exec (spec_exec w a) b) = s_last (spec_exec (spec_exec w b) a)).
  { rewrite !spec_exec_last. lia. }
  (* both are constructions: the two ids are exchanged; otherwise the states are the same *)
  destruct (is_new a && is_new b) eqn:E.
  - apply andb_true_iff in E as [Ea Eb]. destruct a; try discriminate. destruct b; try discriminate.
    rename v into va, v0 into vb. exists (transp (s_last w + 1) (s_last w + 2)).
    split; [exact L|]. split.
    { rewrite !spec_exec_last. cbn [is_new]. replace (s_last w + 1 + 1)%Z with (s_last w + 2)%Z by lia. now apply renaming_transp. }
    cbn in U1.
    destruct (transp_fresh (s_last w) n s) as [T1 T2]. destruct (transp_fresh (s_last w) n0 s0) as [T3 T4].
    assert (TB : forall v, lin_ren (transp (s_last w + 1) (s_last w + 2)) (s_var w v) (s_var w v)) by (intro; now apply transp_bounded).
    intro u. cbn [spec_exec]. replace (s_last w + 1 + 1)%Z with (s_last w + 2)%Z by lia.
    destruct (Rlt_dec s 0), (Rlt_dec s0 0); cbn; replace (s_last w + 1 + 1)%Z with (s_last w + 2)%Z by lia;
      destruct (Nat.eqb_spec u va), (Nat.eqb_spec u vb); try congruence; auto.
  - exists (fun i => i). split; [exact L|]. split; [apply renaming_id|].
    assert (NN : is_new a = true -> is_new b = true -> False).
    { intros H1 H2. rewrite H1, H2 in E. discriminate. }
    intro u. enough (Q : s_var (spec_exec (spec_exec w a) b) u = s_var (spec_exec (spec_exec w b) a) u) by (rewrite Q; apply lin_ren_refl).
    destruct (Nat.eq_dec u (writes b)) as [->|Hb].
    + rewrite (spec_exec_frame (spec_exec w b) a) by congruence. apply spec_exec_local.
      * intros v Hv. apply spec_exec_frame. intros ->. exact (U2 Hv).
      * apply spec_exec_frame. congruence.
      * intro Hn. rewrite spec_exec_last. destruct (is_new a); [exfalso; now apply NN|apply Z.add_0_r].
    + rewrite spec_exec_frame by exact Hb. destruct (Nat.eq_dec u (writes a)) as [->|Ha].
      * symmetry. apply spec_exec_local.
        -- intros v Hv. apply spec_exec_frame. intros ->. exact (U3 Hv).
        -- apply spec_exec_frame. congruence.
        -- intro Hn. rewrite spec_exec_last. destruct (is_new b); [exfalso; now apply NN|apply Z.add_0_r].
      * rewrite !spec_exec_frame by assumption. reflexivity.
Qed.

(** ** Histories *)
Lemma spec_exec_bounded w c : sbounded w -> sbounded (spec_exec w c).
Proof.
  intros (Hl & B). assert (L := spec_exec_last w c). split; [destruct (is_new c); lia|].
  assert (BM : forall last' a, (s_last w <= last')%Z -> bounded (s_last w) a -> bounded last' a).
  { intros last' a H HB i Hi. apply HB. lia. }
  assert (BN : forall last n, bounded last (lin_number n)) by (intros last n i _; cbn; auto).
  assert (BU : forall last x m d, bounded last x -> bounded last (lin_unary x m d)).
  { intros last x m d H i Hi. destruct (H i Hi) as [D C]. cbn. split; [exact D|]. rewrite C. lra. }
  assert (BB : forall last x y m d e, bounded last x -> bounded last y -> bounded last (lin_binary x y m d e)).
  { intros last x y m d e H H' i Hi. destruct (H i Hi) as [D C], (H' i Hi) as [D' C']. cbn. split; [tauto|]. rewrite C, C'. lra. }
  assert (SS : forall v a, bounded (s_last w) a -> forall u, bounded (s_last (s_set w v a)) (s_var (s_set w v a) u)).
  { intros v a Ha u. cbn. destruct (Nat.eqb u v); auto. }
  destruct c; cbn [spec_exec]; auto; try (apply SS; auto).
  - intro u. destruct (Rlt_dec s 0); cbn.
    + apply BM; [lia|auto].
    + destruct (Nat.eqb u v); [|apply BM; [lia|auto]].
      intros i Hi. cbn. split; [lia|]. destruct (Z.eq_dec i (s_last w + 1)); [lia|reflexivity].
  - intros i Hi. cbn. apply (B x i Hi).
  - (* nary *)
    intros i Hi. cbn [lin_nary l_dep l_coef]. split.
    + intros (xd & Hin & Hd). destruct xd as [a d]. apply in_combine_l in Hin. apply in_map_iff in Hin as (y & <- & _).
      exact (proj1 (B y i Hi) Hd).
    + apply rsum_zero. intros (a, d) Hin. apply in_combine_l in Hin. apply in_map_iff in Hin as (y & <- & _).
      cbn. rewrite (proj2 (B y i Hi)). lra.
Qed.
Lemma spec_run_bounded cs : forall w, sbounded w -> sbounded (spec_run w cs).
Proof. induction cs as [|c cs IH]; intros w H; [exact H|]. cbn. apply IH. now apply spec_exec_bounded. Qed.
Lemma s_init_bounded : sbounded s_init.
Proof. split; [cbn; lia|]. intros v i _. cbn. auto. Qed.

Lemma spec_run_app w l1 l2 : spec_run w (l1 ++ l2) = spec_run (spec_run w l1) l2.
Proof. apply fold_left_app. Qed.

Lemma reordered_spec cs cs' : reordered unrelated cs cs' -> forall w, sbounded w ->
  exists p, sren p (spec_run w cs) (spec_run w cs').
Proof.
  induction 1 as [l|l1 a b l2 U|l l' l'' H1 IH1 H2 IH2]; intros w HB.
  - exists (fun i => i). apply sren_refl.
  - rewrite !spec_run_app. cbn [spec_run fold_left].
    assert (HB1 := spec_run_bounded l1 w HB). destruct (spec_swap (spec_run w l1) a b HB1 U) as (p & HS).
    exists p. apply spec_run_ren; [|exact HS].
    apply (spec_exec_bounded _ b), (spec_exec_bounded _ a), HB1.
  - destruct (IH1 w HB) as (p & HP), (IH2 w HB) as (q & HQ). exists (fun i => q (p i)). eapply sren_trans; eassumption.
Qed.

Lemma reordered_perm {A : Type} (ind : A -> A -> Prop) cs cs' : reordered ind cs cs' -> Permutation cs cs'.
Proof.
  induction 1 as [l|l1 a b l2 U|l l' l'' H1 IH1 H2 IH2]; [reflexivity| |now transitivity l'].
  apply Permutation_app_head. constructor.
Qed.
Lemma count_new_perm {N : Num} (cs cs' : list (call N)) : Permutation cs cs' -> count_new cs = count_new cs'.
Proof.
  unfold count_new. induction 1; cbn [filter]; auto; try congruence.
  - destruct (is_new x); cbn; congruence.
  - destruct (is_new x), (is_new y); reflexivity.
Qed.

(** Divisions by numbers other than zero stay so. *)
Definition div_ok (w : sworld) (c : call RN) : Prop :=
  match c with
  | CDiv _ _ y => l_mean (s_var w y) <> 0
  | CDivA _ x => l_mean (s_var w x) <> 0
  | _ => True
  end.
Lemma div_ok_local w w' c : (forall u, In u (reads c) -> l_mean (s_var w u) = l_mean (s_var w' u)) -> div_ok w c -> div_ok w' c.
Proof.
  intro H. destruct c; cbn; auto; intro D.
  - now rewrite <- (H y) by (cbn; auto).
  - now rewrite <- (H x) by (cbn; auto).
Qed.
Lemma divisions_cons w c cs : divisions_ok w (c :: cs) <-> div_ok w c /\ divisions_ok (spec_exec w c) cs.
Proof. reflexivity. Qed.
Lemma divisions_app l1 l2 : forall w, divisions_ok w (l1 ++ l2) <-> divisions_ok w l1 /\ divisions_ok (spec_run w l1) l2.
Proof.
  induction l1 as [|c l1 IH]; intro w; cbn [app]; [cbn; tauto|]. rewrite !divisions_cons, IH. cbn [spec_run fold_left].
  unfold spec_run. tauto.
Qed.
Lemma divisions_ren cs : forall p w w', (0 <= s_last w)%Z -> sren p w w' -> divisions_ok w cs -> divisions_ok w' cs.
Proof.
  induction cs as [|c cs IH]; intros p w w' Hl HS; [auto|]. rewrite !divisions_cons. intros [D R].
  split; [revert D; apply div_ok_local; intros u _; apply HS|].
  apply (IH p (spec_exec w c)); [|now apply spec_exec_ren|exact R].
  assert (K := spec_last_mono w c). lia.
Qed.
Lemma reordered_divisions cs cs' : reordered unrelated cs cs' -> forall w, sbounded w -> divisions_ok w cs -> divisions_ok w cs'.
Proof.
  induction 1 as [l|l1 a b l2 U|l l' l'' H1 IH1 H2 IH2]; intros w HB; [auto| |auto].
  rewrite !divisions_app, !divisions_cons. intros (D1 & Da & Db & D2).
  assert (HB1 := spec_run_bounded l1 w HB). set (w1 := spec_run w l1) in *. destruct (spec_swap w1 a b HB1 U) as (p & HS).
  destruct U as (U1 & U2 & U3). split; [exact D1|]. split; [|split].
  - revert Db. apply div_ok_local. intros u Hu. f_equal. apply spec_exec_frame. intros ->. exact (U2 Hu).
  - revert Da. apply div_ok_local. intros u Hu. f_equal. symmetry. apply spec_exec_frame. intros ->. exact (U3 Hu).
  - revert D2. apply (divisions_ren l2 p); [|exact HS]. apply (spec_exec_bounded _ b), (spec_exec_bounded _ a), HB1.
Qed.

Lemma ren_cov last p a a' b b' : renaming last p -> lin_ren p a a' -> lin_ren p b b' -> lin_cov last a b = lin_cov last a' b'.
Proof.
  intros P (_ & _ & C) (_ & _ & C'). unfold lin_cov. rewrite <- (renaming_sum last p (fun i => l_coef a' i * l_coef b' i) P).
  apply rsum_ext. intros i _. now rewrite C, C'.
Qed.

Lemma ren_indep last p a a' : renaming last p -> lin_ren p a a' -> (lin_indep a <-> lin_indep a').
Proof.
  intros ((q & Q) & _) (_ & D & _). unfold lin_indep. split; intros H i j Hi Hj.
  - rewrite <- (proj1 (Q i)), <- (proj1 (Q j)). f_equal. apply H; apply D; now rewrite (proj1 (Q _)).
  - apply D in Hi, Hj. rewrite <- (proj2 (Q i)), <- (proj2 (Q j)). f_equal. now apply H.
Qed.

Lemma C59_order_of_calls_proof : forall cs cs' : list (call RN), legal cs -> reordered unrelated cs cs' ->
  legal cs' /\ exists w w' p, run w_init cs = Ret w /\ run w_init cs' = Ret w' /\ renaming (w_last w) p /\
    w_last w = w_last w' /\
    forall u v, let x := w_var w u in let y := w_var w v in let x' := w_var w' u in let y' := w_var w' v in
      u_n x' = u_n x /\ u_s x' = u_s x /\ u_var x' = u_var x /\
      u_cov x' y' = u_cov x y /\ u_corr x' y' = u_corr x y /\ u_isindep x' = u_isindep x /\
      exists i, u_indepid x = Ret i /\ u_indepid x' = Ret (p i).
Proof.
  intros cs cs' (F & D & Cn) HR. assert (PE := reordered_perm _ _ _ HR).
  assert (F' : List.Forall nary_ok cs') by (eapply Permutation_Forall; eassumption).
  assert (Cn' : (count_new cs' <= max_new)%nat) by (now rewrite <- (count_new_perm _ _ PE)).
  split. { split; [exact F'|]. split; [|exact Cn']. exact (reordered_divisions _ _ HR _ s_init_bounded D). }
  assert (Z1 := proj1 (max_new_Z _) Cn). assert (Z2 := proj1 (max_new_Z _) Cn').
  destruct (run_sim cs w_init s_init wrep_init F) as (w & E & W & L); [cbn [w_last w_init]; unfold maxid; lia|].
  destruct (run_sim cs' w_init s_init wrep_init F') as (w' & E' & W' & L'); [cbn [w_last w_init]; unfold maxid; lia|].
  destruct (reordered_spec _ _ HR s_init s_init_bounded) as (p & SL & P & H).
  destruct W as (WL & Wp & WR), W' as (WL' & Wp' & WR').
  assert (LL : w_last w = w_last w') by congruence.
  exists w, w', p. split; [exact E|]. split; [exact E'|]. split; [now rewrite WL|]. split; [exact LL|].
  intros u v x y x' y'. assert (Rx := WR u). assert (Ry := WR v). assert (Rx' := WR' u). assert (Ry' := WR' v).
  rewrite <- LL in Rx', Ry'. rewrite WL in Rx, Ry, Rx', Ry'. fold x in Rx. fold y in Ry. fold x' in Rx'. fold y' in Ry'.
  assert (CC : forall s t, lin_cov (s_last (spec_run s_init cs)) (s_var (spec_run s_init cs) s) (s_var (spec_run s_init cs) t)
    = lin_cov (s_last (spec_run s_init cs)) (s_var (spec_run s_init cs') s) (s_var (spec_run s_init cs') t)).
  { intros. apply (ren_cov _ p); auto. }
  rewrite (rep_n _ _ _ Rx), (rep_n _ _ _ Rx'), (rep_s _ _ _ Rx), (rep_s _ _ _ Rx'), (rep_var _ _ _ Rx), (rep_var _ _ _ Rx').
  rewrite (rep_cov _ _ _ _ _ Rx Ry), (rep_cov _ _ _ _ _ Rx' Ry'), (rep_corr _ _ _ _ _ Rx Ry), (rep_corr _ _ _ _ _ Rx' Ry').
  unfold lin_sdev, lin_var. rewrite <- !CC.
  split; [symmetry; apply H|]. split; [reflexivity|]. split; [reflexivity|]. split; [reflexivity|]. split; [reflexivity|].
  destruct (ren_indep _ p _ _ P (H u)) as [I1 I2].
  split.
  - destruct (rep_isindep _ _ _ Rx) as (b & -> & Hb), (rep_isindep _ _ _ Rx') as (b' & -> & Hb').
    f_equal. destruct b, b'; try reflexivity; exfalso.
    + assert (false = true) by (apply Hb', I1, Hb; reflexivity). discriminate.
    + assert (false = true) by (apply Hb, I2, Hb'; reflexivity). discriminate.
  - destruct (rep_indepid _ _ _ Rx) as (i & Ei & Hi), (rep_indepid _ _ _ Rx') as (i' & -> & Hi').
    exists i. split; [exact Ei|]. f_equal. destruct (H u) as (_ & HD & _). destruct P as ((q & Q) & Fx).
    destruct Hi as [(-> & Hi)|[(Pi & Di & Hi)|(-> & Hi)]].
    + rewrite Fx by lia. destruct Hi' as [(-> & _)|[(_ & Di' & _)|(-> & Hi')]]; [reflexivity| |].
      * exfalso. apply (Hi (q i')). apply HD. now rewrite (proj1 (Q i')).
      * exfalso. apply Hi'. intros j k Hj _. exfalso. apply (Hi (q j)). apply HD. now rewrite (proj1 (Q j)).
    + destruct Hi' as [(-> & Hi')|[(_ & Di' & _)|(-> & Hi')]].
      * exfalso. apply (Hi' (p i)). now apply HD.
      * rewrite <- (proj1 (Q i')). f_equal. apply Hi, HD. now rewrite (proj1 (Q i')).
      * exfalso. apply Hi'. apply I1. intros j k Hj Hk. rewrite (Hi j Hj), (Hi k Hk). reflexivity.
    + rewrite Fx by (unfold invalid_id; lia). destruct Hi' as [(-> & Hi')|[(_ & Di' & Hi')|(-> & _)]]; [| |reflexivity].
      * exfalso. apply Hi. apply I2. intros j k Hj _. destruct (Hi' j Hj).
      * exfalso. apply Hi. apply I2. intros j k Hj Hk. rewrite (Hi' j Hj), (Hi' k Hk). reflexivity.
Qed.
