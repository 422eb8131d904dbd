(** * OrderProofs2: the order of unrelated calls does not matter (UReal2) *)

From Coq Require Import List ZArith Bool Reals Lra Lia Permutation Sorted.
From Verif Require Import Base Num Map UReal World HessGrad Moments CheckMoments UReal2 World2 Sums SpecLin SpecObs
  URealFacts URealR URealProofs URealProofs2 HessProofs U2Facts U2World SpecU2 U2Values U2Ret SpecU2Run U2Proofs U2Proofs2
  SpecProb MomSums MomSpec MomCode MomProofs MomCov SpecOrder OrderProofs.
Import ListNotations.
Local Open Scope R_scope.

(** ** Renaming the ids of a value *)
Definition jren (p : Z -> Z) (a b : jet) : Prop :=
  j_mean a = j_mean b /\ (forall i, j_dep a i <-> j_dep b (p i)) /\ (forall i, j_g a i = j_g b (p i)) /\
  (forall i j, j_h a i j = j_h b (p i) (p j)).
Definition momof (x : ureal2 RN) (i : Z) : option (option (moms RN)) := option_map dmom (mfind i (diagmap (u2hg x))).
Definition vren (p : Z -> Z) (x x' : ureal2 RN) : Prop :=
  jren p (jet_of x) (jet_of x') /\ forall i, momof x i = momof x' (p i).
Definition wren (p : Z -> Z) (w w' : world2 RN) : Prop :=
  w2_last w = w2_last w' /\ renaming (w2_last w) p /\ forall v, vren p (w2_var w v) (w2_var w' v).

Lemma jren_trans p q a b c : jren p a b -> jren q b c -> jren (fun i => q (p i)) a c.
Proof.
  intros (M & D & G & H) (M' & D' & G' & H'). split; [congruence|]. split; [intro i; rewrite D; apply D'|].
  split; intros; [rewrite G; apply G'|rewrite H; apply H'].
Qed.
Lemma vren_trans p q a b c : vren p a b -> vren q b c -> vren (fun i => q (p i)) a c.
Proof. intros [J M] [J' M']. split; [eapply jren_trans; eassumption|]. intro i. rewrite M. apply M'. Qed.
Lemma wren_trans p q a b c : wren p a b -> wren q b c -> wren (fun i => q (p i)) a c.
Proof.
  intros (L & P & H) (L' & P' & H'). split; [congruence|]. split; [apply renaming_comp; [exact P|now rewrite L]|].
  intro v. eapply vren_trans; [apply H|apply H'].
Qed.
Lemma jren_refl a : jren (fun i => i) a a.
Proof. split; [reflexivity|]. split; [reflexivity|]. split; reflexivity. Qed.
Lemma vren_refl x : vren (fun i => i) x x.
Proof. split; [apply jren_refl|reflexivity]. Qed.
Lemma wren_refl w : wren (fun i => i) w w.
Proof. split; [reflexivity|]. split; [apply renaming_id|]. intro v. apply vren_refl. Qed.
Lemma jren_eq p a a' b b' : jren p a b -> jet_eq a' a -> jet_eq b' b -> jren p a' b'.
Proof.
  intros (M & D & G & H) (M1 & D1 & G1 & H1) (M2 & D2 & G2 & H2). split; [congruence|].
  split; [intro i; now rewrite D1, D2, D|]. split; intros; [now rewrite G1, G2, G|now rewrite H1, H2, H].
Qed.

(** ** Values of calls *)
Lemma jet_call_dep g l c v J i : is_new2 c = false -> jet_call g l c = Some (v, J) -> j_dep J i -> exists u, j_dep (g u) i.
Proof.
  destruct c; cbn; intros Hn [= <- <-]; try discriminate Hn; cbn; try tauto; eauto; intros [H|H]; eauto.
Qed.
Lemma jet_call_ren p (g g' : nat -> jet) l c v J : (forall u, jren p (g u) (g' u)) -> is_new2 c = false ->
  jet_call g l c = Some (v, J) -> exists J', jet_call g' l c = Some (v, J') /\ jren p J J'.
Proof.
  intros H Hn E.
  assert (M : forall u, j_mean (g u) = j_mean (g' u)) by (intro; apply H).
  assert (RB : forall x y f fx fy fxx fyy fxy, jren p (jet_binary (g x) (g y) f fx fy fxx fyy fxy) (jet_binary (g' x) (g' y) f fx fy fxx fyy fxy)).
  { intros x y f fx fy fxx fyy fxy. destruct (H x) as (_ & Dx & Gx & Hx), (H y) as (_ & Dy & Gy & Hy).
    split; [reflexivity|]. cbn [jet_binary j_dep j_g j_h]. split; [intro i; now rewrite Dx, Dy|].
    split; intros; now rewrite ?Gx, ?Gy, ?Hx, ?Hy. }
  destruct c; cbn in E |- *; try discriminate Hn; try discriminate E; injection E as <- <-; eexists; (split; [reflexivity|]); rewrite <- ?M.
  - split; [reflexivity|]. split; [cbn; tauto|]. split; reflexivity.
  - split; [reflexivity|]. split; [cbn; tauto|]. split; reflexivity.
  - apply H.
  - destruct (H x) as (_ & Dx & Gx & Hx). split; [reflexivity|]. cbn [jet_unary j_dep j_g j_h]. split; [exact Dx|].
    split; intros; now rewrite ?Gx, ?Hx.
  - apply RB.
  - destruct (H x) as (Mx & Dx & Gx & Hx). split; [cbn; now rewrite Mx|]. cbn. split; [exact Dx|]. split; intros; now rewrite ?Gx, ?Hx.
  - destruct (H x) as (Mx & Dx & Gx & Hx), (H y) as (My & Dy & Gy & Hy). split; [cbn; now rewrite Mx, My|]. cbn.
    split; [intro i; now rewrite Dx, Dy|]. split; intros; now rewrite ?Gx, ?Gy, ?Hx, ?Hy.
  - destruct (H x) as (Mx & Dx & Gx & Hx), (H y) as (My & Dy & Gy & Hy). split; [cbn; now rewrite Mx, My|]. cbn.
    split; [intro i; now rewrite Dx, Dy|]. split; intros; now rewrite ?Gx, ?Gy, ?Hx, ?Hy.
  - destruct (H x) as (Mx & Dx & Gx & Hx), (H y) as (My & Dy & Gy & Hy). split; [cbn; now rewrite Mx, My|]. cbn.
    split; [intro i; now rewrite Dx, Dy|]. split; intros; now rewrite ?Mx, ?My, ?Gx, ?Gy, ?Hx, ?Hy.
  - apply RB.
Qed.
Lemma single_ren last p a b : renaming last p -> jren p a b -> single a -> single b.
Proof.
  intros ((q & Q) & _) (_ & D & _) H i j Hi Hj. rewrite <- (proj1 (Q i)), <- (proj1 (Q j)). f_equal.
  apply H; apply D; now rewrite (proj1 (Q _)).
Qed.
Lemma covered_ren last p g g' c : renaming last p -> (forall u, jren p (g u) (g' u)) -> jet_covered g c -> jet_covered g' c.
Proof.
  intros P H. assert (M : forall u, j_mean (g u) = j_mean (g' u)) by (intro; apply H).
  assert (S : forall u, single (g u) -> single (g' u)) by (intros u; apply (single_ren last p); auto).
  destruct c; cbn; auto; rewrite <- ?M; intuition.
Qed.

(** ** Calls *)
Section Eig.
  Variable eig : list (list RN) -> option (list RN).

  Definition freshv (id : Z) (n s : RN) (m : moms RN) : ureal2 RN := mkU2 (hg_diag id (fun _ => mkD s n0 (Some m)) hg_empty) n.
  (** The outcome of a construction does not depend on the state. *)
  Lemma new_dich c : thr_number c -> is_new2 c = true -> only2 c ->
    (exists e, forall w, exec2 eig w c = (set_last w (w2_last w), Throw e)) \/
    (exists n s m, forall w, (0 <= w2_last w < maxid)%Z ->
       exec2 eig w c = assign2 (set_last w (w2_last w + 1)) (writes2 c) (Ret (freshv (w2_last w + 1) n s m))).
  Proof.
    intros HT Hn HO. destruct c; try discriminate Hn; try destruct HO; cbn [thr_number] in HT; cbn [exec2 writes2].
    - unfold u2_new. destruct (check_throw_ok eig (cmoms_list m) thr HT) as [-> | [e ->]].
      + right. do 3 eexists. intros w Hw. rewrite wrap_small by lia. reflexivity.
      + left. exists e. reflexivity.
    - unfold u2_new_std. destruct (nltb s n1) eqn:E0.
      all: destruct (nltb s n0); [left; eexists; reflexivity|].
      all: destruct (check_throw_ok eig (moms_list m) thr HT) as [-> | [e ->]];
        [right; do 3 eexists; intros w Hw; rewrite wrap_small by lia; reflexivity|left; exists e; reflexivity].
  Qed.

  Definition grows (c : call2 RN) : bool :=
    match c with
    | E1 c => is_new c
    | _ => is_new2 c && match snd (exec2 eig w2_init c) with Ret _ => true | _ => false end
    end.
  Lemma grows_le c : grows c = true -> is_new2 c = true.
  Proof. destruct c; cbn; auto; discriminate. Qed.
  Lemma last_other (w : world2 RN) c : only2 c -> is_new2 c = false -> w2_last (fst (exec2 eig w c)) = w2_last w.
  Proof.
    intros HO Hn. destruct c; try discriminate Hn; try destruct HO; cbn [exec2]; try reflexivity;
      match goal with |- context [assign2 _ _ ?o] => destruct o; reflexivity end.
  Qed.
  Lemma exec2_last env w c : wwf2 env w -> nary_ok2 c -> thr_number c -> (w2_last w + (if is_new2 c then 1 else 0) < maxid)%Z ->
    w2_last (fst (exec2 eig w c)) = (w2_last w + (if grows c then 1 else 0))%Z.
  Proof.
    intros W HN HT HB. assert (P := proj1 (proj1 W)). fold (w2_last w) in P.
    destruct c as [c1|v n m thr|v n s m thr|v n|v|v x|v x f f1 f2|v x y f fx fy fxx fyy fxy|v x|v x y|v x y|v x y|v x y] eqn:Ec;
      try (rewrite last_other by (cbn; auto); cbn; lia).
    - cbn [exec2 grows]. destruct (gen_exec Rltb_00 (w2_w w) c1 (proj1 W) HN HB) as (_ & L & _).
      destruct (exec (w2_w w) c1) as [w1 o]. exact L.
    - rewrite <- Ec in *. assert (Hn : is_new2 c = true) by now subst. assert (HO : only2 c) by now subst.
      destruct (new_dich c HT Hn HO) as [(e & Ee)|(n' & s' & m' & Ee)].
      + rewrite Ee. assert (G : grows c = false) by (subst c; unfold grows; rewrite Ee; reflexivity). rewrite G. cbn. lia.
      + assert (G : grows c = true) by (subst c; unfold grows; rewrite Ee by (cbn; unfold maxid; lia); reflexivity).
        rewrite Hn in HB. rewrite Ee by lia. rewrite G. reflexivity.
    - rewrite <- Ec in *. assert (Hn : is_new2 c = true) by now subst. assert (HO : only2 c) by now subst.
      destruct (new_dich c HT Hn HO) as [(e & Ee)|(n' & s' & m' & Ee)].
      + rewrite Ee. assert (G : grows c = false) by (subst c; unfold grows; rewrite Ee; reflexivity). rewrite G. cbn. lia.
      + assert (G : grows c = true) by (subst c; unfold grows; rewrite Ee by (cbn; unfold maxid; lia); reflexivity).
        rewrite Hn in HB. rewrite Ee by lia. rewrite G. reflexivity.
  Qed.

  Lemma other_ret env w c : wwf2 env w -> (w2_last w < maxid)%Z -> only2 c -> is_new2 c = false -> snd (exec2 eig w c) = Ret tt.
  Proof.
    intros [_ W] HB HO Hn.
    assert (Un : forall x fx f1 f2, exists z, u2_unary (w2_var w x) fx f1 f2 = Ret z)
      by (intros x fx f1 f2; destruct (unary_wf2 _ _ _ fx f1 f2 (W x)) as (z & E & _); eauto).
    assert (Bi : forall x y a b c0 d e f, exists z, u2_binary (w2_var w x) (w2_var w y) a b c0 d e f = Ret z)
      by (intros x y a b c0 d e f; destruct (binary_wf2 _ _ _ _ a b c0 d e f (W x) (W y) HB) as (z & E & _); eauto).
    destruct c; try discriminate Hn; try destruct HO; cbn [exec2]; try reflexivity;
      unfold u2_neg, u2_add, u2_sub, u2_mul, u2_div;
      try (match goal with |- context [u2_unary _ ?a ?b ?c] => destruct (Un x a b c) as (z & ->) end; reflexivity);
      try (match goal with |- context [u2_binary _ _ ?a ?b ?c ?d ?e ?f] => destruct (Bi x y a b c d e f) as (z & ->) end; reflexivity).
  Qed.

  Lemma momof_wf last env x i : wf2 last env x -> momof x i = None /\ ~ j_dep (jet_of x) i \/
    momof x i = Some (Some (env i)) /\ j_dep (jet_of x) i /\ (1 <= i <= last)%Z.
  Proof.
    intros [OK H]. unfold momof. assert (D := dep_iff x i OK). destruct (mfind i (diagmap (u2hg x))) as [d|] eqn:E.
    - right. apply mfind_In in E. destruct (H i d E) as [B M]. cbn. rewrite M. split; [reflexivity|]. split; [apply D; discriminate|exact B].
    - left. split; [reflexivity|]. intro Hd. now apply D in Hd.
  Qed.
  Lemma momof_fresh id n s m i : momof (freshv id n s m) i = if (i =? id)%Z then Some (Some m) else None.
  Proof.
    unfold momof, freshv. cbn [u2hg hg_diag diagmap hg_empty]. unfold mupd. cbn.
    destruct (Z.compare_spec i id) as [E|E|E].
    - subst. now rewrite Z.eqb_refl.
    - destruct (Z.eqb_spec i id); [lia|reflexivity].
    - destruct (Z.eqb_spec i id); [lia|reflexivity].
  Qed.
  Lemma vren_fresh p id id' n s m : (forall i, i = id <-> p i = id') -> vren p (freshv id n s m) (freshv id' n s m).
  Proof.
    intro F. assert (B : forall i, (i =? id)%Z = (p i =? id')%Z).
    { intro i. destruct (Z.eqb_spec i id) as [E|E], (Z.eqb_spec (p i) id') as [E'|E']; try reflexivity; exfalso; apply F in E || apply F in E'; auto. }
    split.
    - apply (jren_eq p (jet_fresh id n s) _ (jet_fresh id' n s)); [|apply jet_of_fresh|apply jet_of_fresh].
      split; [reflexivity|]. cbn. split; [exact F|]. split; [intro i; now rewrite B|reflexivity].
    - intro i. rewrite !momof_fresh. now rewrite B.
  Qed.

  Lemma wren_step p env env' w w' c : wwf2 env w -> wwf2 env' w' -> wren p w w' -> nary_ok2 c -> thr_number c ->
    (w2_last w + (if is_new2 c then 1 else 0) < maxid)%Z -> jet_covered (fun v => jet_of (w2_var w v)) c ->
    wren p (fst (exec2 eig w c)) (fst (exec2 eig w' c)).
  Proof.
    intros W W' (L & P & H) HN HT HB HC. assert (Pl := proj1 (proj1 W)). fold (w2_last w) in Pl.
    assert (HB' : (w2_last w' + (if is_new2 c then 1 else 0) < maxid)%Z) by (rewrite <- L; exact HB).
    assert (L1 := exec2_last env w c W HN HT HB). assert (L2 := exec2_last env' w' c W' HN HT HB').
    assert (LE : w2_last (fst (exec2 eig w c)) = w2_last (fst (exec2 eig w' c))) by (rewrite L1, L2, L; reflexivity).
    split; [exact LE|]. split; [apply (renaming_mono (w2_last w)); [rewrite L1; destruct (grows c); lia|exact P]|].
    assert (DEC : (exists c1, c = E1 c1) \/ only2 c) by (destruct c; [left; eauto|..]; right; exact I).
    destruct DEC as [(c1 & ->)|HO].
    { intro v. cbn [exec2]. destruct (exec (w2_w w) c1), (exec (w2_w w') c1). apply H. }
    destruct (is_new2 c) eqn:Hn.
    - destruct (new_dich c HT Hn HO) as [(e & Ee)|(n & s & m & Ee)].
      + rewrite !Ee. exact H.
      + rewrite !Ee by lia. intro u. cbn. unfold upd2. destruct (Nat.eqb u (writes2 c)); [|apply H].
        rewrite <- L. apply vren_fresh. intro i.
        assert (E : p (w2_last w + 1)%Z = (w2_last w + 1)%Z) by (apply P; lia).
        split; [intros ->; exact E|]. intro Hi. destruct P as ((q & Q) & _).
        rewrite <- (proj2 (Q i)), Hi. rewrite <- E at 1. apply Q.
    - assert (R := other_ret env w c W ltac:(lia) HO Hn). assert (R' := other_ret env' w' c W' ltac:(lia) HO Hn).
      assert (HB0 : (w2_last w + (if is_new2 c then 1 else 0) < maxid)%Z) by (rewrite Hn; exact HB).
      assert (HB0' : (w2_last w' + (if is_new2 c then 1 else 0) < maxid)%Z) by (rewrite Hn; exact HB').
      destruct (exec2_jet eig env w c W HT HB0 HO R) as (v & J & EJ & _ & J1 & Fr & _).
      destruct (exec2_jet eig env' w' c W' HT HB0' HO R') as (v' & J' & EJ' & _ & J2 & Fr' & _).
      cbv zeta in *.
      destruct (jet_call_ren p (fun v => jet_of (w2_var w v)) (fun v => jet_of (w2_var w' v)) (w2_last w) c v J
        (fun u => proj1 (H u)) Hn EJ) as (J0 & EJ0 & RJ).
      rewrite L, EJ' in EJ0. injection EJ0 as -> ->.
      assert (HC' := covered_ren _ p _ (fun v => jet_of (w2_var w' v)) c P (fun u => proj1 (H u)) HC).
      intro u. destruct (Nat.eq_dec u v) as [->|Hu]; [|rewrite Fr, Fr' by exact Hu; apply H].
      assert (JJ := jren_eq p J _ J0 _ RJ (J1 HC) (J2 HC')).
      split; [exact JJ|]. intro i.
      destruct (gen_exec2 Rltb_00 eig env w c W HN HT HB0) as (env1 & W1 & E1 & _).
      destruct (gen_exec2 Rltb_00 eig env' w' c W' HN HT HB0') as (env1' & W1' & E1' & _).
      destruct (momof_wf _ _ _ i (proj2 W1 v)) as [[-> Nd]|(-> & Hd & _)],
               (momof_wf _ _ _ (p i) (proj2 W1' v)) as [[-> Nd']|(-> & Hd' & _)]; try reflexivity.
      + exfalso. apply Nd. now apply JJ.
      + exfalso. apply Nd'. now apply JJ.
      + do 2 f_equal. assert (DJ : j_dep J i) by (apply (J1 HC), Hd).
        destruct (jet_call_dep _ _ _ _ _ i Hn EJ DJ) as (t & Ht). cbn beta in Ht.
        destruct (momof_wf _ _ _ i (proj2 W t)) as [[_ Q]|(Q & _ & B)]; [contradiction|].
        assert (Ht' : j_dep (jet_of (w2_var w' t)) (p i)) by (now apply (proj1 (H t))).
        destruct (momof_wf _ _ _ (p i) (proj2 W' t)) as [[_ Q']|(Q' & _ & B')]; [contradiction|].
        assert (MM := proj2 (H t) i). rewrite Q, Q' in MM. injection MM as MM.
        rewrite E1, E1' by lia. exact MM.
  Qed.

  Lemma wren_run p cs : forall env env' w w', wwf2 env w -> wwf2 env' w' -> wren p w w' ->
    List.Forall nary_ok2 cs -> List.Forall thr_number cs -> (w2_last w + Z.of_nat (count_new2 cs) < maxid)%Z ->
    covered_run eig w cs -> forall r r', run2 eig w cs = Ret r -> run2 eig w' cs = Ret r' -> wren p r r' /\ covered_run eig w' cs.
  Proof.
    induction cs as [|c cs IH]; intros env env' w w' W W' HR F T B CR r r' Er Er'.
    - injection Er as <-. injection Er' as <-. split; [exact HR|exact I].
    - inversion F as [|? ? Fc Fcs]; subst. inversion T as [|? ? Tc Tcs]; subst. rewrite count_new2_cons in B.
      destruct CR as [CC CR]. assert (B1 : (w2_last w + (if is_new2 c then 1 else 0) < maxid)%Z) by (destruct (is_new2 c); lia).
      assert (B1' : (w2_last w' + (if is_new2 c then 1 else 0) < maxid)%Z) by (rewrite <- (proj1 HR); exact B1).
      assert (S := wren_step p env env' w w' c W W' HR Fc Tc B1 CC).
      destruct (gen_exec2 Rltb_00 eig env w c W Fc Tc B1) as (env1 & W1 & _ & L1 & O & _).
      destruct (gen_exec2 Rltb_00 eig env' w' c W' Fc Tc B1') as (env1' & W1' & _ & L1' & O' & _).
      cbn [run2] in Er, Er'. cbn [covered_run].
      assert (Er1 : run2 eig (fst (exec2 eig w c)) cs = Ret r).
      { destruct (exec2 eig w c) as [w1 o]. cbn [fst snd] in *. destruct O as [-> | [e ->]]; exact Er. }
      assert (Er1' : run2 eig (fst (exec2 eig w' c)) cs = Ret r').
      { destruct (exec2 eig w' c) as [w1 o]. cbn [fst snd] in *. destruct O' as [-> | [e ->]]; exact Er'. }
      destruct (IH env1 env1' _ _ W1 W1' S Fcs Tcs ltac:(lia) CR r r' Er1 Er1') as [A C]. split; [exact A|].
      split; [|exact C]. exact (covered_ren _ p _ _ c (proj1 (proj2 HR)) (fun u => proj1 (proj2 (proj2 HR) u)) CC).
  Qed.

  (** ** Exchanging two unrelated calls *)
  Lemma exec2_frame w c u : only2 c -> u <> writes2 c -> w2_var (fst (exec2 eig w c)) u = w2_var w u.
  Proof.
    intros HO Hu. assert (A : forall w0 o, w2_var w0 = w2_var w -> w2_var (fst (assign2 w0 (writes2 c) o)) u = w2_var w u).
    { intros w0 o E. destruct o; cbn; try (now rewrite E). unfold upd2. apply Nat.eqb_neq in Hu. now rewrite Hu, E. }
    destruct c; try destruct HO; cbn [exec2 writes2] in *; try (apply A; reflexivity).
    - destruct (u2_new eig (w2_last w) n m thr). apply A. reflexivity.
    - destruct (u2_new_std eig (w2_last w) n s m thr). apply A. reflexivity.
  Qed.
  Lemma exec2_frame1 w c : w2_var (fst (exec2 eig w (E1 c))) = w2_var w.
  Proof. cbn [exec2]. destruct (exec (w2_w w) c). reflexivity. Qed.
  Lemma exec2_local w w' c : only2 c -> (forall u, In u (reads2 c) -> w2_var w u = w2_var w' u) ->
    w2_var w (writes2 c) = w2_var w' (writes2 c) -> (is_new2 c = true -> w2_last w = w2_last w') ->
    w2_var (fst (exec2 eig w c)) (writes2 c) = w2_var (fst (exec2 eig w' c)) (writes2 c).
  Proof.
    intros HO HRd HW HL.
    assert (A : forall w0 w0' o, w2_var w0 = w2_var w -> w2_var w0' = w2_var w' ->
      w2_var (fst (assign2 w0 (writes2 c) o)) (writes2 c) = w2_var (fst (assign2 w0' (writes2 c) o)) (writes2 c)).
    { intros w0 w0' o E E'. destruct o; cbn; try (now rewrite E, E'). unfold upd2. now rewrite Nat.eqb_refl. }
    destruct c; try destruct HO; cbn [exec2 writes2 reads2 is_new2] in *;
      rewrite ?(HRd x) by (cbn; auto); rewrite ?(HRd y) by (cbn; auto); try (apply A; reflexivity).
    - rewrite (HL eq_refl). destruct (u2_new eig (w2_last w') n m thr). apply A; reflexivity.
    - rewrite (HL eq_refl). destruct (u2_new_std eig (w2_last w') n s m thr). apply A; reflexivity.
  Qed.

  Lemma transp_vren last env x : (0 <= last)%Z -> wf2 last env x -> vren (transp (last + 1) (last + 2)) x x.
  Proof.
    intros Hl W. set (p := transp (last + 1) (last + 2)).
    assert (K : forall i, p i = i \/ ((last < i)%Z /\ (last < p i)%Z)).
    { intro i. unfold p, transp. destruct (Z.eqb_spec i (last + 1)); [right; lia|]. destruct (Z.eqb_spec i (last + 2)); [right; lia|]. now left. }
    assert (ND : forall i, (last < i)%Z -> ~ j_dep (jet_of x) i /\ momof x i = None).
    { intros i Hi. destruct (momof_wf _ _ _ i W) as [[A B]|(_ & _ & B)]; [auto|lia]. }
    destruct (st_sup x (proj1 W)) as [SG SH]. cbn [fst snd] in SG, SH.
    assert (NG : forall i, (last < i)%Z -> j_g (jet_of x) i = 0) by (intros i Hi; apply SG; apply (ND i Hi)).
    assert (NH : forall i j, (last < i \/ last < j)%Z -> j_h (jet_of x) i j = 0).
    { intros i j [Hi|Hj]; apply SH; [left|right]; now apply ND. }
    split; [split; [reflexivity|]; split; [|split]|].
    - intro i. destruct (K i) as [->|[A B]]; [reflexivity|]. split; intro Hd; exfalso; revert Hd; now apply ND.
    - intro i. destruct (K i) as [->|[A B]]; [reflexivity|]. now rewrite !NG.
    - intros i j. destruct (K i) as [Ei|[A B]], (K j) as [Ej|[A' B']]; rewrite ?Ei, ?Ej; try reflexivity; now rewrite !NH by lia.
    - intro i. destruct (K i) as [->|[A B]]; [reflexivity|]. rewrite (proj2 (ND i A)), (proj2 (ND (p i) B)). reflexivity.
  Qed.

  Lemma unrelated_only a b : unrelated2 a b -> only2 a -> only2 b ->
    writes2 a <> writes2 b /\ ~ In (writes2 a) (reads2 b) /\ ~ In (writes2 b) (reads2 a).
  Proof. intros U Oa Ob. destruct a; try contradiction Oa; destruct b; try contradiction Ob; exact U. Qed.
  Lemma unrelated2_sym a b : unrelated2 (N := RN) a b -> unrelated2 b a.
  Proof. destruct a, b; cbn; auto; unfold unrelated; cbn; intuition. Qed.

  Lemma exec2_swap env w a b : wwf2 env w -> nary_ok2 a -> thr_number a -> nary_ok2 b -> thr_number b ->
    (w2_last w + (if is_new2 a then 1 else 0) + (if is_new2 b then 1 else 0) < maxid)%Z -> unrelated2 a b ->
    exists p, wren p (fst (exec2 eig (fst (exec2 eig w a)) b)) (fst (exec2 eig (fst (exec2 eig w b)) a)).
  Proof.
    intros W Na Ta Nb Tb HB U. assert (Pl := proj1 (proj1 W)). fold (w2_last w) in Pl.
    assert (Ba : (w2_last w + (if is_new2 a then 1 else 0) < maxid)%Z) by (destruct (is_new2 b); lia).
    assert (Bb : (w2_last w + (if is_new2 b then 1 else 0) < maxid)%Z) by (destruct (is_new2 a); lia).
    destruct (gen_exec2 Rltb_00 eig env w a W Na Ta Ba) as (enva & Wa & _ & La & _).
    destruct (gen_exec2 Rltb_00 eig env w b W Nb Tb Bb) as (envb & Wb & _ & Lb & _).
    assert (Bab : (w2_last (fst (exec2 eig w a)) + (if is_new2 b then 1 else 0) < maxid)%Z) by lia.
    assert (Bba : (w2_last (fst (exec2 eig w b)) + (if is_new2 a then 1 else 0) < maxid)%Z) by lia.
    assert (A1 := exec2_last env w a W Na Ta Ba). assert (A2 := exec2_last env w b W Nb Tb Bb).
    assert (A3 := exec2_last enva _ b Wa Nb Tb Bab). assert (A4 := exec2_last envb _ a Wb Na Ta Bba).
    assert (LE : w2_last (fst (exec2 eig (fst (exec2 eig w a)) b)) = w2_last (fst (exec2 eig (fst (exec2 eig w b)) a))) by lia.
    (* a construction that gets an id, in any state *)
    assert (GR : forall c, thr_number c -> only2 c -> is_new2 c = true -> grows c = true -> exists n s m, forall w, (0 <= w2_last w < maxid)%Z ->
       exec2 eig w c = assign2 (set_last w (w2_last w + 1)) (writes2 c) (Ret (freshv (w2_last w + 1) n s m))).
    { intros c Tc Oc Hn G. destruct (new_dich c Tc Hn Oc) as [(e & Ee)|Q]; [exfalso|exact Q].
      destruct c; try discriminate Hn; try destruct Oc; unfold grows in G; rewrite Ee in G; discriminate G. }
    assert (NG : forall c w, thr_number c -> only2 c -> is_new2 c = true -> grows c = false -> (0 <= w2_last w < maxid)%Z -> w2_var (fst (exec2 eig w c)) = w2_var w).
    { intros c w0 Tc Oc Hn G Hw. destruct (new_dich c Tc Hn Oc) as [(e & Ee)|(n & s & m & Ee)]; [now rewrite Ee|exfalso].
      assert (Q : grows c = true); [|congruence].
      destruct c; try discriminate Hn; try destruct Oc; unfold grows; rewrite Ee by (cbn; unfold maxid; lia); reflexivity. }
    assert (DEC : forall c : call2 RN, (exists c1, c = E1 c1) \/ only2 c) by (intro c; destruct c; [left; eauto|..]; right; exact I).
    destruct (grows a && grows b) eqn:GG.
    - (* two ids are exchanged *)
      apply andb_true_iff in GG as [Ga Gb]. rewrite Ga, Gb in *.
      assert (Na1 := grows_le a Ga). assert (Nb1 := grows_le b Gb). rewrite Na1, Nb1 in *.
      exists (transp (w2_last w + 1) (w2_last w + 2)). split; [exact LE|]. split.
      { rewrite A3, A1. replace (w2_last w + 1 + 1)%Z with (w2_last w + 2)%Z by lia. now apply renaming_transp. }
      assert (TB : forall v, vren (transp (w2_last w + 1) (w2_last w + 2)) (w2_var w v) (w2_var w v)) by
        (intro v; apply (transp_vren _ env); [exact Pl|apply W]).
      assert (T1 : forall n s m, vren (transp (w2_last w + 1) (w2_last w + 2)) (freshv (w2_last w + 1) n s m) (freshv (w2_last w + 2) n s m)).
      { intros. apply vren_fresh. intro i. unfold transp. destruct (Z.eqb_spec i (w2_last w + 1)); [lia|]. destruct (Z.eqb_spec i (w2_last w + 2)); lia. }
      assert (T2 : forall n s m, vren (transp (w2_last w + 1) (w2_last w + 2)) (freshv (w2_last w + 2) n s m) (freshv (w2_last w + 1) n s m)).
      { intros. apply vren_fresh. intro i. unfold transp. destruct (Z.eqb_spec i (w2_last w + 1)); [lia|]. destruct (Z.eqb_spec i (w2_last w + 2)); lia. }
      assert (Eq1 : (w2_last (fst (exec2 eig w a)) + 1 = w2_last w + 2)%Z) by lia.
      assert (Eq2 : (w2_last (fst (exec2 eig w b)) + 1 = w2_last w + 2)%Z) by lia.
      destruct (DEC a) as [(a1 & ->)|Oa], (DEC b) as [(b1 & ->)|Ob].
      + intro v. rewrite !exec2_frame1. apply TB.
      + destruct (GR b Tb Ob Nb1 Gb) as (n & s & m & Eb). intro v. rewrite exec2_frame1.
        rewrite (Eb (fst (exec2 eig w (E1 a1)))) by lia. rewrite Eq1. rewrite (Eb w) by lia.
        cbn [assign2 set_last fst w2_var]. rewrite exec2_frame1. unfold upd2. destruct (Nat.eqb v (writes2 b)); auto.
      + destruct (GR a Ta Oa Na1 Ga) as (n & s & m & Ea). intro v. rewrite exec2_frame1.
        rewrite (Ea (fst (exec2 eig w (E1 b1)))) by lia. rewrite Eq2. rewrite (Ea w) by lia.
        cbn [assign2 set_last fst w2_var]. rewrite exec2_frame1. unfold upd2. destruct (Nat.eqb v (writes2 a)); auto.
      + destruct (GR a Ta Oa Na1 Ga) as (n & s & m & Ea). destruct (GR b Tb Ob Nb1 Gb) as (n' & s' & m' & Eb).
        destruct (unrelated_only a b U Oa Ob) as (Uw & _ & _).
        intro v. rewrite (Eb (fst (exec2 eig w a))) by lia. rewrite (Ea (fst (exec2 eig w b))) by lia. rewrite Eq1, Eq2.
        rewrite (Ea w), (Eb w) by lia. cbn [assign2 set_last fst w2_var]. unfold upd2.
        destruct (Nat.eqb_spec v (writes2 a)), (Nat.eqb_spec v (writes2 b)); try congruence; auto.
    - (* the same state *)
      exists (fun i => i). split; [exact LE|]. split; [apply renaming_id|]. intro v.
      enough (Q : w2_var (fst (exec2 eig (fst (exec2 eig w a)) b)) v = w2_var (fst (exec2 eig (fst (exec2 eig w b)) a)) v) by (rewrite Q; apply vren_refl).
      assert (HALF : forall a b, only2 a -> unrelated2 a b -> thr_number a -> thr_number b -> grows a && grows b = false ->
        w2_last (fst (exec2 eig w a)) = (w2_last w + (if grows a then 1 else 0))%Z ->
        w2_last (fst (exec2 eig w b)) = (w2_last w + (if grows b then 1 else 0))%Z ->
        (w2_last w + (if is_new2 a then 1 else 0) + (if is_new2 b then 1 else 0) < maxid)%Z ->
        w2_var (fst (exec2 eig (fst (exec2 eig w b)) a)) (writes2 a) = w2_var (fst (exec2 eig w a)) (writes2 a) /\
        (only2 b -> w2_var (fst (exec2 eig (fst (exec2 eig w a)) b)) (writes2 a) = w2_var (fst (exec2 eig w a)) (writes2 a))).
      { clear a b Na Ta Nb Tb HB U Ba Bb enva Wa La envb Wb Lb Bab Bba A1 A2 A3 A4 LE GG.
        intros a b Oa U Ta Tb GG A1 A2 HB.
        assert (BW : w2_var (fst (exec2 eig w b)) (writes2 a) = w2_var w (writes2 a)).
        { destruct (DEC b) as [(b1 & ->)|Ob]; [now rewrite exec2_frame1|]. apply exec2_frame; [exact Ob|]. now apply (unrelated_only a b). }
        split.
        - destruct (is_new2 a) eqn:Hn.
          + destruct (grows a) eqn:Ga.
            * destruct (GR a Ta Oa Hn Ga) as (n & s & m & Ea).
              assert (grows b = false) by (destruct (grows b); [discriminate GG|reflexivity]). rewrite H in A2.
              rewrite !Ea by (destruct (is_new2 b); lia). cbn. unfold upd2. rewrite Nat.eqb_refl. do 2 f_equal. lia.
            * rewrite (NG a w Ta Oa Hn Ga) by (destruct (is_new2 b); lia).
              assert (Lb : (0 <= w2_last (fst (exec2 eig w b)) < maxid)%Z).
              { rewrite A2. destruct (grows b) eqn:Gb; [rewrite (grows_le b Gb) in HB|]; destruct (is_new2 b); lia. }
              rewrite (NG a _ Ta Oa Hn Ga Lb). exact BW.
          + apply exec2_local; [exact Oa| |exact BW|rewrite Hn; discriminate].
            intros u Hu. destruct (DEC b) as [(b1 & ->)|Ob]; [now rewrite exec2_frame1|].
            apply exec2_frame; [exact Ob|]. intros ->. revert Hu. now apply (unrelated_only a b).
        - intro Ob. apply exec2_frame; [exact Ob|]. now apply (unrelated_only a b). }
      destruct (DEC a) as [(a1 & ->)|Oa], (DEC b) as [(b1 & ->)|Ob].
      + now rewrite !exec2_frame1.
      + destruct (Nat.eq_dec v (writes2 b)) as [->|Hv].
        * destruct (HALF b (E1 a1) Ob (unrelated2_sym _ _ U) Tb Ta ltac:(rewrite andb_comm; exact GG) A2 A1 ltac:(lia)) as [Q _].
          rewrite Q. now rewrite exec2_frame1.
        * rewrite exec2_frame1. rewrite !(exec2_frame _ b v Ob Hv). now rewrite exec2_frame1.
      + destruct (Nat.eq_dec v (writes2 a)) as [->|Hv].
        * destruct (HALF a (E1 b1) Oa U Ta Tb GG A1 A2 ltac:(lia)) as [Q _].
          rewrite Q. now rewrite exec2_frame1.
        * rewrite exec2_frame1. rewrite !(exec2_frame _ a v Oa Hv). now rewrite exec2_frame1.
      + destruct (HALF a b Oa U Ta Tb GG A1 A2 ltac:(lia)) as [Qa Qa'].
        destruct (HALF b a Ob (unrelated2_sym _ _ U) Tb Ta ltac:(rewrite andb_comm; exact GG) A2 A1 ltac:(lia)) as [Qb Qb'].
        destruct (Nat.eq_dec v (writes2 a)) as [->|Hva]; [now rewrite Qa, (Qa' Ob)|].
        destruct (Nat.eq_dec v (writes2 b)) as [->|Hvb]; [now rewrite Qb, (Qb' Oa)|].
        now rewrite !exec2_frame by assumption.
  Qed.
End Eig.
