(** * IeeeProofs: histories on doubles (C52 - C55) *)

From Coq Require Import List ZArith Reals Bool Lra Lia.
From Flocq Require Import Core BinarySingleNaN.
From Verif Require Import Base Num Map UReal World URealFacts SpecObs URealProofs URealProofs2 Ieee IeeeFacts SpecIeee.
Import ListNotations.

Lemma DN_lt00 : nltb (n0 : DN) n0 = false. Proof. reflexivity. Qed.
Lemma dreach_wwf w : dreachable w -> wwf w /\ (w_last w < maxid)%Z.
Proof.
  intros (cs & (F & C) & E). destruct (gen_run_init DN_lt00 cs F C) as (w' & E' & W & _ & B).
  rewrite E in E'. injection E' as <-. now split.
Qed.

(** ** Congruence up to the sign of zero *)
Lemma zeq_trans a b c : zeq a b -> zeq b c -> zeq a c.
Proof. intros [->|[A B]] [->|[C D]]; [now left|now right|now right|now right]. Qed.
Lemma is_zero_add a b : is_zero a -> is_zero b -> is_zero (dadd a b).
Proof. intros [->| ->] [->| ->]; cbn; ((now left) || now right). Qed.
Lemma zeq_add_l a b c : is_zero b -> is_zero c -> zeq (dadd a b) (dadd a c).
Proof.
  intros B C. destruct a as [s|s| |s m e H].
  - right. split; apply is_zero_add; auto; destruct s; ((now left) || now right).
  - left. destruct B as [->| ->], C as [->| ->]; reflexivity.
  - left. destruct B as [->| ->], C as [->| ->]; reflexivity.
  - left. destruct B as [->| ->], C as [->| ->]; reflexivity.
Qed.
Lemma zeq_add a a' b b' : zeq a a' -> zeq b b' -> zeq (dadd a b) (dadd a' b').
Proof.
  intros A B. apply zeq_trans with (dadd a b').
  - destruct B as [->|[B B']]; [now left|now apply zeq_add_l].
  - destruct A as [->|[A A']]; [now left|]. rewrite (dadd_comm a b'), (dadd_comm a' b'). now apply zeq_add_l.
Qed.
Lemma zeq_abs a b : zeq a b -> dabs a = dabs b.
Proof. intros [->|[[->| ->] [->| ->]]]; reflexivity. Qed.
Lemma zeq_sq a b : zeq a b -> dmul a a = dmul b b.
Proof. intros [->|[[->| ->] [->| ->]]]; reflexivity. Qed.
Lemma zeq_leb a b : zeq a b -> Bleb dzero a = Bleb dzero b.
Proof. intros [->|[[->| ->] [->| ->]]]; reflexivity. Qed.
Lemma zeq_ltb a b : zeq a b -> Bltb dzero a = Bltb dzero b.
Proof. intros [->|[[->| ->] [->| ->]]]; reflexivity. Qed.
Lemma zeq_ltb' a b : zeq a b -> Bltb a dzero = Bltb b dzero.
Proof. intros [->|[[->| ->] [->| ->]]]; reflexivity. Qed.

Definition ozeq (a b : option double) : Prop :=
  match a, b with Some a, Some b => zeq a b | None, None => True | _, _ => False end.
Definition lzeq (l l' : list (Z * double)) : Prop :=
  Forall2 (fun p q => fst p = fst q /\ zeq (snd p) (snd q)) l l'.
Lemma ozeq_refl a : ozeq a a. Proof. destruct a; cbn; auto using zeq_refl. Qed.
Lemma lzeq_refl l : lzeq l l. Proof. induction l; constructor; auto using zeq_refl. Qed.
Lemma lzeq_find k l l' : lzeq l l' -> ozeq (mfind k l) (mfind k l').
Proof.
  induction 1 as [|[i a] [j b] l l' [E Z] H IH]; [exact I|]. cbn [fst snd] in E, Z. subst j. cbn [mfind].
  destruct (kcmp k i); cbn; auto.
Qed.
Lemma lzeq_ext m1 : forall m2, msorted m1 -> msorted m2 -> (forall k : Z, ozeq (mfind k m1) (mfind k m2)) -> lzeq m1 m2.
Proof.
  induction m1 as [|[k v] m1 IH]; intros [|[k2 v2] m2] S1 S2 H.
  - constructor.
  - specialize (H k2). cbn [mfind] in H. rewrite kcmp_refl in H. destruct H.
  - specialize (H k). cbn [mfind] in H. rewrite kcmp_refl in H. destruct H.
  - destruct (msorted_inv _ _ _ S1) as [S1' L1]. destruct (msorted_inv _ _ _ S2) as [S2' L2].
    assert (k = k2) as <-.
    { destruct (kcmp k k2) eqn:E.
      - now apply kcmp_eq.
      - specialize (H k). cbn [mfind] in H. rewrite kcmp_refl, E in H. destruct H.
      - apply kcmp_gt in E. specialize (H k2). cbn [mfind] in H. rewrite kcmp_refl, E in H. destruct H. }
    constructor.
    + split; [reflexivity|]. specialize (H k). cbn [mfind] in H. rewrite !kcmp_refl in H. exact H.
    + apply IH; try assumption. intro k0. destruct (kcmp k0 k) eqn:E.
      * apply kcmp_eq in E; subst.
        rewrite (proj2 (mfind_None_iff k m1 S1')), (proj2 (mfind_None_iff k m2 S2'));
          [exact I| |]; intro Hin; [apply L2 in Hin|apply L1 in Hin]; now apply klt_irrefl in Hin.
      * rewrite (mfind_None_lt k0 m1), (mfind_None_lt k0 m2); [exact I| | | |]; auto;
          intros k' Hk'; eapply klt_trans; eauto.
      * specialize (H k0). cbn [mfind] in H. rewrite E in H. exact H.
Qed.

(** Variables that differ only in signs of zeros. *)
Definition zrel (x y : ureal DN) : Prop :=
  uid x = uid y /\ umu x = umu y /\ (zeq (usdev x) (usdev y) /\ ((uid x < 0)%Z -> usdev x = usdev y)) /\ lzeq (usigma x) (usigma y).
Definition wzrel (w1 w2 : world DN) : Prop :=
  w_last w1 = w_last w2 /\ forall v, zrel (w_var w1 v) (w_var w2 v).
Lemma zrel_refl x : zrel x x.
Proof. repeat split; auto using zeq_refl, lzeq_refl. Qed.
Lemma zrel_sd x y : zrel x y -> zeq (usdev x) (usdev y).
Proof. intros (_ & _ & [C _] & _). exact C. Qed.
Lemma zrel_find k x y : zrel x y -> ozeq (ufind k x) (ufind k y).
Proof.
  intros (A & B & [C _] & D). unfold ufind. rewrite A. destruct (0 <? uid y)%Z.
  - destruct (k =? uid y)%Z; [exact C|exact I].
  - destruct (uid y <? 0)%Z; [now apply lzeq_find|exact I].
Qed.
(** dependent results *)
Lemma zrel_dep last (x y : ureal DN) : wf last x -> wf last y -> uid x = invalid_id -> uid y = invalid_id -> umu x = umu y ->
  usdev x = usdev y -> (forall k, ozeq (ufind k x) (ufind k y)) -> zrel x y.
Proof.
  intros Wx Wy Ux Uy M Sd F. split; [congruence|]. split; [exact M|]. split; [split; [left; exact Sd|intros _; exact Sd]|].
  apply lzeq_ext; [apply Wx|apply Wy|]. intro k. specialize (F k). unfold ufind in F. rewrite Ux, Uy in F. exact F.
Qed.
Lemma zeq_mul_r d a b : zeq a b -> zeq (dmul d a) (dmul d b).
Proof. rewrite !(dmul_comm d). apply zeq_mul. Qed.
Lemma comb2_zeq dx dy a b a' b' : ozeq a a' -> ozeq b b' ->
  ozeq (comb2 (N := DN) dx dy a b) (comb2 (N := DN) dx dy a' b').
Proof.
  destruct a as [a|], a' as [a'|]; try (intros []; fail); destruct b as [b|], b' as [b'|]; try (intros ? []; fail);
    cbv beta iota delta [ozeq comb2 nadd nmul DN n0]; intros A B; try exact I; repeat apply zeq_add; try apply zeq_mul_r; auto using zeq_refl.
Qed.
Lemma comb2_comm dx dy a b : ozeq (comb2 (N := DN) dx dy a b) (comb2 (N := DN) dy dx b a).
Proof.
  destruct a as [a|], b as [b|]; cbv beta iota delta [ozeq comb2 nadd nmul DN n0]; try exact I.
  - left. apply dadd_comm.
  - apply zeq_sym, zeq_add0.
  - apply zeq_add0.
Qed.
Lemma comb2a_comb2 dt dx a b : comb2a (N := DN) dt dx a b = comb2 (N := DN) dt dx a b.
Proof.
  assert (E : forall a : double, scale_own (N := DN) dt a = dmul dt a).
  { intro c. unfold scale_own. cbn [neqb DN n1 nmul]. destruct (Beqb dt (dofZ 1)) eqn:B; cbn [negb].
    - apply Beqb_one in B. subst dt. symmetry. apply dmul_1_l.
    - apply dmul_comm. }
  destruct a as [a|], b as [b|]; cbn [comb2a comb2]; rewrite ?E; reflexivity.
Qed.

Lemma lzeq_mmap (f g : double -> double) l l' : (forall a b, zeq a b -> zeq (f a) (g b)) -> lzeq l l' -> lzeq (mmap f l) (mmap g l').
Proof.
  intro H. induction 1 as [|[i a] [j b] l l' [E Z] F IH]; [constructor|]. cbn [fst snd] in *. subst j.
  constructor; [|exact IH]. cbn [fst snd]. auto.
Qed.
Lemma zrel_unary x y mu d : zrel x y -> zrel (u_unary x mu d) (u_unary y mu d).
Proof.
  intros (A & B & [C _] & D). unfold u_unary. rewrite A. destruct (Z.ltb_spec 0 (uid y)).
  - repeat split; auto using lzeq_refl; [|cbn [uid]; lia]. cbn [usdev]. change (zeq (dmul (usdev x) d) (dmul (usdev y) d)). now apply zeq_mul.
  - destruct (uid y <? 0)%Z; [|apply zrel_refl]. repeat split; auto using zeq_refl. cbn [usigma].
    apply lzeq_mmap; [|exact D]. intros a b E. now apply zeq_mul.
Qed.
Lemma zrel_binary last x x' y y' mu dx dy : wf last x -> wf last x' -> wf last y -> wf last y' -> (last < maxid)%Z ->
  zrel x x' -> zrel y y' ->
  exists z z', u_binary x y mu dx dy = Ret z /\ u_binary x' y' mu dx dy = Ret z' /\ zrel z z'.
Proof.
  intros Wx Wx' Wy Wy' B Zx Zy. destruct (binary_wf last x y mu dx dy Wx Wy B) as (z & E & W & M & F & U & Sd).
  destruct (binary_wf last x' y' mu dx dy Wx' Wy' B) as (z' & E' & W' & M' & F' & U' & Sd').
  exists z, z'. split; [exact E|]. split; [exact E'|]. apply (zrel_dep last); auto; try congruence.
  intro k. rewrite F, F'. apply comb2_zeq; now apply zrel_find.
Qed.
Lemma ozeq_trans a b c : ozeq a b -> ozeq b c -> ozeq a c.
Proof. destruct a, b, c; cbn; try tauto. apply zeq_trans. Qed.
Lemma zrel_swap last x x' y y' mu dx dy : wf last x -> wf last x' -> wf last y -> wf last y' -> (last < maxid)%Z ->
  zrel x x' -> zrel y y' ->
  exists z z', u_binary x y mu dx dy = Ret z /\ u_binary y' x' mu dy dx = Ret z' /\ zrel z z'.
Proof.
  intros Wx Wx' Wy Wy' B Zx Zy. destruct (binary_wf last x y mu dx dy Wx Wy B) as (z & E & W & M & F & U & Sd).
  destruct (binary_wf last y' x' mu dy dx Wy' Wx' B) as (z' & E' & W' & M' & F' & U' & Sd').
  exists z, z'. split; [exact E|]. split; [exact E'|]. apply (zrel_dep last); auto; try congruence.
  intro k. rewrite F, F'. eapply ozeq_trans; [apply comb2_comm|]. apply comb2_zeq; now apply zrel_find.
Qed.
Lemma zrel_assign_binary last x x' y y' mu dx dy : wf last x -> wf last x' -> wf last y -> wf last y' -> (last < maxid)%Z ->
  zrel x x' -> zrel y y' ->
  exists z', u_binary x' y' mu dx dy = Ret z' /\ zrel (u_binary_assign x y mu dx dy) z'.
Proof.
  intros Wx Wx' Wy Wy' B Zx Zy. destruct (binary_assign_wf last x y mu dx dy Wx Wy) as (W & F & M).
  destruct (binary_wf last x' y' mu dx dy Wx' Wy' B) as (z' & E' & W' & M' & F' & U' & Sd').
  exists z'. split; [exact E'|]. apply (zrel_dep last); auto; try congruence.
  intro k. rewrite F, F', comb2a_comb2. apply comb2_zeq; now apply zrel_find.
Qed.
Lemma zrel_assign last x x' y y' mu dx dy : wf last x -> wf last x' -> wf last y -> wf last y' ->
  zrel x x' -> zrel y y' -> zrel (u_binary_assign x y mu dx dy) (u_binary_assign x' y' mu dx dy).
Proof.
  intros Wx Wx' Wy Wy' Zx Zy. destruct (binary_assign_wf last x y mu dx dy Wx Wy) as (W & F & M).
  destruct (binary_assign_wf last x' y' mu dx dy Wx' Wy') as (W' & F' & M').
  apply (zrel_dep last); auto; try congruence.
  intro k. rewrite F, F', !comb2a_comb2. apply comb2_zeq; now apply zrel_find.
Qed.
Lemma zrel_self x y mu dt dx : zrel x y -> zrel (u_binary_assign_self x mu dt dx) (u_binary_assign_self y mu dt dx).
Proof.
  intros (A & B & [C C'] & D). unfold u_binary_assign_self. rewrite A. repeat split; cbn [uid usdev usigma].
  - change (zeq (if Bltb dzero (usdev x) || (0 <? uid y)%Z then dmul (usdev x) (dadd dt dx) else usdev x)
                (if Bltb dzero (usdev y) || (0 <? uid y)%Z then dmul (usdev y) (dadd dt dx) else usdev y)).
    rewrite (zeq_ltb _ _ C). destruct (_ || _); [now apply zeq_mul|exact C].
  - intro U. rewrite C' by lia. reflexivity.
  - apply lzeq_mmap; [|exact D]. intros a b E. now apply zeq_mul.
Qed.
Lemma zrel_assign_gen last al x x' y y' mu dx dy : wf last x -> wf last x' -> wf last y -> wf last y' ->
  zrel x x' -> zrel y y' -> zrel (u_assign_gen al x y mu dx dy) (u_assign_gen al x' y' mu dx dy).
Proof. intros. destruct al; [now apply zrel_self|]. now apply (zrel_assign last). Qed.
Definition nary_step (k : Z) (acc : option double) (xd : ureal DN * double) : option double :=
  match ufind k (fst xd) with
  | Some v => Some (dadd (match acc with Some p => p | None => dzero end) (dmul (snd xd) v))
  | None => acc
  end.
Lemma nary_fold_zeq k xs xs' : Forall2 zrel xs xs' -> forall dxs acc acc', ozeq acc acc' ->
  ozeq (fold_left (nary_step k) (combine xs dxs) acc) (fold_left (nary_step k) (combine xs' dxs) acc').
Proof.
  induction 1 as [|x x' xs xs' Zx Zxs IH]; intros [|d dxs] acc acc' G; cbn [combine fold_left]; try exact G.
  apply IH. unfold nary_step. cbn [fst snd]. assert (K := zrel_find k x x' Zx).
  destruct (ufind k x) as [a|], (ufind k x') as [b|]; try (destruct K; fail); [|exact G].
  cbn [ozeq]. apply zeq_add; [|now apply zeq_mul_r].
  destruct acc, acc'; try (destruct G; fail); [exact G|apply zeq_refl].
Qed.
Lemma zrel_nary last xs xs' mu dxs : Forall (wf last) xs -> Forall (wf last) xs' -> Forall2 zrel xs xs' -> (List.length xs <= List.length dxs)%nat ->
  exists z z', u_nary xs mu dxs = Ret z /\ u_nary xs' mu dxs = Ret z' /\ zrel z z'.
Proof.
  intros W W' Z L. assert (L' : (List.length xs' <= List.length dxs)%nat) by (replace (List.length xs') with (List.length xs); [exact L|]; clear - Z; induction Z; cbn; congruence).
  destruct (nary_loop_wf last xs dxs [] W L msorted_nil) as (z & E & S & F).
  destruct (nary_loop_wf last xs' dxs [] W' L' msorted_nil) as (z' & E' & S' & F').
  unfold u_nary. rewrite E, E'. cbn [bind]. eexists. eexists. split; [reflexivity|]. split; [reflexivity|].
  repeat split; auto using zeq_refl. cbn [usigma]. apply lzeq_ext; [exact S|exact S'|]. intro k. rewrite F, F'.
  apply nary_fold_zeq; [exact Z|exact I].
Qed.

Lemma lzeq_s2 l l' : lzeq l l' -> forall acc : double, acc <> mzero ->
  fold_left (fun (acc : double) (kv : Z * double) => dadd acc (dmul (snd kv) (snd kv))) l acc
  = fold_left (fun (acc : double) (kv : Z * double) => dadd acc (dmul (snd kv) (snd kv))) l' acc.
Proof.
  induction 1 as [|[i a] [j b] l l' [E Z] F IH]; intros acc H; [reflexivity|]. cbn [fst snd] in *. subst j. cbn [fold_left snd].
  rewrite (zeq_sq a b Z). apply IH. now apply dadd_pos.
Qed.
Lemma zrel_s2 x y : zrel x y -> u_s2 x = u_s2 y.
Proof. intros (_ & _ & _ & D). exact (lzeq_s2 _ _ D dzero dzero_pos). Qed.
Lemma zrel_s x y : zrel x y -> u_s x = u_s y.
Proof.
  intro H. unfold u_s. rewrite (zrel_s2 _ _ H). destruct H as (A & _ & [C C'] & _). rewrite A.
  destruct (Z.leb_spec 0 (uid y)); [exact (zeq_abs _ _ C)|]. now rewrite C' by lia.
Qed.
Lemma zrel_var x y : zrel x y -> u_var x = u_var y.
Proof.
  intro H. unfold u_var. rewrite (zrel_s2 _ _ H). destruct H as (A & _ & [C C'] & _). rewrite A.
  cbn [nleb DN n0]. rewrite (zeq_leb _ _ C). destruct (_ || _); [exact (zeq_sq _ _ C)|reflexivity].
Qed.
Lemma zrel_cov_loop l l' : lzeq l l' -> forall m m' (acc : double), lzeq m m' -> acc <> mzero ->
  u_cov_loop (N := DN) l m acc = u_cov_loop (N := DN) l' m' acc.
Proof.
  induction 1 as [|[i a] [i' a'] l l' [E Z] F IH]; intros m m' acc M.
  - intros _. destruct M; reflexivity.
  - cbn [fst snd] in *. subst i'. revert acc. induction M as [|[j b] [j' b'] m m' [E' Z'] M IHM]; intros acc H; [reflexivity|].
    cbn [fst snd] in *. subst j'. cbn [u_cov_loop]. 
    assert (Q : dadd acc (dmul a b) = dadd acc (dmul a' b')) by (apply acc_zeq; [exact H|now apply zeq_mul2]).
    assert (P := dadd_pos acc (dmul a b) H).
    destruct (Z.eqb_spec i j) as [->|N].
    + rewrite !Z.leb_refl. cbn [nadd nmul DN]. rewrite <- Q. now apply IH.
    + destruct (i <=? j)%Z; [destruct (j <=? i)%Z|].
      * now apply IH.
      * apply IH; [constructor; auto|exact H].
      * apply IHM, H.
Qed.
Lemma zrel_cov x x' y y' : zrel x x' -> zrel y y' -> u_cov x y = u_cov x' y'.
Proof.
  intros (A & _ & [C _] & D) (A' & _ & [C' _] & D'). unfold u_cov. rewrite A, A'. cbn [nadd nmul DN n0].
  assert (K : forall a b c d : double, zeq a b -> zeq c d -> dadd dzero (dmul a c) = dadd dzero (dmul b d)).
  { intros. apply acc_zeq; [exact dzero_pos|]. now apply zeq_mul2. }
  destruct (_ && _).
  - destruct (_ =? _)%Z; [|reflexivity]. now apply K.
  - destruct (_ && _).
    + assert (O := lzeq_find (uid y') _ _ D). revert O.
      change double with (T DN). destruct (mfind _ (usigma x)), (mfind _ (usigma x')); intro O; try (destruct O; fail); [|reflexivity]. now apply K.
    + destruct (_ && _).
      * assert (O := lzeq_find (uid x') _ _ D'). revert O.
        change double with (T DN). destruct (mfind _ (usigma y)), (mfind _ (usigma y')); intro O; try (destruct O; fail); [|reflexivity]. now apply K.
      * destruct (_ && _); [|reflexivity]. apply zrel_cov_loop; auto. exact dzero_pos.
Qed.
Lemma zrel_corr x x' y y' : zrel x x' -> zrel y y' -> u_corr x y = u_corr x' y'.
Proof. intros H H'. unfold u_corr. now rewrite (zrel_cov _ _ _ _ H H'), (zrel_s _ _ H), (zrel_s _ _ H'). Qed.
Lemma zrel_len x y : zrel x y -> List.length (usigma x) = List.length (usigma y).
Proof. intros (_ & _ & _ & D). induction D as [|? ? ? ? ? ? IH]; [reflexivity|]. exact (f_equal S IH). Qed.
Lemma wzrel_obs w1 w2 : wzrel w1 w2 -> same_obs w1 w2.
Proof.
  intros (_ & H) u v. assert (Hu := H u). assert (Hv := H v). split; [apply Hu|].
  split; [now apply zrel_s|]. split; [now apply zrel_var|].
  split; [|split; [|split; [now apply zrel_cov|now apply zrel_corr]]].
  - unfold u_isindep. rewrite (zrel_len _ _ Hu). destruct Hu as (A & _). now rewrite A.
  - unfold u_indepid. rewrite (zrel_len _ _ Hu). destruct Hu as (A & _ & _ & D). rewrite A.
    destruct D as [|[i a] [j b] l l' [E _] D]; [reflexivity|]. cbn [fst] in E. now subst j.
Qed.

(** ** Histories *)
Lemma wzrel_set w1 w2 v x y : wzrel w1 w2 -> zrel x y -> wzrel (w_set w1 v x) (w_set w2 v y).
Proof. intros [E H] Z. split; [exact E|]. intro u. cbn. unfold upd. destruct (Nat.eqb u v); auto. Qed.
Lemma zrel_caching x y : zrel x y -> zrel (snd (u_s_caching x)) (snd (u_s_caching y)).
Proof.
  intro H. unfold u_s_caching. rewrite (zrel_s2 _ _ H). assert (H' := H). destruct H' as (A & B & [C C'] & D). rewrite A, B.
  destruct (Z.leb_spec 0 (uid y)); [exact H|]. cbn [snd nltb DN n0]. rewrite (zeq_ltb' _ _ C).
  destruct (Bltb _ _); [|exact H]. repeat split; auto using zeq_refl.
Qed.
Lemma wzrel_exec w1 w2 c1 c2 : wwf w1 -> wwf w2 -> wzrel w1 w2 -> rewritten c1 c2 -> nary_ok c1 ->
  (w_last w1 < maxid)%Z ->
  wzrel (fst (exec w1 c1)) (fst (exec w2 c2)) /\ snd (exec w1 c1) = snd (exec w2 c2).
Proof.
  intros (_ & W1) (_ & W2) HZ Rw NA B. assert (HZ' := HZ). destruct HZ' as (E & H). rewrite <- E in W2.
  assert (Mu : forall v, umu (w_var w1 v) = umu (w_var w2 v)) by (intro v; apply H).
  assert (Fin : forall v o1 o2 z z', o1 = Ret z -> o2 = Ret z' -> zrel z z' ->
    wzrel (fst (assign_result w1 v o1)) (fst (assign_result w2 v o2)) /\ snd (assign_result w1 v o1) = snd (assign_result w2 v o2)).
  { intros v o1 o2 z z' -> -> Z. split; [|reflexivity]. now apply wzrel_set. }
  assert (Bin : forall v x y mu dx dy,
    wzrel (fst (assign_result w1 v (u_binary (w_var w1 x) (w_var w1 y) mu dx dy)))
          (fst (assign_result w2 v (u_binary (w_var w2 x) (w_var w2 y) mu dx dy))) /\
    snd (assign_result w1 v (u_binary (w_var w1 x) (w_var w1 y) mu dx dy)) =
    snd (assign_result w2 v (u_binary (w_var w2 x) (w_var w2 y) mu dx dy))).
  { intros. destruct (zrel_binary (w_last w1) (w_var w1 x) (w_var w2 x) (w_var w1 y) (w_var w2 y) mu dx dy) as (z & z' & E1 & E2 & Z); auto.
    eapply Fin; eauto. }
  assert (Swp : forall v x y mu dx dy,
    wzrel (fst (assign_result w1 v (u_binary (w_var w1 x) (w_var w1 y) mu dx dy)))
          (fst (assign_result w2 v (u_binary (w_var w2 y) (w_var w2 x) mu dy dx))) /\
    snd (assign_result w1 v (u_binary (w_var w1 x) (w_var w1 y) mu dx dy)) =
    snd (assign_result w2 v (u_binary (w_var w2 y) (w_var w2 x) mu dy dx))).
  { intros. destruct (zrel_swap (w_last w1) (w_var w1 x) (w_var w2 x) (w_var w1 y) (w_var w2 y) mu dx dy) as (z & z' & E1 & E2 & Z); auto.
    eapply Fin; eauto. }
  assert (Asg : forall v x mu dx dy, v <> x ->
    wzrel (w_set w1 v (u_assign_gen (Nat.eqb v x) (w_var w1 v) (w_var w1 x) mu dx dy))
          (fst (assign_result w2 v (u_binary (w_var w2 v) (w_var w2 x) mu dx dy))) /\
    Ret tt = snd (assign_result w2 v (u_binary (w_var w2 v) (w_var w2 x) mu dx dy))).
  { intros v x mu dx dy Nv. apply Nat.eqb_neq in Nv. rewrite Nv. cbn [u_assign_gen].
    destruct (zrel_assign_binary (w_last w1) (w_var w1 v) (w_var w2 v) (w_var w1 x) (w_var w2 x) mu dx dy) as (z' & E2 & Z); auto.
    rewrite E2. split; [|reflexivity]. now apply wzrel_set. }
  assert (Gen : forall v al x y mu dx dy,
    wzrel (w_set w1 v (u_assign_gen al (w_var w1 x) (w_var w1 y) mu dx dy)) (w_set w2 v (u_assign_gen al (w_var w2 x) (w_var w2 y) mu dx dy))).
  { intros. apply wzrel_set; [exact HZ|]. now apply (zrel_assign_gen (w_last w1)). }
  destruct Rw; cbn [exec]; unfold u_n, u_add, u_sub, u_mul, u_div, u_add_assign, u_sub_assign, u_mul_assign, u_div_assign, u_neg in *;
    rewrite ?Mu.
  - destruct c; cbn [exec]; unfold u_n, u_add, u_sub, u_mul, u_div, u_add_assign, u_sub_assign, u_mul_assign, u_div_assign, u_neg in *;
      rewrite ?Mu; try apply Bin; try (split; [apply Gen|reflexivity]);
      try (split; [apply wzrel_set; [exact HZ|apply zrel_unary, H]|reflexivity]).
    + rewrite E. destruct (u_new (w_last w2) n s) as [l o]. destruct o; cbn [assign_result fst snd]; (split; [|reflexivity]); try (split; [reflexivity|exact H]).
      apply wzrel_set; [split; [reflexivity|exact H]|apply zrel_refl].
    + split; [apply wzrel_set; [exact HZ|apply zrel_refl]|reflexivity].
    + split; [apply wzrel_set; [exact HZ|apply zrel_refl]|reflexivity].
    + split; [apply wzrel_set; [exact HZ|apply H]|reflexivity].
    + split; [apply wzrel_set; [exact HZ|]|reflexivity]. destruct (H x) as (A1 & A2 & A3 & A4). repeat split; try apply A3; auto.
    + replace (map (fun x => umu (w_var w2 x)) xs) with (map (fun x => umu (w_var w1 x)) xs) by (apply map_ext; exact Mu).
      destruct (zrel_nary (w_last w1) (map (w_var w1) xs) (map (w_var w2) xs) (f (map (fun x => umu (w_var w1 x)) xs)) (dfs (map (fun x => umu (w_var w1 x)) xs)))
        as (z & z' & E1 & E2 & Z).
      * apply List.Forall_forall. intros x Hx. apply in_map_iff in Hx as (i & <- & _). apply W1.
      * apply List.Forall_forall. intros x Hx. apply in_map_iff in Hx as (i & <- & _). apply W2.
      * clear - H. induction xs; constructor; auto.
      * rewrite map_length. apply NA. now rewrite map_length.
      * eapply Fin; eauto.
    + split; [apply wzrel_set; [exact HZ|apply zrel_caching, H]|reflexivity].
    + split; [apply wzrel_set; [exact HZ|rewrite !var_caching_snd; apply zrel_caching, H]|reflexivity].
  - assert (Ca : forall a b : DN, nadd a b = nadd b a) by exact dadd_comm.
    rewrite (Ca (umu (w_var w2 x)) (umu (w_var w2 y))). apply Swp.
  - assert (Cm : forall a b : DN, nmul a b = nmul b a) by exact dmul_comm.
    rewrite (Cm (umu (w_var w2 x)) (umu (w_var w2 y))). apply Swp.
  - apply Swp.
  - now apply Asg.
  - now apply Asg.
  - now apply Asg.
  - now apply Asg.
  - now apply Asg.
Qed.
Lemma rewritten_new c1 c2 : rewritten c1 c2 -> is_new c1 = is_new c2.
Proof. destruct 1; reflexivity. Qed.
Lemma rewritten_nary c1 c2 : rewritten c1 c2 -> nary_ok c1 -> nary_ok c2.
Proof. destruct 1; auto; intros; exact I. Qed.
Lemma wzrel_run cs1 cs2 : Forall2 rewritten cs1 cs2 -> forall w1 w2, wwf w1 -> wwf w2 -> wzrel w1 w2 -> List.Forall nary_ok cs1 ->
  (w_last w1 + Z.of_nat (count_new cs1) < maxid)%Z ->
  exists a b, run w1 cs1 = Ret a /\ run w2 cs2 = Ret b /\ wzrel a b.
Proof.
  induction 1 as [|c1 c2 cs1 cs2 Rc Rcs IH]; intros w1 w2 W1 W2 Z F B.
  - exists w1, w2. auto.
  - inversion F as [|? ? Fc Fcs]; subst.
    assert (C : Z.of_nat (count_new (c1 :: cs1)) = ((if is_new c1 then 1 else 0) + Z.of_nat (count_new cs1))%Z).
    { unfold count_new. cbn [filter]. destruct (is_new c1); cbn [List.length]; lia. }
    destruct (wzrel_exec w1 w2 c1 c2 W1 W2 Z Rc Fc) as (Z1 & O1); [lia|].
    destruct (gen_exec DN_lt00 w1 c1 W1 Fc) as (W1' & L1 & O); [destruct (is_new c1); lia|].
    destruct (gen_exec DN_lt00 w2 c2 W2 (rewritten_nary _ _ Rc Fc)) as (W2' & L2 & _).
    { rewrite <- (rewritten_new _ _ Rc). destruct Z as [<- _]. destruct (is_new c1); lia. }
    cbn [run]. destruct (exec w1 c1) as [w1' o1], (exec w2 c2) as [w2' o2]. cbn [fst snd] in *. subst o2.
    destruct (IH w1' w2' W1' W2' Z1 Fcs) as (a & b & Ea & Eb & Zab); [lia|].
    exists a, b. destruct O as [-> | ->]; auto.
Qed.
Lemma C53_rewriting_proof : forall cs1 cs2, dlegal cs1 -> Forall2 rewritten cs1 cs2 ->
  exists w1 w2, run w_init cs1 = Ret w1 /\ run w_init cs2 = Ret w2 /\ same_obs w1 w2.
Proof.
  intros cs1 cs2 (F & C) H. apply max_new_lt in C.
  destruct (wzrel_run cs1 cs2 H w_init w_init) as (a & b & Ea & Eb & Z).
  - split; [cbn; lia|]. intro v. apply default_wf.
  - split; [cbn; lia|]. intro v. apply default_wf.
  - split; [reflexivity|]. intro v. apply zrel_refl.
  - exact F.
  - cbn; lia.
  - exists a, b. split; [exact Ea|]. split; [exact Eb|]. now apply wzrel_obs.
Qed.
