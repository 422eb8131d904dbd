(** * U2Proofs2: queries of UReal2, assignment operator, comparison with UReal *)

From Coq Require Import List ZArith Bool Reals Lra Lia Sorted.
From Verif Require Import Base Num Map UReal World HessGrad Moments CheckMoments UReal2 World2 Sums SpecLin SpecObs
  URealFacts URealR URealProofs URealProofs2 HessProofs U2Facts U2World SpecU2 U2Values U2Ret SpecU2Run U2Proofs Demo Demo2.
Import ListNotations.
Local Open Scope R_scope.

(** ** The effect of one call on the values *)
Lemma jet_eq_to_diag a b : jet_eq a b -> jet_eq_diag a b.
Proof. intros (M & D & G & H). split; [exact M|]. split; [exact D|]. split; [exact G|]. intro i; apply H. Qed.
Lemma jet_eq_diag_trans a b c : jet_eq_diag a b -> jet_eq_diag b c -> jet_eq_diag a c.
Proof.
  intros (M1 & D1 & G1 & H1) (M2 & D2 & G2 & H2). split; [congruence|]. split; [intro i; rewrite D1; apply D2|].
  split; intros; [rewrite G1; apply G2|rewrite H1; apply H2].
Qed.
Lemma jet_eq_refl a : jet_eq a a.
Proof. split; [reflexivity|]. split; [reflexivity|]. split; reflexivity. Qed.

Lemma jet_of_fresh id n s m : jet_eq (jet_of (mkU2 (hg_diag id (fun _ => mkD s n0 (Some m)) hg_empty) n)) (jet_fresh id n s).
Proof.
  split; [reflexivity|]. split; [intro i; cbn; intuition congruence|].
  assert (F : forall i, mfind i [(id, mkD s (n0 : RN) (Some m))] = if (i =? id)%Z then Some (mkD s n0 (Some m)) else None).
  { intro i. cbn. rewrite <- Z.compare_eq_iff || idtac. destruct (Z.compare_spec i id) as [E|E|E].
    - subst. now rewrite Z.eqb_refl.
    - destruct (Z.eqb_spec i id); [lia|reflexivity].
    - destruct (Z.eqb_spec i id); [lia|reflexivity]. }
  split; intros; cbn [jet_of j_g j_h jet_fresh u2hg hg_diag diagmap trimap hg_empty mupd mset].
  - change (mupd diag0 id (fun _ => mkD s n0 (Some m)) []) with [(id, mkD s (n0 : RN) (Some m))]. rewrite F.
    destruct (i =? id)%Z; reflexivity.
  - change (mupd diag0 id (fun _ => mkD s n0 (Some m)) []) with [(id, mkD s (n0 : RN) (Some m))]. rewrite F.
    destruct (i =? j)%Z; [|reflexivity]. destruct (i =? id)%Z; reflexivity.
Qed.

Lemma exec2_jet eig env w c : wwf2 env w -> thr_number c -> (w2_last w + (if is_new2 c then 1 else 0) < maxid)%Z ->
  only2 c -> snd (exec2 eig w c) = Ret tt ->
  let g := fun v => jet_of (w2_var w v) in
  let w' := fst (exec2 eig w c) in
  exists v J, jet_call g (w2_last w) c = Some (v, J) /\
    jet_eq_diag (jet_of (w2_var w' v)) J /\ (jet_covered g c -> jet_eq (jet_of (w2_var w' v)) J) /\
    (forall u, u <> v -> w2_var w' u = w2_var w u) /\
    w2_last w' = (w2_last w + (if is_new2 c then 1 else 0))%Z /\ w2_w w' = mkW (w2_last w') (w_var (w2_w w)).
Proof.
  intros W HT HB HO HR g w'. assert (P := proj1 (proj1 W)). change (w_last (w2_w w)) with (w2_last w) in P.
  assert (Bm : (w2_last w < maxid)%Z) by (destruct (is_new2 c); lia).
  assert (K : forall v, hg_ok (u2hg (w2_var w v)) /\ kbelow (u2hg (w2_var w v))).
  { intro v. split; [apply (proj1 (proj2 W v))|]. eapply wf2_below; [apply W|lia]. }
  assert (Eta : forall W0 : world2 RN, w2_w W0 = mkW (w2_last W0) (w_var (w2_w W0))).
  { intros [[l f] h]. reflexivity. }
  assert (Fin : forall v x o, o = Ret x -> exec2 eig w c = assign2 w v o -> is_new2 c = false ->
    forall J, jet_call g (w2_last w) c = Some (v, J) -> jet_eq_diag (jet_of x) J -> (jet_covered g c -> jet_eq (jet_of x) J) ->
    exists v J, jet_call g (w2_last w) c = Some (v, J) /\
    jet_eq_diag (jet_of (w2_var w' v)) J /\ (jet_covered g c -> jet_eq (jet_of (w2_var w' v)) J) /\
    (forall u, u <> v -> w2_var w' u = w2_var w u) /\
    w2_last w' = (w2_last w + (if is_new2 c then 1 else 0))%Z /\ w2_w w' = mkW (w2_last w') (w_var (w2_w w))).
  { intros v x o -> E Hn J HJ H1 H2. exists v, J. unfold w'. rewrite E. cbn [assign2 fst w2_var upd2].
    unfold upd2. rewrite Nat.eqb_refl. split; [exact HJ|]. split; [exact H1|]. split; [exact H2|]. split.
    - intros u Hu. apply Nat.eqb_neq in Hu. now rewrite Hu.
    - rewrite Hn. split; [unfold w2_last; cbn; lia|]. exact (Eta w). }
  assert (FinN : forall v n s p, exec2 eig w c = assign2 (set_last w (w2_last w + 1)) v
      (Ret (mkU2 (hg_diag (w2_last w + 1) (fun _ => mkD s n0 (Some p)) hg_empty) n)) -> is_new2 c = true ->
    jet_call g (w2_last w) c = Some (v, jet_fresh (w2_last w + 1) n s) ->
    exists v J, jet_call g (w2_last w) c = Some (v, J) /\
    jet_eq_diag (jet_of (w2_var w' v)) J /\ (jet_covered g c -> jet_eq (jet_of (w2_var w' v)) J) /\
    (forall u, u <> v -> w2_var w' u = w2_var w u) /\
    w2_last w' = (w2_last w + (if is_new2 c then 1 else 0))%Z /\ w2_w w' = mkW (w2_last w') (w_var (w2_w w))).
  { intros v n s p E Hn HJ. exists v, (jet_fresh (w2_last w + 1) n s). split; [exact HJ|].
    unfold w'. rewrite E, Hn. cbn [assign2 fst w2_var upd2 set_last]. unfold upd2. rewrite Nat.eqb_refl.
    assert (J := jet_of_fresh (w2_last w + 1) n s p). split; [now apply jet_eq_to_diag|]. split; [intros _; exact J|]. split.
    - intros u Hu. apply Nat.eqb_neq in Hu. now rewrite Hu.
    - split; reflexivity. }
  destruct c as [c|v n m thr|v n s m thr|v n|v|v x|v x f f1 f2|v x y f fx fy fxx fyy fxy|v x|v x y|v x y|v x y|v x y].
  - destruct HO.
  - cbn [exec2 snd is_new2] in *. unfold u2_new in *.
    destruct (if negb (nltb thr n0) then _ else _) as [u|e| |]; cbn [snd assign2] in HR; try discriminate.
    rewrite wrap_small in * by lia. eapply FinN; reflexivity.
  - cbn [exec2 snd is_new2] in *. unfold u2_new_std in *.
    destruct (nltb s n0); [discriminate|].
    destruct (if negb (nltb thr n0) then _ else _) as [u|e| |]; cbn [snd assign2] in HR; try discriminate.
    rewrite wrap_small in * by lia. eapply FinN; reflexivity.
  - eapply Fin; try reflexivity; [|intros _]; try apply jet_eq_to_diag; (split; [reflexivity|]; split; [intro i; cbn; tauto|]; split; intros; cbn; try reflexivity; destruct (Z.eqb i j); reflexivity).
  - eapply Fin; try reflexivity; [|intros _]; try apply jet_eq_to_diag; (split; [reflexivity|]; split; [intro i; cbn; tauto|]; split; intros; cbn; try reflexivity; destruct (Z.eqb i j); reflexivity).
  - eapply Fin; try reflexivity; [apply jet_eq_to_diag|intros _]; apply jet_eq_refl.
  - destruct (K x) as [Ox _].
    destruct (jet_unary_ok (w2_var w x) (f (u2mu (w2_var w x))) (f1 (u2mu (w2_var w x))) (f2 (u2mu (w2_var w x))) Ox)
      as (z & E & _ & D & J & _).
    eapply Fin; [exact E|reflexivity|reflexivity|reflexivity|exact D|].
    intro C. apply J. apply single_covered; [exact Ox|exact C].
  - destruct (K x) as [Ox Kx]. destruct (K y) as [Oy Ky].
    destruct (jet_binary_ok (w2_var w x) (w2_var w y) (f (u2mu (w2_var w x)) (u2mu (w2_var w y)))
       (fx (u2mu (w2_var w x)) (u2mu (w2_var w y))) (fy (u2mu (w2_var w x)) (u2mu (w2_var w y)))
       (fxx (u2mu (w2_var w x)) (u2mu (w2_var w y))) (fyy (u2mu (w2_var w x)) (u2mu (w2_var w y)))
       (fxy (u2mu (w2_var w x)) (u2mu (w2_var w y))) Ox Oy Kx Ky) as (z & E & _ & D & J).
    eapply Fin; [exact E|reflexivity|reflexivity|reflexivity|exact D|].
    intros [C1 C2]. apply J; (apply single_covered; assumption).
  - destruct (K x) as [Ox _].
    destruct (jet_unary_ok (w2_var w x) (- u2mu (w2_var w x)) (-1) 0 Ox) as (z & E & _ & _ & J & _).
    assert (J' : jet_eq (jet_of z) (jet_neg (g x))).
    { eapply jet_eq_trans; [apply J; now left|]. split; [reflexivity|]. split; [reflexivity|].
      split; intros; cbn [jet_unary jet_neg j_g j_h]; unfold g; lra. }
    eapply Fin; [exact E|reflexivity|reflexivity|reflexivity|now apply jet_eq_to_diag|now intros _].
  - destruct (K x) as [Ox Kx]. destruct (K y) as [Oy Ky].
    destruct (jet_binary_ok (w2_var w x) (w2_var w y) (u2mu (w2_var w x) + u2mu (w2_var w y)) 1 1 0 0 0 Ox Oy Kx Ky) as (z & E & _ & _ & J).
    assert (J' : jet_eq (jet_of z) (jet_add (g x) (g y))).
    { eapply jet_eq_trans; [apply J; now left|]. split; [reflexivity|]. split; [reflexivity|].
      split; intros; cbn [jet_binary jet_add j_g j_h]; unfold g; lra. }
    eapply Fin; [exact E|reflexivity|reflexivity|reflexivity|now apply jet_eq_to_diag|now intros _].
  - destruct (K x) as [Ox Kx]. destruct (K y) as [Oy Ky].
    destruct (jet_binary_ok (w2_var w x) (w2_var w y) (u2mu (w2_var w x) - u2mu (w2_var w y)) 1 (-1) 0 0 0 Ox Oy Kx Ky) as (z & E & _ & _ & J).
    assert (J' : jet_eq (jet_of z) (jet_sub (g x) (g y))).
    { eapply jet_eq_trans; [apply J; now left|]. split; [reflexivity|]. split; [reflexivity|].
      split; intros; cbn [jet_binary jet_sub j_g j_h]; unfold g; lra. }
    eapply Fin; [exact E|reflexivity|reflexivity|reflexivity|now apply jet_eq_to_diag|now intros _].
  - destruct (K x) as [Ox Kx]. destruct (K y) as [Oy Ky].
    destruct (jet_binary_ok (w2_var w x) (w2_var w y) (u2mu (w2_var w x) * u2mu (w2_var w y))
       (u2mu (w2_var w y)) (u2mu (w2_var w x)) 0 0 1 Ox Oy Kx Ky) as (z & E & _ & _ & J).
    assert (J' : jet_eq (jet_of z) (jet_mul (g x) (g y))).
    { eapply jet_eq_trans; [apply J; now left|]. split; [reflexivity|]. split; [reflexivity|].
      split; intros; cbn [jet_binary jet_mul j_g j_h]; unfold g; cbn [jet_of j_mean]; lra. }
    eapply Fin; [exact E|reflexivity|reflexivity|reflexivity|now apply jet_eq_to_diag|now intros _].
  - destruct (K x) as [Ox Kx]. destruct (K y) as [Oy Ky].
    set (a := u2mu (w2_var w x) : R). set (b := u2mu (w2_var w y) : R).
    destruct (jet_binary_ok (w2_var w x) (w2_var w y) (a / b) (1 / b) (- a * (1 / b * (1 / b))) 0
       (2 * a * (1 / b * (1 / b)) * (1 / b)) (- (1 / b * (1 / b))) Ox Oy Kx Ky) as (z & E & _ & D & J).
    assert (E1 : 1 / b = / b) by (unfold Rdiv; ring).
    assert (E2 : - a * (1 / b * (1 / b)) = - a / b ^ 2).
    { rewrite E1. unfold Rdiv. cbn [pow]. rewrite !Rinv_mult, Rinv_1. ring. }
    assert (E3 : 2 * a * (1 / b * (1 / b)) * (1 / b) = 2 * a / b ^ 3).
    { rewrite E1. unfold Rdiv. cbn [pow]. rewrite !Rinv_mult, Rinv_1. ring. }
    assert (E4 : - (1 / b * (1 / b)) = - / b ^ 2).
    { rewrite E1. cbn [pow]. rewrite !Rinv_mult, Rinv_1. ring. }
    eapply Fin; [exact E|reflexivity|reflexivity|reflexivity| |].
    + cbv beta zeta. change (j_mean (g x)) with a. change (j_mean (g y)) with b. rewrite <- E2, <- E3, <- E4, <- E1. exact D.
    + cbv beta zeta. intro C. change (j_mean (g x)) with a. change (j_mean (g y)) with b. rewrite <- E2, <- E3, <- E4, <- E1.
      apply J; [now left|]. apply single_covered; [exact Oy|]. cbn [jet_covered] in C.
      destruct C as [C|C]; [left|now right]. change (a = 0) in C. rewrite C. ring.
Qed.

(** ** C36: comparison with UReal *)

Definition jlin (j : jet) (a : lin) : Prop :=
  j_mean j = l_mean a /\ (forall i, j_dep j i <-> l_dep a i) /\ (forall i, j_g j i = l_coef a i).

Lemma jlin_diag j j' a : jet_eq_diag j j' -> jlin j' a -> jlin j a.
Proof.
  intros (M & D & G & _) (M' & D' & G'). split; [congruence|]. split; [intro i; now rewrite D|].
  intro i. now rewrite G.
Qed.

Lemma new_nonneg eig (w : world2 RN) c v n s : only2 c -> snd (exec2 eig w c) = Ret tt -> first_call c = CNew v n s -> 0 <= s.
Proof.
  destruct c; cbn [only2 first_call]; intros HO HR [=]; subst; [tauto| |].
  - apply sqrt_pos.
  - cbn [exec2] in HR. unfold u2_new_std in HR. change (nltb s n0) with (Rltb s 0) in HR.
    destruct (Rltb_spec s 0); [discriminate|lra].
Qed.

Lemma first_sim eig cs : forall env w sw, wwf2 env w ->
  List.Forall nary_ok2 cs -> List.Forall thr_number cs -> List.Forall only2 cs -> accepted eig w cs ->
  (w2_last w + Z.of_nat (count_new2 cs) < maxid)%Z ->
  w2_last w = s_last sw -> (forall v, jlin (jet_of (w2_var w v)) (s_var sw v)) ->
  exists w', run2 eig w cs = Ret w' /\
    let sw' := spec_run sw (map first_call cs) in
    w2_last w' = s_last sw' /\ (forall v, jlin (jet_of (w2_var w' v)) (s_var sw' v)).
Proof.
  induction cs as [|c cs IH]; intros env w sw W FN FT FO AC HB HL HV.
  - exists w. split; [reflexivity|]. split; assumption.
  - inversion FN as [|? ? Nc Ncs]; subst. inversion FT as [|? ? Tc Tcs]; subst. inversion FO as [|? ? Oc Ocs]; subst.
    destruct AC as [Rc AC]. rewrite count_new2_cons in HB.
    assert (Hb : (w2_last w + (if is_new2 c then 1 else 0) < maxid)%Z) by (destruct (is_new2 c); lia).
    destruct (gen_exec2 Rltb_00 eig env w c W Nc Tc Hb) as (env1 & W1 & _).
    destruct (exec2_jet eig env w c W Tc Hb Oc Rc) as (v & J & HJ & D & _ & Hu & Hl & _).
    destruct (IH env1 (fst (exec2 eig w c)) (spec_exec sw (first_call c)) W1 Ncs Tcs Ocs AC) as (w' & E & L' & V').
    + rewrite Hl. lia.
    + rewrite Hl. assert (NN := fun v n s => new_nonneg eig w c v n s Oc Rc).
      destruct c; cbn [is_new2 first_call spec_exec s_set s_last only2] in *; try (now destruct Oc); try lia.
      * destruct (Rlt_dec (sqrt (c2nd m)) 0); cbn; lia.
      * destruct (Rlt_dec s 0); cbn; lia.
    + intro u.
      assert (Hset : forall a, spec_exec sw (first_call c) = s_set (mkS (s_last (spec_exec sw (first_call c))) (s_var sw)) v a ->
        jlin J a -> jlin (jet_of (w2_var (fst (exec2 eig w c)) u)) (s_var (spec_exec sw (first_call c)) u)).
      { intros a Ea HJa. rewrite Ea. cbn [s_set s_var]. destruct (Nat.eqb_spec u v) as [->|Huv].
        - eapply jlin_diag; [exact D|exact HJa].
        - rewrite Hu by exact Huv. apply HV. }
      assert (HM : forall x, u2mu (w2_var w x) = l_mean (s_var sw x)) by (intro x; apply (proj1 (HV x))).
      assert (HD : forall x i, j_dep (jet_of (w2_var w x)) i <-> l_dep (s_var sw x) i) by (intro x; apply HV).
      assert (HG : forall x i, j_g (jet_of (w2_var w x)) i = l_coef (s_var sw x) i) by (intro x; apply HV).
      assert (NN := fun v n s => new_nonneg eig w c v n s Oc Rc).
      destruct c; cbn [jet_call first_call only2] in *; try (now destruct Oc); injection HJ as <- <-.
      * assert (Hs : 0 <= sqrt (c2nd m)) by apply sqrt_pos.
        eapply Hset; [cbn [spec_exec]; destruct (Rlt_dec (sqrt (c2nd m)) 0) as [Hn|Hn]; [exfalso; apply Rlt_not_le in Hn; now apply Hn|]; reflexivity|].
        rewrite HL. split; [reflexivity|]. split; [reflexivity|]. intro i. cbn. destruct (Z.eq_dec i (s_last sw + 1)), (Z.eqb_spec i (s_last sw + 1)); congruence.
      * assert (Hs := NN _ _ _ eq_refl).
        eapply Hset; [cbn [spec_exec]; destruct (Rlt_dec s 0) as [Hn|Hn]; [exfalso; apply Rlt_not_le in Hn; now apply Hn|]; reflexivity|].
        rewrite HL. split; [reflexivity|]. split; [reflexivity|]. intro i. cbn. destruct (Z.eq_dec i (s_last sw + 1)), (Z.eqb_spec i (s_last sw + 1)); congruence.
      * eapply Hset; [reflexivity|]. split; [reflexivity|]. split; reflexivity.
      * eapply Hset; [reflexivity|]. split; [reflexivity|]. split; reflexivity.
      * eapply Hset; [reflexivity|]. apply HV.
      * eapply Hset; [reflexivity|]. cbv beta. rewrite HM. split; [reflexivity|]. split; intro i; cbn [j_dep l_dep j_g l_coef jet_unary lin_unary]; [apply HD|now rewrite HG].
      * eapply Hset; [reflexivity|]. cbv beta. rewrite !HM. split; [reflexivity|]. split; intro i; cbn [j_dep l_dep j_g l_coef jet_binary lin_binary]; [now rewrite !HD|now rewrite !HG].
      * eapply Hset; [reflexivity|]. split; [cbn [j_mean l_mean jet_of jet_neg lin_unary]; now rewrite HM|]. split; intro i; cbn [j_dep l_dep j_g l_coef jet_neg lin_unary]; [apply HD|rewrite HG; ring].
      * eapply Hset; [reflexivity|]. split; [cbn [j_mean l_mean jet_of jet_add lin_binary]; now rewrite !HM|]. split; intro i; cbn [j_dep l_dep j_g l_coef jet_add lin_binary]; [now rewrite !HD|rewrite !HG; ring].
      * eapply Hset; [reflexivity|]. split; [cbn [j_mean l_mean jet_of jet_sub lin_binary]; now rewrite !HM|]. split; intro i; cbn [j_dep l_dep j_g l_coef jet_sub lin_binary]; [now rewrite !HD|rewrite !HG; ring].
      * eapply Hset; [reflexivity|]. split; [cbn [j_mean l_mean jet_of jet_mul lin_binary]; now rewrite !HM|]. split; intro i; cbn [j_dep l_dep j_g l_coef jet_mul lin_binary]; [now rewrite !HD|rewrite !HG; cbn [j_mean jet_of]; rewrite !HM; ring].
      * eapply Hset; [reflexivity|]. split; [cbn [j_mean l_mean jet_of jet_binary lin_binary]; now rewrite !HM|]. split; intro i; cbn [j_dep l_dep j_g l_coef jet_binary lin_binary]; [now rewrite !HD|rewrite !HG].
        cbn [j_mean jet_of]. rewrite !HM. cbn [pow]. rewrite Rmult_1_r. reflexivity.
    + exists w'. split; [|exact (conj L' V')]. cbn [run2]. destruct (exec2 eig w c) as [w1 o]. cbn [fst snd] in *. subst o. exact E.
Qed.

(** ** C34: queries *)

Lemma indep_single (x : ureal2 RN) : hg_ok (u2hg x) -> (u2_isindep x = true <-> single (jet_of x)).
Proof.
  intro OK. unfold u2_isindep, hg_size. rewrite Nat.leb_le. split.
  - intros L i j. cbn [jet_of j_dep]. destruct (diagmap (u2hg x)) as [|[a da] [|? ?]]; cbn in *; try lia; intuition congruence.
  - intro S. assert (C : covered 1 x) by (apply single_covered; auto).
    assert (ND := sorted_keys_nodup _ OK).
    destruct (diagmap (u2hg x)) as [|[a da] [|[b db] l]] eqn:E; cbn [length]; try lia. exfalso.
    assert (a = b) by (apply S; cbn [jet_of j_dep]; rewrite E; cbn; auto). subst b.
    cbn in ND. inversion ND as [|? ? Hn _]; subst. apply Hn. now left.
Qed.

Definition indepid_spec (dep : Z -> Prop) (i : Z) : Prop :=
  (i = 0%Z /\ forall k, ~ dep k) \/
  ((0 < i)%Z /\ dep i /\ forall k, dep k -> k = i) \/
  (i = invalid_id /\ ~ (forall j k, dep j -> dep k -> j = k)).

Lemma indepid_ok last env (x : ureal2 RN) : wf2 last env x -> exists i, u2_indepid x = Ret i /\ indepid_spec (j_dep (jet_of x)) i.
Proof.
  intros [OK B]. unfold u2_indepid. destruct (u2_isindep x) eqn:E; cbn [negb].
  - unfold u2_isindep, hg_size in E. apply Nat.leb_le in E. unfold hg_size.
    destruct (diagmap (u2hg x)) as [|[a da] [|? ?]] eqn:D; cbn [length] in *; try lia; cbn [Nat.eqb].
    + exists 0%Z. split; [reflexivity|]. left. split; [reflexivity|]. intro k. cbn [jet_of j_dep]. rewrite D. cbn. tauto.
    + exists a. split; [reflexivity|]. right; left. destruct (B a da (or_introl eq_refl)) as [Ba _].
      split; [lia|]. cbn [jet_of j_dep]. rewrite D. cbn. split; [now left|]. intros k [Hk|[]]; congruence.
  - exists invalid_id. split; [reflexivity|]. right; right. split; [reflexivity|]. intro S.
    assert (S' : single (jet_of x)) by exact S. apply indep_single in S'; [congruence|exact OK].
Qed.

Lemma reach_wf2 eig (w : world2 RN) : reachable2 eig w -> exists env, forall v, wf2 (w2_last w) env (w2_var w v).
Proof. intro R. destruct (reachable2_wf Rltb_00 eig w R) as (env & [_ W] & _). eauto. Qed.

Lemma C34_isindep_indepid_proof : forall eig (w : world2 RN), reachable2 eig w -> forall v : nat,
  let x := w2_var w v in
  (u2_isindep x = true <-> forall i j, j_dep (jet_of x) i -> j_dep (jet_of x) j -> i = j) /\
  exists i, u2_indepid x = Ret i /\
    ((i = 0%Z /\ forall k, ~ j_dep (jet_of x) k) \/
     ((0 < i)%Z /\ j_dep (jet_of x) i /\ forall k, j_dep (jet_of x) k -> k = i) \/
     (i = invalid_id /\ ~ (forall j k, j_dep (jet_of x) j -> j_dep (jet_of x) k -> j = k))).
Proof.
  intros eig w R v x. destruct (reach_wf2 eig w R) as (env & W). split.
  - exact (indep_single x (proj1 (W v))).
  - exact (indepid_ok _ _ x (W v)).
Qed.

Lemma one_dep (x : ureal2 RN) : hg_ok (u2hg x) ->
  (exists i d, diagmap (u2hg x) = [(i, d)] /\ trimap (u2hg x) = [] /\ j_dep (jet_of x) i /\ (forall k, j_dep (jet_of x) k -> k = i) /\
     dgrad d = j_g (jet_of x) i /\ dhh d = j_h (jet_of x) i i) \/
  ((hg_size (u2hg x) =? 1)%nat = false /\ ~ exists i, j_dep (jet_of x) i /\ forall k, j_dep (jet_of x) k -> k = i).
Proof.
  intro OK. unfold hg_size. destruct (diagmap (u2hg x)) as [|[a da] [|[b db] l]] eqn:D.
  - right. split; [reflexivity|]. intros (i & Hi & _). cbn [jet_of j_dep] in Hi. rewrite D in Hi. destruct Hi.
  - left. exists a, da. split; [reflexivity|].
    assert (T : trimap (u2hg x) = []) by (apply trimap_small; [exact OK|rewrite D; cbn; lia]).
    split; [exact T|]. cbn [jet_of j_dep j_g j_h]. rewrite D, Z.eqb_refl. cbn. rewrite Z.compare_refl.
    split; [now left|]. split; [intros k [Hk|[]]; congruence|]. split; reflexivity.
  - right. split; [reflexivity|]. intros (i & _ & Hu). assert (ND := sorted_keys_nodup _ OK). rewrite D in ND.
    assert (a = b). { rewrite (Hu a), (Hu b); [reflexivity| |]; cbn [jet_of j_dep]; rewrite D; cbn; auto. }
    subst b. cbn in ND. inversion ND as [|? ? Hn _]; subst. apply Hn. now left.
Qed.

Lemma get_dgrad (t : ureal2 RN) i : dgrad (hg_diag_get (u2hg t) i) = j_g (jet_of t) i.
Proof. unfold hg_diag_get. cbn [jet_of j_g]. unfold mget. destruct (mfind i (diagmap (u2hg t))); reflexivity. Qed.

(** [grad] divides derivatives with respect to the variable of x. *)
Lemma C34_grad_proof : forall eig (w : world2 RN), reachable2 eig w -> forall u v : nat,
  let t := w2_var w u in let x := w2_var w v in
  (~ (exists i, j_dep (jet_of x) i /\ forall k, j_dep (jet_of x) k -> k = i) -> u2_grad t x = Throw InvalidArgument) /\
  (forall i, j_dep (jet_of x) i -> (forall k, j_dep (jet_of x) k -> k = i) -> j_g (jet_of x) i <> 0 ->
     exists D, u2_grad t x = Ret D /\ j_g (jet_of t) i = D * j_g (jet_of x) i).
Proof.
  intros eig w R u v t x. destruct (reach_ok eig w R v) as [Ox _]. fold x in Ox.
  destruct (one_dep x Ox) as [(i & d & D & T & Hi & Hu & Hg & _)|[Hs Hn]].
  - split; [intro H; exfalso; apply H; eauto|]. intros j Hj _ Hz. assert (j = i) by now apply Hu. subst j.
    unfold u2_grad, hg_size. rewrite D. cbn [length Nat.eqb negb]. rewrite get_dgrad, Hg.
    eexists. split; [reflexivity|]. cbn. field. exact Hz.
  - split; [intros _; unfold u2_grad; now rewrite Hs|]. intros i Hi Hu. exfalso. apply Hn. eauto.
Qed.

Lemma get_hhess (t : ureal2 RN) i j : hg_hhess_get (u2hg t) i j = Ret (j_h (jet_of t) i j).
Proof.
  unfold hg_hhess_get. cbn [jet_of j_h]. destruct (Z.eqb_spec i j) as [->|E]; cbn [negb].
  - unfold hg_diag_get, mget. destruct (mfind j (diagmap (u2hg t))); reflexivity.
  - unfold hg_tri_get. replace (Z.min i j <? Z.max i j)%Z with true by (symmetry; apply Z.ltb_lt; lia). reflexivity.
Qed.

(** [hess] solves the second-order chain rule for the derivative: with respect to two
    different variables, and with respect to twice the same variable, also when x is
    not linear in its independent variable. *)
Lemma C34_hess_proof : forall eig (w : world2 RN), reachable2 eig w -> forall s u v : nat,
  let t := jet_of (w2_var w s) in let x := jet_of (w2_var w u) in let y := jet_of (w2_var w v) in
  let h := u2_hess (w2_var w s) (w2_var w u) (w2_var w v) in
  (~ (exists i, j_dep x i /\ forall k, j_dep x k -> k = i) \/ ~ (exists i, j_dep y i /\ forall k, j_dep y k -> k = i) ->
     h = Throw InvalidArgument) /\
  (forall i j, j_dep x i -> (forall k, j_dep x k -> k = i) -> j_dep y j -> (forall k, j_dep y k -> k = j) ->
     (i <> j -> j_g x i <> 0 -> j_g y j <> 0 -> exists D, h = Ret D /\ j_h t i j = D / 2 * (j_g x i * j_g y j)) /\
     (i = j -> (j_g x i <> j_g y i \/ j_h x i i <> j_h y i i) -> h = Throw InvalidArgument) /\
     (i = j -> j_g x i = j_g y i -> j_h x i i = j_h y i i -> j_g x i <> 0 ->
        exists D F, h = Ret D /\ u2_grad (w2_var w s) (w2_var w u) = Ret F /\
          j_h t i i = F * j_h x i i + D / 2 * (j_g x i * j_g x i))).
Proof.
  intros eig w R s u v t x y h. destruct (reach_ok eig w R u) as [Ox _]. destruct (reach_ok eig w R v) as [Oy _].
  unfold h, u2_hess.
  destruct (one_dep (w2_var w u) Ox) as [(i & d & Dx & _ & Hi & Hui & Hg & Hh)|[Hs Hn]].
  2:{ rewrite Hs. cbn [negb orb]. split; [reflexivity|]. intros i j Hi Hu. exfalso. apply Hn. eauto. }
  destruct (one_dep (w2_var w v) Oy) as [(j & e & Dy & _ & Hj & Huj & Hg' & Hh')|[Hs Hn]].
  2:{ rewrite Hs. cbn [negb]. rewrite orb_true_r. split; [reflexivity|]. intros i' j' _ _ Hi' Hu'. exfalso. apply Hn. eauto. }
  unfold hg_size. rewrite Dx, Dy. cbn [length Nat.eqb negb orb].
  split; [intros [H|H]; exfalso; apply H; eauto|].
  intros i' j' Hi' _ Hj' _. apply Hui in Hi'. apply Huj in Hj'. subst i' j'.
  fold x in Hg, Hh, Hi. fold y in Hg', Hh', Hj. unfold u2_grad, hg_size. rewrite Dx, get_dgrad. cbn [length Nat.eqb negb].
  split; [|split].
  - intros Hij Z1 Z2. apply Z.eqb_neq in Hij. rewrite Hij. cbn [negb]. rewrite get_hhess. cbn [bind].
    eexists. split; [reflexivity|]. rewrite Hg, Hg'. fold t. cbn. field. auto.
  - intros <- Hne. rewrite Z.eqb_refl. cbn [negb].
    match goal with |- (if ?b then _ else _) = _ => assert (E : b = true) end; [|now rewrite E].
    rewrite Hg, Hg', Hh, Hh'. apply orb_true_iff. destruct Hne as [Hne|Hne].
    + left. apply negb_true_iff. apply Reqb_false. exact Hne.
    + right. apply negb_true_iff. apply Reqb_false. cbn. intro Hc. apply Hne. apply Rmult_eq_reg_l with 2; [exact Hc|lra].
  - intros <- E1 E2 Z1. rewrite Z.eqb_refl. cbn [negb].
    match goal with |- exists _ _, (if ?b then _ else _) = _ /\ _ => assert (E : b = false) end.
    { rewrite Hg, Hg', Hh, Hh'. apply orb_false_iff. split; apply negb_false_iff; apply Reqb_true; [exact E1|exact (f_equal (Rmult 2) E2)]. }
    rewrite E, get_hhess, ?get_dgrad. cbn [bind]. rewrite Hg, Hh. fold t.
    eexists. eexists. split; [reflexivity|]. split; [reflexivity|]. cbn. field. exact Z1.
Qed.

Lemma count_first cs : List.Forall only2 cs -> count_new (map first_call cs) = count_new2 cs.
Proof.
  unfold count_new, count_new2. induction 1 as [|c cs H F IH]; [reflexivity|]. cbn [map filter].
  destruct c; cbn [first_call is_new is_new2] in *; try (now destruct H); cbn [length]; rewrite IH; reflexivity.
Qed.

Lemma indepid_spec_unique dep i j : indepid_spec dep i -> indepid_spec dep j -> i = j.
Proof.
  intros [(-> & A)|[(P & A & B)|(-> & A)]] [(-> & A')|[(P' & A' & B')|(-> & A')]]; auto.
  - exfalso; eapply A; eassumption.
  - exfalso; apply A'. intros a b Ha. exfalso; eapply A; eassumption.
  - exfalso; eapply A'; eassumption.
  - exfalso; apply A'. intros a b Ha Hb. rewrite (B a), (B b); auto.
  - exfalso; apply A. intros a b Ha. exfalso; eapply A'; eassumption.
  - exfalso; apply A. intros a b Ha Hb. rewrite (B' a), (B' b); auto.
Qed.

Lemma C36_agrees_with_UReal_proof : forall eig (cs : list (call2 RN)),
  legal2 cs -> List.Forall only2 cs -> accepted eig w2_init cs ->
  exists w w1, run2 eig w2_init cs = Ret w /\ run w_init (map first_call cs) = Ret w1 /\
    w2_last w = w_last w1 /\ forall u v : nat,
    let x := w2_var w u in let y := w2_var w v in let x1 := w_var w1 u in let y1 := w_var w1 v in
    u2_first_order_n x = u_n x1 /\
    u_cov x1 y1 = sum_ids (w2_last w) (fun i => j_g (jet_of x) i * j_g (jet_of y) i) /\
    u_s x1 = sqrt (sum_ids (w2_last w) (fun i => j_g (jet_of x) i ^ 2)) /\
    u_isindep x1 = Ret (u2_isindep x) /\
    u_indepid x1 = u2_indepid x.
Proof.
  intros eig cs (FN & FT & C) FO AC. assert (C' := C). apply max_new_lt in C'.
  assert (IV : forall v, jlin (jet_of (w2_var w2_init v)) (s_var s_init v)).
  { intro v. split; [reflexivity|]. split; reflexivity. }
  destruct (first_sim eig cs (fun _ => mkM 0 0 0 0 0 0) w2_init s_init (wwf2_init _) FN FT FO AC) as (w & E & L & V);
    [cbn; lia|reflexivity|exact IV|].
  destruct (run_sim (map first_call cs) w_init s_init wrep_init) as (w1 & E1 & (L1 & P1 & V1) & _).
  { apply Forall_map. eapply Forall_impl; [|exact FO]. intros c Hc. destruct c; try (now destruct Hc); exact I. }
  { rewrite count_first by exact FO. cbn; lia. }
  exists w, w1. split; [exact E|]. split; [exact E1|]. cbn zeta in L, V. split; [congruence|].
  assert (Rw : reachable2 eig w) by (exists cs; split; [split; auto|exact E]).
  destruct (reach_wf2 eig w Rw) as (env & W).
  intros u v x y x1 y1. destruct (V u) as (Mx & Dx & Gx). destruct (V v) as (My & Dy & Gy). fold x in Mx, Dx, Gx. fold y in My, Dy, Gy.
  assert (Rx := V1 u). assert (Ry := V1 v). fold x1 in Rx. fold y1 in Ry.
  split; [|split; [|split; [|split]]].
  - rewrite (rep_n _ _ _ Rx). exact Mx.
  - rewrite (rep_cov _ _ _ _ _ Rx Ry). unfold lin_cov. replace (w_last w1) with (w2_last w) by congruence.
    unfold sum_ids. apply rsum_ext. intros i _. now rewrite Gx, Gy.
  - rewrite (rep_s _ _ _ Rx). unfold lin_sdev, lin_var, lin_cov. f_equal.
    replace (w_last w1) with (w2_last w) by congruence.
    unfold sum_ids. apply rsum_ext. intros i _. rewrite Gx. ring.
  - destruct (rep_isindep _ _ _ Rx) as (b & -> & Hb). f_equal. apply eq_true_iff_eq. rewrite Hb.
    rewrite (indep_single x (proj1 (W u))). unfold lin_indep, single. split; intros H i j Hi Hj; apply H; now apply Dx.
  - destruct (rep_indepid _ _ _ Rx) as (i & -> & Hi). destruct (indepid_ok _ _ x (W u)) as (j & -> & Hj). f_equal.
    eapply indepid_spec_unique; [|exact Hj].
    destruct Hi as [(-> & A)|[(P & A & B)|(-> & A)]].
    + left. split; [reflexivity|]. intros k Hk. apply (A k). now apply Dx.
    + right; left. split; [exact P|]. split; [now apply Dx|]. intros k Hk. apply B. now apply Dx.
    + right; right. split; [reflexivity|]. intro S. apply A. intros a b Ha Hb. apply S; now apply Dx.
Qed.

(** ** C35: binary_assign *)

(** a += b doubles the derivative with respect to a. *)
Lemma C35_binary_assign_refuted_proof : exists eig (w : world2 RN) (u v : nat) f fx fy,
  reachable2 eig w /\
  exists z z', u2_binary (w2_var w u) (w2_var w v) f fx fy 0 0 0 = Ret z /\
               u2_binary_assign (w2_var w u) (w2_var w v) f fx fy 0 0 0 = Ret z' /\
               j_g (jet_of z) 1%Z = 1 /\ j_g (jet_of z') 1%Z = 2.
Proof.
  destruct demo2_reachable as (w & HR & E0 & E1 & _). exists no_eig, w, 0%nat, 1%nat, 0, 1, 1.
  split; [exact HR|]. unfold u2_binary, u2_binary_assign. rewrite E0, E1.
  change (0%R) with (nofZ 0 : RN). rewrite half0.
  cbn -[Rltb Reqb Rleb Rplus Rmult Rdiv IZR].
  eexists. eexists. split; [reflexivity|]. split; [reflexivity|].
  cbn -[Rltb Reqb Rleb Rplus Rmult Rdiv IZR]. split; lra.
Qed.
