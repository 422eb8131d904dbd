(** * TrueDemo: cases for C90 *)

From Coq Require Import List ZArith Bool Reals Lra Lia FunctionalExtensionality.
From Coquelicot Require Import Coquelicot.
From Verif Require Import Base Num Map UReal World HessGrad Moments CheckMoments UReal2 World2 Sums SpecLin SpecObs SpecAD SpecU2 SpecU2Run SpecProb SpecMom
  SpecMath2 SpecOrder SpecAD2 Demo Demo2 Demo3 OrderDemo ADDemo2 URealFacts URealR MomGiven MomDeg SpecTrue.
Import ListNotations.
Local Open Scope R_scope.

Lemma cubic_derivs g a b c d : (forall t, g t = a + b * t + c * t ^ 2 + d * t ^ 3) ->
  Derive g = (fun t => b + 2 * c * t + 3 * d * t ^ 2) /\
  Derive (fun t => b + 2 * c * t + 3 * d * t ^ 2) = (fun t => 2 * c + 6 * d * t) /\
  Derive (fun t => 2 * c + 6 * d * t) = (fun t => 6 * d) /\
  (forall t, ex_derive g t).
Proof.
  intro H. assert (Eg : g = fun t => a + b * t + c * t ^ 2 + d * t ^ 3) by (apply functional_extensionality; exact H). subst g.
  split; [|split; [|split]].
  - apply functional_extensionality. intro t. apply is_derive_unique. auto_derive; [exact I|ring].
  - apply functional_extensionality. intro t. apply is_derive_unique. auto_derive; [exact I|ring].
  - apply functional_extensionality. intro t. apply is_derive_unique. auto_derive; [exact I|ring].
  - intro t. auto_derive. exact I.
Qed.
Lemma cubic_bends g a b c d : (forall t, g t = a + b * t + c * t ^ 2 + d * t ^ 3) -> bends 3 g (Rabs (6 * d)).
Proof.
  intros H t _. destruct (cubic_derivs g a b c d H) as (D1 & D2 & D3 & X). split.
  - intros j Hj. destruct j as [|[|[|[|]]]]; [exact I|..].
    + exact (X t).
    + cbn. change (ex_derive (Derive g) t). rewrite D1. auto_derive. exact I.
    + cbn. change (ex_derive (Derive (Derive g)) t). rewrite D1, D2. auto_derive. exact I.
    + lia.
  - change (Rabs (Derive (Derive (Derive g)) t) <= Rabs (6 * d)). rewrite D1, D2, D3. lra.
Qed.
Lemma quadratic_bends g a b c : (forall t, g t = a + b * t + c * t ^ 2) -> bends 2 g (Rabs (2 * c)).
Proof.
  intros H t _. destruct (cubic_derivs g a b c 0) as (D1 & D2 & D3 & X); [intro u; rewrite H; ring|]. split.
  - intros j Hj. destruct j as [|[|[|]]]; [exact I|..].
    + exact (X t).
    + cbn. change (ex_derive (Derive g) t). rewrite D1. auto_derive. exact I.
    + lia.
  - change (Rabs (Derive (Derive g) t) <= Rabs (2 * c)). rewrite D1, D2. right. f_equal. ring.
Qed.
Lemma coin_products : with_products coin.
Proof. intros f g _ _ _ _. exact I. Qed.
Lemma toss_sq o : toss o * toss o = 1.
Proof. destruct o; cbn; lra. Qed.
Lemma toss_cube o : toss o * toss o * toss o = toss o.
Proof. destruct o; cbn; lra. Qed.

(** x = 3 +- 1/2, y = x * x *)
Definition square_prog : list (call RN) := [CNew 0%nat 3 (1 / 2); CMul 1%nat 0%nat 0%nat].
Lemma square_case : let p := ad_run ad_init square_prog in
  List.Forall nary_ok square_prog /\ (count_new square_prog <= max_new)%nat /\ derivs_ok ad_init square_prog /\
  standardized coin (ad_last p) (fun _ => toss) /\ with_products coin /\
  (forall o : bool, bends 2 (fun t => ad_fun p 1%nat (part_way (ad_mean p) (ad_sd p) (fun _ => toss o) t)) (1 / 2)) /\
  (forall f : bool -> R, finite_variance coin f) /\
  rms coin (fun _ => 1 / 2) = 1 / 2.
Proof.
  cbv zeta. split; [repeat constructor|]. split; [apply max_new_ge; cbn; lia|]. split; [cbn; tauto|]. split; [|split; [exact coin_products|split; [|split]]].
  - intros i Hi. split; [exact I|]. split; [cbn; lra|]. intros j Hj. split; [exact I|]. cbn in Hi, Hj. destruct (Rlt_dec (1 / 2) 0) as [L|L] in Hi; [lra|].
    destruct (Rlt_dec (1 / 2) 0) in Hj; [lra|]. cbn in Hi, Hj. destruct (Z.eq_dec i j); [cbn; lra|lia].
  - intro o. replace (1 / 2) with (Rabs (2 * (1 / 4))) at 1 by (rewrite Rabs_pos_eq; lra).
    apply (quadratic_bends _ 9 (3 * toss o)). intro t. cbn. destruct (Rlt_dec (1 / 2) 0); [lra|]. cbn. unfold part_way, env_set. cbn.
    assert (T := toss_sq o). replace (t * (t * 1)) with (t * t) by ring.
    replace (1 / 4 * (t * t)) with (1 / 4 * (t * t) * (toss o * toss o)) by (rewrite T; ring). field.
  - intro f. split; exact I.
  - unfold rms. cbn. replace ((1 / 2 * (1 / 2) + 1 / 2 * (1 / 2)) / 2) with (1 / 2 * (1 / 2)) by field. apply sqrt_square. lra.
Qed.

(** x = 1 +- 1/2, y = x^3 *)
Definition cube_prog : list (call2 RN) := [ENewStd 0%nat 1 (1 / 2) pm1 (-1); EUnary 1%nat 0%nat (fun x => x * x * x) (fun x => 3 * x * x) (fun x => 6 * x)].
Lemma cube_legal : legal2 cube_prog.
Proof.
  split; [repeat constructor|]. split; [|apply max_new_ge; cbn; lia].
  repeat constructor; cbn; intro H; apply Rltb_false in H; exfalso; lra.
Qed.
Lemma cube_case : let p := ad2_run ad_init cube_prog in
  legal2 cube_prog /\ accepted no_eig w2_init cube_prog /\ covered_run no_eig w2_init cube_prog /\ derivs2_ok ad_init cube_prog /\
  independent coin [1%Z] (fun _ => toss) (fun _ => stdmom pm1) /\ with_products coin /\
  given no_eig w2_init cube_prog 1 = Some (1 / 2, pm1) /\
  (forall w, run2 no_eig w2_init cube_prog = Ret w -> involves_only (jet_of (w2_var w 1%nat)) [1%Z]) /\
  (forall o : bool, bends 3 (fun t => ad_fun p 1%nat (part_way (ad_mean p) (ad_sd p) (fun _ => toss o) t)) (3 / 4)).
Proof.
  cbv zeta. split; [exact cube_legal|]. split; [apply (plain_legal_accepted _ cube_legal); repeat constructor; cbn; lra|].
  split; [|split; [|split; [|split; [exact coin_products|split; [|split]]]]].
  - unfold cube_prog. cbn [covered_run jet_covered]. split; [exact I|]. split; [|exact I]. right. cbn [exec2]. rewrite new_std_free by lra. cbn [assign2 fst].
    intros i j. cbn. intuition congruence.
  - cbn. split; [exact I|]. split; [|exact I]. unfold env_set. cbn.
    exists (fun x => 3 * x * x). split; [apply filter_forall; intro; auto_derive; auto; ring|]. split; [ring|]. auto_derive; auto; ring.
  - intros L k ND IN K. split; [exact I|]. destruct L as [|i [|j L]].
    + cbn. lra.
    + assert (Hi := K i (or_introl eq_refl)). cbn [rprod]. generalize dependent (k i). intros n Hn.
      do 9 (destruct n as [|n]; [cbn; unfold toss; field|]). lia.
    + exfalso. assert (i = 1%Z) by (destruct (IN i); cbn in *; intuition). assert (j = 1%Z) by (destruct (IN j); cbn in *; intuition). subst.
      inversion ND; subst. cbn in *. tauto.
  - unfold cube_prog. cbn [given made exec2]. rewrite new_std_free by lra. cbn [assign2 w2_last set_last w2_w w_last w2_init w_init]. rewrite wrap1. reflexivity.
  - intros w E. apply (C28_only_given_variables_proof no_eig cube_prog w cube_legal E). intros i s m G Hs. left. unfold cube_prog in G.
    cbn [given made exec2] in G. rewrite new_std_free in G by lra. cbn [assign2 w2_last set_last w2_w w_last w2_init w_init] in G. rewrite wrap1 in G.
    destruct (1 =? i)%Z eqn:E1; [now apply Z.eqb_eq in E1|].
    match goal with G : (let (_, _) := ?e in None) = _ |- _ => destruct e; discriminate end.
  - intro o. replace (3 / 4) with (Rabs (6 * (1 / 8 * toss o))).
    2:{ destruct o; cbn; [rewrite Rabs_pos_eq; lra|]. rewrite Rabs_left; lra. }
    apply (cubic_bends _ 1 (3 / 2 * toss o) (3 / 4)). intro t. cbn. unfold part_way, env_set. cbn.
    destruct o; cbn; field.
Qed.

(** ** Where the mixed second derivatives are left out: (a + b)^2 *)
Definition coins_expect : expect.
Proof.
  apply (mkExpect (bool * bool) (fun _ => True) (fun f => (f (true, true) + f (true, false) + f (false, true) + f (false, false)) / 4)).
  - intros f g H _. split; [exact I|]. now rewrite !H.
  - intro c. split; [exact I|]. field.
  - intros f g _ _. split; [exact I|]. field.
  - intros c f _. split; [exact I|]. field.
Defined.
Definition coins : prob.
Proof.
  apply (mkProb coins_expect). cbn. intros f _ H. assert (H1 := H (true, true)). assert (H2 := H (true, false)). assert (H3 := H (false, true)). assert (H4 := H (false, false)). lra.
Defined.
Definition face (i : Z) (o : bool * bool) : R := if (i =? 1)%Z then toss (fst o) else toss (snd o).
Lemma coins_split (f g : bool -> R) : Ex coins (fun o => f (fst o) * g (snd o)) = Ex coin f * Ex coin g.
Proof. cbn. field. Qed.
Lemma toss_pow n : (n <= 8)%nat -> Ex coin (fun o => toss o ^ n) = stdmom pm1 n.
Proof. intro H. do 9 (destruct n as [|n]; [cbn; unfold toss; field|]). lia. Qed.
Lemma coins_independent : independent coins [1%Z; 2%Z] face (fun _ => stdmom pm1).
Proof.
  intros L k ND IN K. split; [exact I|].
  assert (M : forall i, In i L -> i = 1%Z \/ i = 2%Z) by (intros i Hi; destruct (IN i Hi) as [<-|[<-|[]]]; auto).
  assert (F1 : forall o, face 1 o = toss (fst o)) by reflexivity. assert (F2 : forall o, face 2 o = toss (snd o)) by reflexivity.
  assert (S0 : forall n, (n <= 8)%nat -> Ex coins (fun o => toss (fst o) ^ n * 1) = stdmom pm1 n).
  { intros n Hn. transitivity (Ex coin (fun o => toss o ^ n) * Ex coin (fun _ => 1)); [exact (coins_split (fun o => toss o ^ n) (fun _ => 1))|].
    rewrite toss_pow by exact Hn. cbn. lra. }
  assert (S1 : forall n, (n <= 8)%nat -> Ex coins (fun o => toss (snd o) ^ n * 1) = stdmom pm1 n).
  { intros n Hn. transitivity (Ex coin (fun _ => 1) * Ex coin (fun o => toss o ^ n)); [|rewrite toss_pow by exact Hn; cbn; lra].
    eapply eq_trans; [|exact (coins_split (fun _ => 1) (fun o => toss o ^ n))]. cbn. lra. }
  assert (S2 : forall a b, (a <= 8)%nat -> (b <= 8)%nat -> Ex coins (fun o => toss (fst o) ^ a * (toss (snd o) ^ b * 1)) = stdmom pm1 a * stdmom pm1 b).
  { intros a b Ha Hb. rewrite <- (toss_pow a Ha), <- (toss_pow b Hb). eapply eq_trans; [|exact (coins_split (fun o => toss o ^ a) (fun o => toss o ^ b))]. cbn. lra. }
  assert (S3 : forall a b, (a <= 8)%nat -> (b <= 8)%nat -> Ex coins (fun o => toss (snd o) ^ b * (toss (fst o) ^ a * 1)) = stdmom pm1 b * stdmom pm1 a).
  { intros a b Ha Hb. rewrite (Rmult_comm (stdmom pm1 b)), <- (toss_pow a Ha), <- (toss_pow b Hb). eapply eq_trans; [|exact (coins_split (fun o => toss o ^ a) (fun o => toss o ^ b))]. cbn. lra. }
  destruct L as [|i [|j [|h L]]].
  - cbn. lra.
  - assert (Hk := K i (or_introl eq_refl)). destruct (M i (or_introl eq_refl)) as [-> | ->]; cbn [rprod]; [rewrite Rmult_1_r; exact (S0 _ Hk)|rewrite Rmult_1_r; exact (S1 _ Hk)].
  - assert (Hk := K i (or_introl eq_refl)). assert (Hk' := K j (or_intror (or_introl eq_refl))). cbn [rprod]. rewrite Rmult_1_r.
    destruct (M i (or_introl eq_refl)) as [-> | ->], (M j (or_intror (or_introl eq_refl))) as [-> | ->].
    + inversion ND; subst. cbn in *. tauto.
    + exact (S2 _ _ Hk Hk').
    + exact (S3 _ _ Hk' Hk).
    + inversion ND; subst. cbn in *. tauto.
  - exfalso. assert (Hi := M i (or_introl eq_refl)). assert (Hj := M j (or_intror (or_introl eq_refl))). assert (Hh := M h (or_intror (or_intror (or_introl eq_refl)))).
    inversion ND as [|? ? N1 ND1]; subst. inversion ND1 as [|? ? N2 _]; subst. cbn in N1, N2. intuition congruence.
Qed.

Definition sum_sq : list (call2 RN) :=
  [ENewStd 0%nat 0 1 pm1 (-1); ENewStd 1%nat 0 1 pm1 (-1); EAdd 2%nat 0%nat 1%nat; EUnary 3%nat 2%nat (fun x => x * x) (fun x => 2 * x) (fun _ => 2)].
Lemma sum_sq_legal : legal2 sum_sq.
Proof.
  split; [repeat constructor|]. split; [|apply max_new_ge; cbn; lia].
  repeat constructor; cbn; intro H; apply Rltb_false in H; exfalso; lra.
Qed.
Definition pmD (g h : R) : diag RN := mkD g h (Some pm1).
Definition pmU (ds : list (Z * diag RN)) : ureal2 RN := mkU2 (mkHG ds []) 0.
Ltac ev' := cbn -[Rltb Reqb Rleb Rplus Rmult Rdiv Ropp IZR]; unfold pmU, pmD; f_equal; f_equal; [unfold hg_diag, mupd; cbn -[Rplus Rmult Rdiv Ropp IZR]; f_equal|]; repeat f_equal; lra.
Lemma pm_add : u2_add (pmU [(1%Z, pmD 1 0)]) (pmU [(2%Z, pmD 1 0)]) = Ret (pmU [(1%Z, pmD 1 0); (2%Z, pmD 1 0)]).
Proof. unfold u2_add, u2_binary. rewrite !half0. ev'. Qed.
Lemma pm_sq : u2_unary (pmU [(1%Z, pmD 1 0); (2%Z, pmD 1 0)]) (0 * 0) (2 * 0) 2 = Ret (pmU [(1%Z, pmD 0 1); (2%Z, pmD 0 1)]).
Proof. unfold u2_unary. change (ndiv (2 : RN) (nofZ 2)) with (ndiv (nofZ 2) (nofZ 2) : RN). rewrite !half2. ev'. Qed.
Lemma st_pm l f v cs : run2 no_eig (st l f) (ENewStd v 0 1 pm1 (-1) :: cs) = run2 no_eig (st (wrap32 (l + 1)) (upd2 f v (pmU [(wrap32 (l + 1), pmD 1 0)]))) cs.
Proof. cbn [run2 exec2]. rewrite new_std_free by lra. reflexivity. Qed.
Lemma given_none (w : world2 RN) cs i : (forall c, In c cs -> made c = None) -> given no_eig w cs i = None.
Proof.
  revert w. induction cs as [|c cs IH]; intros w H; [reflexivity|]. cbn [given]. destruct (exec2 no_eig w c) as [w' o].
  rewrite (H c (or_introl eq_refl)). apply IH. intros c' Hc. apply H. now right.
Qed.
Lemma sum_sq_given i : given no_eig w2_init sum_sq i = if (1 =? i)%Z then Some (1, pm1) else if (2 =? i)%Z then Some (1, pm1) else None.
Proof.
  unfold sum_sq. cbn [given made exec2]. rewrite new_std_free by lra.
  cbn [assign2 w2_last set_last w2_w w_last w2_init w_init]. rewrite wrap1. destruct (1 =? i)%Z; [reflexivity|].
  rewrite new_std_free by lra. cbn [assign2 w2_last set_last w2_w w_last w2_init w_init]. rewrite wrap2. destruct (2 =? i)%Z; [reflexivity|].
  match goal with |- (let '(_, _) := ?e in _) = _ => destruct e as [w1 o1] end.
  match goal with |- (let '(_, _) := ?e in _) = _ => destruct e as [w2 o2] end. reflexivity.
Qed.
Lemma sum_sq_world : exists w, run2 no_eig w2_init sum_sq = Ret w /\ w2_var w 3%nat = pmU [(1%Z, pmD 0 1); (2%Z, pmD 0 1)].
Proof.
  change w2_init with (st 0 (fun _ => u2_default : ureal2 RN)). unfold sum_sq. rewrite !st_pm, wrap1, wrap2.
  erewrite st_add by exact pm_add. erewrite st_un by exact pm_sq. eexists. split; reflexivity.
Qed.

Lemma C90_second_order_refuted_proof : exists eig (cs : list (call2 RN)) w v (P : prob) (l : list Z) (X : Z -> Om P -> R) (M : Z -> moms RN) (B : Om P -> R),
  let p := ad2_run ad_init cs in let x := w2_var w v in
  let path := fun o t => ad_fun p v (part_way (ad_mean p) (ad_sd p) (fun i => X i o) t) in
  let Y := fun o => path o 1 in
  legal2 cs /\ accepted eig w2_init cs /\ derivs2_ok ad_init cs /\ run2 eig w2_init cs = Ret w /\
  NoDup l /\ independent P l X (fun i => stdmom (M i)) /\
  (forall i, In i l -> exists s, s <> 0 /\ given eig w2_init cs i = Some (s, M i)) /\ involves_only (jet_of x) l /\
  (forall o, bends 3 (path o) (B o)) /\ with_products P /\ finite_variance P Y /\ finite_variance P B /\
  rms P B = 0 /\ true_sd P Y = 2 /\ u2_s x = Ret 0.
Proof.
  destruct sum_sq_world as (w & E & E3).
  exists no_eig, sum_sq, w, 3%nat, coins, [1%Z; 2%Z], face, (fun _ => pm1), (fun _ => 0). cbv zeta.
  split; [exact sum_sq_legal|]. split; [apply (plain_legal_accepted _ sum_sq_legal); repeat constructor; cbn; lra|].
  split.
  { cbn. repeat (split; [exact I|]). split; [|exact I].
    exists (fun x => 2 * x). split; [apply filter_forall; intro; auto_derive; auto; ring|]. split; [ring|]. auto_derive; auto; ring. }
  split; [exact E|]. split; [repeat constructor; cbn; intuition congruence|]. split; [exact coins_independent|].
  split; [intros i [<-|[<-|[]]]; exists 1; split; try lra; now rewrite sum_sq_given|].
  split.
  { apply (C28_only_given_variables_proof no_eig sum_sq w sum_sq_legal E). intros i s m G _. rewrite sum_sq_given in G.
    destruct (1 =? i)%Z eqn:E1; [apply Z.eqb_eq in E1; now left|]. destruct (2 =? i)%Z eqn:E2; [apply Z.eqb_eq in E2; right; now left|discriminate]. }
  assert (V : forall o t, ad_fun (ad2_run ad_init sum_sq) 3%nat (part_way (ad_mean (ad2_run ad_init sum_sq)) (ad_sd (ad2_run ad_init sum_sq)) (fun i => face i o) t)
    = t * t * ((toss (fst o) + toss (snd o)) * (toss (fst o) + toss (snd o)))).
  { intros o t. cbn. unfold part_way, env_set, face. cbn. ring. }
  split.
  { intro o. replace 0 with (Rabs (6 * 0)) by (rewrite Rmult_0_r; apply Rabs_R0).
    apply (cubic_bends _ 0 0 ((toss (fst o) + toss (snd o)) * (toss (fst o) + toss (snd o)))). intro t. rewrite V. ring. }
  split; [intros f g _ _ _ _; exact I|]. split; [split; exact I|]. split; [split; exact I|]. split; [|split].
  - unfold rms. replace (Ex coins _) with 0 by (cbn; lra). apply sqrt_0.
  - unfold true_sd, true_cov. rewrite <- (sqrt_square 2) by lra. f_equal.
    cbn [Ex coins coins_expect expect_of]. rewrite !V. cbn [toss fst snd]. field.
  - assert (M2 : u2_m (w2_var w 3%nat) 2 = Ret 0).
    { rewrite E3. unfold u2_m, update_mom, pmU, pmD. cbn -[Rplus Rmult Rdiv Ropp Rminus IZR]. f_equal. unfold pm1. cbn. lra. }
    unfold u2_s. rewrite M2. cbn. f_equal. apply sqrt_0.
Qed.
