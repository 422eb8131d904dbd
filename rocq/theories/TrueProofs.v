(** * TrueProofs: distance between propagated and true means, deviations and covariances (C90) *)

From Coq Require Import List ZArith Bool Reals Lra Lia.
From Coquelicot Require Import Coquelicot.
From Verif Require Import Base Num Map UReal World Sums SpecLin SpecObs SpecAD URealFacts URealR URealProofs ADProofs SpecProb SpecTrue TrueProb.
Import ListNotations.
Local Open Scope R_scope.

(** ** The derivative of a program along a line *)
Definition dirrel (a : adworld) (sw : sworld) : Prop := forall v (X : env),
  derivable_pt_lim (fun t => ad_fun a v (part_way (ad_mean a) (ad_sd a) X t)) 0 (sum_ids (ad_last a) (fun i => l_coef (s_var sw v) i * X i)).

Lemma part_way_0 m sd X j : part_way m sd X 0 j = m j.
Proof. unfold part_way. ring. Qed.

Section Step.
  Context (a : adworld) (sw : sworld).
  Hypothesis (H : adrel a sw) (HD : dirrel a sw).

  Lemma dir_mean v X : ad_fun a v (part_way (ad_mean a) (ad_sd a) X 0) = ad_fun a v (ad_mean a).
  Proof. apply (ar_local _ _ H). intros j _. apply part_way_0. Qed.

  Lemma dir_set v f b :
    (forall X, derivable_pt_lim (fun t => f (part_way (ad_mean a) (ad_sd a) X t)) 0 (sum_ids (ad_last a) (fun i => l_coef b i * X i))) ->
    dirrel (ad_set a v f) (s_set sw v b).
  Proof.
    intros Hf u X. cbn. destruct (Nat.eqb u v); [apply Hf|apply HD].
  Qed.
  Lemma dir_binary v x y (f : R -> R -> R) m dx dy :
    differentiable_pt_lim f (ad_fun a x (ad_mean a)) (ad_fun a y (ad_mean a)) dx dy ->
    dirrel (ad_set a v (fun e => f (ad_fun a x e) (ad_fun a y e)))
           (s_set sw v (lin_binary (s_var sw x) (s_var sw y) m dx dy)).
  Proof.
    intros Hd. apply dir_set. intro X. cbn [l_coef lin_binary].
    replace (sum_ids (ad_last a) _) with (dx * sum_ids (ad_last a) (fun i => l_coef (s_var sw x) i * X i) + dy * sum_ids (ad_last a) (fun i => l_coef (s_var sw y) i * X i)).
    2:{ unfold sum_ids. rewrite <- !rsum_scal, <- rsum_plus. apply rsum_ext. intros. ring. }
    apply (derivable_pt_lim_comp_2d f (fun t => ad_fun a x (part_way (ad_mean a) (ad_sd a) X t)) (fun t => ad_fun a y (part_way (ad_mean a) (ad_sd a) X t))); try apply HD.
    now rewrite !dir_mean.
  Qed.
  Lemma dir_unary v x (f : R -> R) m d :
    derivable_pt_lim f (ad_fun a x (ad_mean a)) d ->
    dirrel (ad_set a v (fun e => f (ad_fun a x e))) (s_set sw v (lin_unary (s_var sw x) m d)).
  Proof.
    intros Hd. apply dir_set. intro X. cbn [l_coef lin_unary].
    replace (sum_ids (ad_last a) _) with (d * sum_ids (ad_last a) (fun i => l_coef (s_var sw x) i * X i)).
    2:{ unfold sum_ids. rewrite <- rsum_scal. apply rsum_ext. intros. ring. }
    apply (derivable_pt_lim_comp (fun t => ad_fun a x (part_way (ad_mean a) (ad_sd a) X t)) f); [apply HD|]. now rewrite dir_mean.
  Qed.
  Lemma dir_const v n : dirrel (ad_set a v (fun _ => n)) (s_set sw v (lin_number n)).
  Proof.
    apply dir_set. intro X. replace (sum_ids _ _) with 0; [apply derivable_pt_lim_const|].
    symmetry. apply rsum_zero. intros i _. cbn. ring.
  Qed.
End Step.

Lemma ids_succ last : (0 <= last)%Z -> ids (last + 1) = ids last ++ [(last + 1)%Z].
Proof.
  intro H. unfold ids. replace (Z.to_nat (last + 1)) with (Z.to_nat last + 1)%nat by lia.
  rewrite seq_app, map_app. cbn. do 2 f_equal. lia.
Qed.

Lemma dir_step a sw c : adrel a sw -> dirrel a sw -> nary_ok c ->
  deriv_ok (fun x => ad_fun a x (ad_mean a)) c -> dirrel (ad_exec a c) (spec_exec sw c).
Proof.
  intros H HR HN HD. assert (M := ar_mean _ _ H).
  destruct c; cbn [ad_exec spec_exec deriv_ok] in *; rewrite ?M.
  - (* new *)
    rewrite <- (ar_last _ _ H). set (i := (ad_last a + 1)%Z). assert (P := ar_pos _ _ H).
    assert (Hnew : dirrel (mkAD i (env_set (ad_mean a) i n) (env_set (ad_sd a) i s) (ad_fun a)) (mkS i (s_var sw))).
    { intros u X. cbn [ad_last ad_mean ad_sd ad_fun s_var].
      replace (sum_ids i _) with (sum_ids (ad_last a) (fun j => l_coef (s_var sw u) j * X j)).
      2:{ unfold sum_ids, i. rewrite ids_succ, rsum_app by exact P. cbn. rewrite (ar_zero _ _ H) by lia. ring. }
      eapply derivable_ext; [|apply HR]. intro t. apply (ar_local _ _ H). intros j Hj. unfold part_way, env_set.
      destruct (Z.eq_dec j i); [unfold i in *; lia|reflexivity]. }
    destruct (Rlt_dec s 0); [exact Hnew|].
    intros u X. cbn [ad_last ad_mean ad_sd ad_fun ad_set s_var s_set].
    destruct (Nat.eqb u v) eqn:E; [|assert (K := Hnew u X); cbn [ad_last ad_mean ad_sd ad_fun s_var] in K; exact K].
    replace (sum_ids i _) with (s * X i).
    2:{ unfold sum_ids, i. rewrite ids_succ, rsum_app by exact P. rewrite rsum_zero.
        - cbn. fold i. destruct (Z.eq_dec i i); [ring|congruence].
        - intros j Hj. apply ids_In in Hj. cbn. destruct (Z.eq_dec j (ad_last a + 1)); [lia|ring]. }
    apply (derivable_ext (fun t => n + t * (s * X i))).
    + intro t. unfold part_way, env_set. destruct (Z.eq_dec i i); congruence.
    + apply is_derive_Reals. auto_derive; [exact I|ring].
  - now apply (dir_const a sw).
  - now apply (dir_const a sw).
  - apply dir_set; auto.
  - destruct HD.
  - apply (dir_unary a sw H); auto.
  - apply (dir_binary a sw H); auto.
  - (* nary *)
    assert (Em : map (fun v0 => l_mean (s_var sw v0)) xs = map (fun x => ad_fun a x (ad_mean a)) xs)
      by (apply map_ext; intro; apply M).
    rewrite Em. apply dir_set; auto. intro X.
    set (ms := map (fun x => ad_fun a x (ad_mean a)) xs) in *.
    set (Dx := fun x => sum_ids (ad_last a) (fun i => l_coef (s_var sw x) i * X i)).
    replace (sum_ids (ad_last a) _) with (rsum (seq 0 (length xs)) (fun k => nth k (dfs ms) 0 * nth k (map Dx xs) 0)).
    + set (gs := map (fun x t => ad_fun a x (part_way (ad_mean a) (ad_sd a) X t)) xs).
      assert (C := nary_chain f gs (map Dx xs) (dfs ms) 0).
      assert (LG : length gs = length xs) by apply map_length. rewrite LG in C.
      eapply derivable_ext; [|apply C].
      * intro t. cbn. unfold gs. rewrite map_map. reflexivity.
      * unfold gs. rewrite map_map.
        replace (map (fun x => ad_fun a x (part_way (ad_mean a) (ad_sd a) X 0)) xs) with ms; [exact HD|].
        apply map_ext. intro x. symmetry. apply (dir_mean a sw H).
      * now rewrite map_length.
      * intros k Hk. unfold gs.
        rewrite (nth_indep _ _ ((fun x t => ad_fun a x (part_way (ad_mean a) (ad_sd a) X t)) 0%nat))
          by (rewrite map_length; exact Hk).
        rewrite (map_nth (fun x t => ad_fun a x (part_way (ad_mean a) (ad_sd a) X t))).
        rewrite (nth_map_seq xs _ k 0%nat) by exact Hk. apply HR.
    + assert (EL : (length xs <= length (dfs ms))%nat) by (apply HN; unfold ms; now rewrite map_length).
      unfold sum_ids. cbn [l_coef lin_nary].
      rewrite (rsum_ext (ids (ad_last a)) _ (fun i => rsum (seq 0 (length xs)) (fun k => nth k (dfs ms) 0 * (l_coef (s_var sw (nth k xs 0%nat)) i * X i)))).
      * rewrite rsum_swap. apply rsum_ext. intros k Hk. apply in_seq in Hk. rewrite (nth_map_seq xs _ k 0%nat) by lia. unfold Dx, sum_ids. rewrite <- rsum_scal. reflexivity.
      * intros i Hi. rewrite rsum_combine by (rewrite map_length; exact EL). rewrite map_length, map_map, <- rsum_scal_r. apply rsum_ext.
        intros k Hk. apply in_seq in Hk. rewrite (nth_map_seq xs _ k 0%nat) by lia. cbn beta. rg.
  - apply (dir_binary a sw H); auto.
  - apply (dir_unary a sw H HR); auto.
    apply is_derive_Reals. auto_derive; auto.
  - apply (dir_binary a sw H); auto using diff_add.
  - apply (dir_binary a sw H); auto using diff_sub.
  - apply (dir_binary a sw H); auto using diff_mul.
  - apply (dir_binary a sw H); auto using diff_div.
  - apply (dir_binary a sw H); auto using diff_add.
  - apply (dir_binary a sw H); auto using diff_sub.
  - apply (dir_binary a sw H); auto using diff_mul.
  - apply (dir_binary a sw H); auto using diff_div.
  - exact HR.
  - exact HR.
Qed.

Lemma dir_run cs : forall a sw, adrel a sw -> dirrel a sw -> List.Forall nary_ok cs -> derivs_ok a cs ->
  dirrel (ad_run a cs) (spec_run sw cs).
Proof.
  induction cs as [|c cs IH]; intros a sw H HR F D; [exact HR|].
  inversion F; subst. destruct D as [D1 D2]. cbn [ad_run spec_run fold_left]. apply IH; auto.
  - now apply ad_step.
  - now apply dir_step.
Qed.
Lemma dir_init : dirrel ad_init s_init.
Proof. intros v X. cbn. apply derivable_pt_lim_const. Qed.

(** ** Linear combinations of standardized variables *)
Section Lin.
  Variables (P : prob) (last : Z) (X : Z -> Om P -> R).
  Hypothesis HX : standardized P last X.
  Lemma lin_int (c : Z -> R) l : (forall i, In i l -> (1 <= i <= last)%Z) ->
    int P (fun o => rsum l (fun i => c i * X i o)) /\ Ex P (fun o => rsum l (fun i => c i * X i o)) = 0.
  Proof.
    induction l as [|i l IH]; intro HI; cbn [rsum]; [apply Ex_const|].
    destruct IH as [I0 E0]; [intros; apply HI; now right|]. destruct (HX i) as (I1 & E1 & _); [apply HI; now left|].
    destruct (Ex_scal P (c i) (X i) I1) as [I2 E2]. destruct (Ex_plus P _ _ I2 I0) as [I3 E3]. split; [exact I3|]. rewrite E3, E2, E0, E1. ring.
  Qed.
  Lemma rsum_int {A} (l : list A) (f : A -> Om P -> R) (e : A -> R) : (forall x, In x l -> int P (f x) /\ Ex P (f x) = e x) ->
    int P (fun o => rsum l (fun x => f x o)) /\ Ex P (fun o => rsum l (fun x => f x o)) = rsum l e.
  Proof.
    induction l as [|x l IH]; intro HI; cbn [rsum]; [apply Ex_const|].
    destruct IH as [I0 E0]; [intros; apply HI; now right|]. destruct (HI x (or_introl eq_refl)) as [I1 E1].
    destruct (Ex_plus P _ _ I1 I0) as [I3 E3]. split; [exact I3|]. now rewrite E3, E0, E1.
  Qed.
  Lemma lin_prod (c d : Z -> R) :
    int P (fun o => sum_ids last (fun i => c i * X i o) * sum_ids last (fun i => d i * X i o)) /\
    Ex P (fun o => sum_ids last (fun i => c i * X i o) * sum_ids last (fun i => d i * X i o)) = sum_ids last (fun i => c i * d i).
  Proof.
    assert (K : int P (fun o => rsum (ids last) (fun i => rsum (ids last) (fun j => c i * d j * (X i o * X j o)))) /\
      Ex P (fun o => rsum (ids last) (fun i => rsum (ids last) (fun j => c i * d j * (X i o * X j o)))) = rsum (ids last) (fun i => c i * d i)).
    { apply (rsum_int (ids last) (fun i o => rsum (ids last) (fun j => c i * d j * (X i o * X j o)))). intros i Hi.
      assert (Hi' := proj1 (ids_In _ _) Hi). destruct (HX i Hi') as (_ & _ & H2).
      destruct (rsum_int (ids last) (fun j o => c i * d j * (X i o * X j o)) (fun j => if Z.eq_dec i j then c i * d j else 0)) as [I1 E1].
      { intros j Hj. apply ids_In in Hj. destruct (H2 j Hj) as [I2 E2]. destruct (Ex_scal P (c i * d j) _ I2) as [I3 E3]. split; [exact I3|].
        rewrite E3, E2. destruct (Z.eq_dec i j); ring. }
      split; [exact I1|]. rewrite E1. rewrite (rsum_single Z.eq_dec (ids last) _ i).
      - destruct (Z.eq_dec i i); congruence.
      - exact (ids_NoDup last).
      - exact Hi.
      - intros j Hj Hne. destruct (Z.eq_dec i j); congruence. }
    destruct K as [K1 K2].
    assert (EO : forall o, rsum (ids last) (fun i => rsum (ids last) (fun j => c i * d j * (X i o * X j o)))
                         = sum_ids last (fun i => c i * X i o) * sum_ids last (fun i => d i * X i o)).
    { intro o. unfold sum_ids. rewrite rsum_mult. apply rsum_ext. intros i _. apply rsum_ext. intros j _. ring. }
    destruct (Ex_ext P _ _ EO K1) as [K3 K4]. split; [exact K3|]. rewrite <- K4. exact K2.
  Qed.
  Lemma lin_fv n c : finite_variance P (fun o => n + sum_ids last (fun i => c i * X i o)) /\ Ex P (fun o => n + sum_ids last (fun i => c i * X i o)) = n.
  Proof.
    destruct (lin_int c (ids last)) as [I0 E0]; [intros i Hi; now apply ids_In|].
    destruct (Ex_const P n) as [I1 E1]. destruct (Ex_plus P _ _ I1 I0) as [I2 E2]. destruct (lin_prod c c) as [I3 E3].
    split; [split; [exact I2|]|unfold sum_ids; rewrite E2, E1, E0; ring].
    destruct (Ex_const P (n * n)) as [I4 _]. destruct (Ex_scal P (2 * n) _ I0) as [I5 _]. destruct (Ex_plus P _ _ I4 I5) as [I6 _]. destruct (Ex_plus P _ _ I6 I3) as [I7 _].
    eapply (Ex_ext P); [|exact I7]. intro o. cbv beta. unfold sum_ids. ring.
  Qed.
  Lemma lin_true_cov n c m d : true_cov P (fun o => n + sum_ids last (fun i => c i * X i o)) (fun o => m + sum_ids last (fun i => d i * X i o)) = sum_ids last (fun i => c i * d i).
  Proof.
    unfold true_cov. rewrite (proj2 (lin_fv n c)), (proj2 (lin_fv m d)). destruct (lin_prod c d) as [I1 E1]. rewrite <- E1.
    symmetry. apply Ex_ext; [|exact I1]. intro o. ring.
  Qed.
End Lin.

(** ** First-order variables *)
Lemma C90_first_order_proof : forall cs, List.Forall nary_ok cs -> (count_new cs <= max_new)%nat -> derivs_ok ad_init cs ->
  let p := ad_run ad_init cs in
  exists w, run w_init cs = Ret w /\
    forall v (P : prob) (X : Z -> Om P -> R) (B : Om P -> R), standardized P (ad_last p) X ->
      let path := fun o t => ad_fun p v (part_way (ad_mean p) (ad_sd p) (fun i => X i o) t) in
      let Y := fun o => path o 1 in
      (forall o, bends 2 (path o) (B o)) -> int P Y -> int P B ->
      Rabs (u_n (w_var w v) - Ex P Y) <= Ex P B / 2 /\
      (with_products P -> finite_variance P Y -> finite_variance P B ->
       Rabs (u_s (w_var w v) - true_sd P Y) <= rms P B / 2).
Proof.
  intros cs F C D p. assert (C' := max_new_lt _ C).
  destruct (run_sim cs w_init s_init wrep_init F) as (w & E & (EL & Pos & HR) & L); [cbn; lia|].
  assert (A := ad_run_rel cs _ _ adrel_init F D). assert (DR := dir_run cs _ _ adrel_init dir_init F D). fold p in A, DR.
  assert (EL' : w_last w = ad_last p) by (rewrite (ar_last _ _ A); exact EL).
  exists w. split; [exact E|]. intros v P X B HX path Y HB IY IB.
  set (c := l_coef (s_var (spec_run s_init cs) v)). set (n := ad_fun p v (ad_mean p)).
  assert (N : u_n (w_var w v) = n) by (rewrite (rep_n _ _ _ (HR v)); apply (ar_mean _ _ A)).
  assert (SS : u_s (w_var w v) = sqrt (sum_ids (ad_last p) (fun i => c i * c i))).
  { rewrite (rep_s _ _ _ (HR v)), EL'. reflexivity. }
  set (T := fun o => n + sum_ids (ad_last p) (fun i => c i * X i o)).
  destruct (lin_fv P (ad_last p) X HX n c) as [FT ET]. fold T in FT, ET.
  assert (CL : forall o, Rabs (Y o - T o) <= 1 / 2 * B o).
  { intro o. unfold Y, T. replace n with (path o 0) by (apply (dir_mean p (spec_run s_init cs) A)).
    apply (bends_taylor1 (path o)); [apply HB|]. apply is_derive_Reals. apply (DR v (fun i => X i o)). }
  rewrite N, SS. split.
  - rewrite <- ET. rewrite Rabs_minus_sym. replace (Ex P B / 2) with (1 / 2 * Ex P B) by field.
    apply (mean_close P Y T B (1 / 2)); auto; [lra|apply FT].
  - intros WP FY FB. rewrite Rabs_minus_sym. replace (rms P B / 2) with (1 / 2 * rms P B) by field.
    rewrite <- (lin_true_cov P (ad_last p) X HX n c n c). apply (sd_close P WP Y T B (1 / 2)); auto. lra.
Qed.

Lemma C90_first_order_covariance_proof : forall cs, List.Forall nary_ok cs -> (count_new cs <= max_new)%nat -> derivs_ok ad_init cs ->
  let p := ad_run ad_init cs in
  exists w, run w_init cs = Ret w /\
    forall u v (P : prob) (X : Z -> Om P -> R) (B B' : Om P -> R), standardized P (ad_last p) X -> with_products P ->
      let path := fun x o t => ad_fun p x (part_way (ad_mean p) (ad_sd p) (fun i => X i o) t) in
      let Y := fun x o => path x o 1 in
      (forall o, bends 2 (path u o) (B o)) -> (forall o, bends 2 (path v o) (B' o)) ->
      finite_variance P (Y u) -> finite_variance P B -> finite_variance P (Y v) -> finite_variance P B' ->
      Rabs (u_cov (w_var w u) (w_var w v) - true_cov P (Y u) (Y v)) <=
        u_s (w_var w u) * (rms P B' / 2) + rms P B / 2 * u_s (w_var w v) + rms P B / 2 * (rms P B' / 2).
Proof.
  intros cs F C D p. assert (C' := max_new_lt _ C).
  destruct (run_sim cs w_init s_init wrep_init F) as (w & E & (EL & Pos & HR) & L); [cbn; lia|].
  assert (A := ad_run_rel cs _ _ adrel_init F D). assert (DR := dir_run cs _ _ adrel_init dir_init F D). fold p in A, DR.
  assert (EL' : w_last w = ad_last p) by (rewrite (ar_last _ _ A); exact EL).
  exists w. split; [exact E|]. intros u v P X B B' HX WP path Y HB HB' FY FB FY' FB'.
  set (c := fun x => l_coef (s_var (spec_run s_init cs) x)). set (n := fun x => ad_fun p x (ad_mean p)).
  set (T := fun x o => n x + sum_ids (ad_last p) (fun i => c x i * X i o)).
  assert (FT : forall x, finite_variance P (T x)) by (intro x; apply (lin_fv P (ad_last p) X HX)).
  assert (CL : forall x o b, bends 2 (path x o) b -> Rabs (Y x o - T x o) <= 1 / 2 * b).
  { intros x o b Hb. unfold Y, T. replace (n x) with (path x o 0) by (apply (dir_mean p (spec_run s_init cs) A)).
    apply (bends_taylor1 (path x o)); [exact Hb|]. apply is_derive_Reals. apply (DR x (fun i => X i o)). }
  assert (SS : forall x, u_s (w_var w x) = true_sd P (T x)).
  { intro x. rewrite (rep_s _ _ _ (HR x)), EL'. unfold true_sd, T. rewrite (lin_true_cov P (ad_last p) X HX). reflexivity. }
  assert (CC : u_cov (w_var w u) (w_var w v) = true_cov P (T u) (T v)).
  { rewrite (rep_cov _ _ _ _ _ (HR u) (HR v)), EL'. unfold T. rewrite (lin_true_cov P (ad_last p) X HX). reflexivity. }
  rewrite CC, !SS, Rabs_minus_sym. unfold Rdiv. rewrite (Rmult_comm (rms P B) (/ 2)), (Rmult_comm (rms P B') (/ 2)).
  apply (cov_close P WP (Y u) (T u) B (/ 2) (Y v) (T v) B' (/ 2)); auto; try lra.
  - intro o. replace (/ 2) with (1 / 2) by field. now apply CL.
  - intro o. replace (/ 2) with (1 / 2) by field. now apply CL.
Qed.
