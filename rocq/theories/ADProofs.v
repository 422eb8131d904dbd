(** * ADProofs: the chain rule for whole programs (C05) *)

From Coq Require Import List ZArith Bool Reals Lra Lia.
From Coquelicot Require Import Coquelicot.
From Verif Require Import Base Num Map UReal World Sums SpecLin SpecObs SpecAD URealFacts URealR URealProofs.
Import ListNotations.
Local Open Scope R_scope.

Ltac rg := match goal with |- @eq _ ?a ?b => change (@eq R a b) end; nR; ring.

Lemma curves_uniform {A : Type} (L : list A) (g : A -> R -> R) (D : A -> R) x :
  (forall a, In a L -> derivable_pt_lim (g a) x (D a)) ->
  forall eps, 0 < eps -> exists delta, 0 < delta /\ forall h, h <> 0 -> Rabs h < delta ->
    forall a, In a L -> Rabs (g a (x + h) - g a x - D a * h) <= eps * Rabs h.
Proof.
  induction L as [|a L IH]; intros H eps He.
  - exists 1. split; [lra|]. intros h _ _ a [].
  - destruct (IH (fun b Hb => H b (or_intror Hb)) eps He) as (d1 & P1 & H1).
    destruct (H a (or_introl eq_refl) eps He) as (d2 & H2).
    exists (Rmin d1 d2). split; [apply Rmin_pos; [assumption|apply cond_pos]|].
    intros h Hh Hd b [<-|Hb].
    + assert (Hb : Rabs h < d2) by (eapply Rlt_le_trans; [exact Hd|apply Rmin_r]).
      specialize (H2 h Hh Hb).
      replace (g a (x + h) - g a x - D a * h) with (((g a (x + h) - g a x) / h - D a) * h)
        by (field; assumption).
      rewrite Rabs_mult. apply Rmult_le_compat_r; [apply Rabs_pos|lra].
    + apply H1; auto. eapply Rlt_le_trans; [exact Hd|apply Rmin_l].
Qed.

Lemma rsum_abs {A : Type} (l : list A) f : Rabs (rsum l f) <= rsum l (fun a => Rabs (f a)).
Proof.
  induction l as [|a l IH]; cbn; [rewrite Rabs_R0; lra|].
  eapply Rle_trans; [apply Rabs_triang|lra].
Qed.

(** chain rule through a function of a list *)
Lemma nary_chain f (gs : list (R -> R)) Ds ds x :
  nary_diff f (map (fun g => g x) gs) ds -> length Ds = length gs ->
  (forall k, (k < length gs)%nat -> derivable_pt_lim (nth k gs (fun _ => 0)) x (nth k Ds 0)) ->
  derivable_pt_lim (fun t => f (map (fun g => g t) gs)) x
    (rsum (seq 0 (length gs)) (fun k => nth k ds 0 * nth k Ds 0)).
Proof.
  intros Hf HL Hg eps He.
  set (n := length gs) in *. set (L := seq 0 n).
  set (G := fun k => nth k gs (fun _ => 0)).
  assert (EG : forall t k, (k < n)%nat -> nth k (map (fun g => g t) gs) 0 = G k t).
  { intros t k _. exact (map_nth (fun g : R -> R => g t) gs (fun _ => 0) k). }
  assert (InL : forall k, In k L -> (k < n)%nat) by (intros k Hk; apply in_seq in Hk; lia).
  set (M := 1 + rsum L (fun k => Rabs (nth k Ds 0) + 1)).
  set (Q := 1 + rsum L (fun k => Rabs (nth k ds 0))).
  assert (HM : 0 < M).
  { unfold M. enough (0 <= rsum L (fun k => Rabs (nth k Ds 0) + 1)) by lra.
    apply rsum_nonneg. intros k _. assert (H := Rabs_pos (nth k Ds 0)); lra. }
  assert (HQ : 0 < Q).
  { unfold Q. enough (0 <= rsum L (fun k => Rabs (nth k ds 0))) by lra.
    apply rsum_nonneg. intros k _. apply Rabs_pos. }
  set (e1 := eps / (4 * M)). set (e2 := Rmin 1 (eps / (4 * Q))).
  assert (He1 : 0 < e1) by (apply Rdiv_lt_0_compat; lra).
  assert (He2 : 0 < e2) by (apply Rmin_pos; [lra|apply Rdiv_lt_0_compat; lra]).
  destruct (Hf e1 He1) as (delta & Hd & Hdf).
  destruct (curves_uniform L G (fun k => nth k Ds 0) x) with (eps := e2) as (d2 & Hd2 & Hu); auto.
  { intros k Hk. apply Hg, InL, Hk. }
  assert (Hdd : 0 < Rmin d2 (delta / M)).
  { apply Rmin_pos; [assumption|apply Rdiv_lt_0_compat; lra]. }
  exists (mkposreal _ Hdd). intros h Hh Hlt. cbn in Hlt.
  assert (Hh2 : Rabs h < d2) by (eapply Rlt_le_trans; [exact Hlt|apply Rmin_l]).
  assert (Hh3 : Rabs h < delta / M) by (eapply Rlt_le_trans; [exact Hlt|apply Rmin_r]).
  specialize (Hu h Hh Hh2).
  assert (Hpos : 0 < Rabs h) by now apply Rabs_pos_lt.
  assert (Hinc : forall k, In k L -> Rabs (G k (x + h) - G k x) <= (Rabs (nth k Ds 0) + 1) * Rabs h).
  { intros k Hk. specialize (Hu k Hk).
    replace (G k (x + h) - G k x) with ((G k (x + h) - G k x - nth k Ds 0 * h) + nth k Ds 0 * h) by ring.
    eapply Rle_trans; [apply Rabs_triang|]. rewrite Rabs_mult.
    assert (e2 <= 1) by apply Rmin_l.
    assert (e2 * Rabs h <= 1 * Rabs h) by (apply Rmult_le_compat_r; lra). lra. }
  assert (HMh : M * Rabs h < delta).
  { apply (Rmult_lt_compat_l M) in Hh3; [|exact HM].
    replace (M * (delta / M)) with delta in Hh3 by (field; lra). exact Hh3. }
  assert (Le1 : forall k, In k L -> Rabs (nth k Ds 0) + 1 <= rsum L (fun k => Rabs (nth k Ds 0) + 1)).
  { intros k Hk. clear -Hk. induction L as [|a L IH]; [destruct Hk|]. cbn.
    assert (P : 0 <= rsum L (fun k => Rabs (nth k Ds 0) + 1)).
    { apply rsum_nonneg. intros b _. assert (H := Rabs_pos (nth b Ds 0)); lra. }
    assert (P2 := Rabs_pos (nth a Ds 0)).
    destruct Hk as [<-|Hk]; [lra|]. specialize (IH Hk). lra. }
  specialize (Hdf (map (fun g => g (x + h)) gs)). rewrite !map_length in Hdf. fold n L in Hdf.
  specialize (Hdf eq_refl).
  rewrite (rsum_ext L _ (fun k => nth k ds 0 * (G k (x + h) - G k x))) in Hdf.
  2:{ intros k Hk. apply InL in Hk. now rewrite !EG. }
  rewrite (rsum_ext L (fun k => Rabs _) (fun k => Rabs (G k (x + h) - G k x))) in Hdf.
  2:{ intros k Hk. apply InL in Hk. now rewrite !EG. }
  assert (Hdf' : Rabs (f (map (fun g => g (x + h)) gs) - f (map (fun g => g x) gs) -
       rsum L (fun k => nth k ds 0 * (G k (x + h) - G k x))) <= e1 * (M * Rabs h)).
  { eapply Rle_trans; [apply Hdf|].
    - intros k Hk. assert (Hk' : In k L) by (apply in_seq; lia). rewrite !EG by exact Hk.
      eapply Rle_lt_trans; [apply Hinc, Hk'|]. eapply Rle_lt_trans; [|exact HMh].
      apply Rmult_le_compat_r; [lra|]. unfold M. specialize (Le1 k Hk'). lra.
    - apply Rmult_le_compat_l; [lra|].
      eapply Rle_trans; [apply rsum_le; exact Hinc|]. rewrite rsum_scal_r.
      apply Rmult_le_compat_r; [lra|]. unfold M; lra. }
  clear Hdf.
  assert (Hlin : Rabs (rsum L (fun k => nth k ds 0 * (G k (x + h) - G k x))
                       - rsum L (fun k => nth k ds 0 * nth k Ds 0) * h) <= Q * (e2 * Rabs h)).
  { rewrite <- rsum_scal_r, <- rsum_minus. eapply Rle_trans; [apply rsum_abs|].
    eapply Rle_trans; [apply rsum_le with (g := fun k => Rabs (nth k ds 0) * (e2 * Rabs h))|].
    - intros k Hk.
      replace (nth k ds 0 * (G k (x + h) - G k x) - nth k ds 0 * nth k Ds 0 * h)
        with (nth k ds 0 * (G k (x + h) - G k x - nth k Ds 0 * h)) by ring.
      rewrite Rabs_mult. apply Rmult_le_compat_l; [apply Rabs_pos|]. now apply Hu.
    - rewrite rsum_scal_r. apply Rmult_le_compat_r; [apply Rmult_le_pos; lra|]. unfold Q; lra. }
  set (A := f (map (fun g => g (x + h)) gs)) in *. set (A0 := f (map (fun g => g x) gs)) in *.
  set (S1 := rsum L (fun k => nth k ds 0 * (G k (x + h) - G k x))) in *.
  set (S2 := rsum L (fun k => nth k ds 0 * nth k Ds 0)) in *.
  replace ((A - A0) / h - S2) with ((A - A0 - S1 + (S1 - S2 * h)) * / h) by (field; assumption).
  rewrite Rabs_mult, Rabs_inv.
  assert (Hnum : Rabs (A - A0 - S1 + (S1 - S2 * h)) <= eps / 2 * Rabs h).
  { eapply Rle_trans; [apply Rabs_triang|].
    assert (e1 * (M * Rabs h) = eps / 4 * Rabs h) by (unfold e1; field; lra).
    assert (Q * (e2 * Rabs h) <= eps / 4 * Rabs h).
    { assert (e2 <= eps / (4 * Q)) by apply Rmin_r.
      replace (eps / 4 * Rabs h) with (Q * ((eps / (4 * Q)) * Rabs h)) by (field; lra).
      apply Rmult_le_compat_l; [lra|]. apply Rmult_le_compat_r; lra. }
    lra. }
  apply Rle_lt_trans with (eps / 2); [|lra].
  apply (Rmult_le_compat_r (/ Rabs h)) in Hnum; [|left; now apply Rinv_0_lt_compat].
  rewrite Rmult_assoc, Rinv_r, Rmult_1_r in Hnum by lra. exact Hnum.
Qed.

(** ** Invariant *)

Definition agree (last : Z) (e e' : env) : Prop := forall i, (1 <= i <= last)%Z -> e i = e' i.

Record adrel (a : adworld) (sw : sworld) : Prop := {
  ar_last : ad_last a = s_last sw;
  ar_pos : (0 <= ad_last a)%Z;
  ar_local : forall v e e', agree (ad_last a) e e' -> ad_fun a v e = ad_fun a v e';
  ar_zero : forall v i, ~ (1 <= i <= ad_last a)%Z -> l_coef (s_var sw v) i = 0;
  ar_mean : forall v, l_mean (s_var sw v) = ad_fun a v (ad_mean a);
  ar_deriv : forall v i, (1 <= i <= ad_last a)%Z -> exists D,
    derivable_pt_lim (fun t => ad_fun a v (env_set (ad_mean a) i t)) (ad_mean a i) D /\
    l_coef (s_var sw v) i = D * ad_sd a i
}.

Lemma env_set_same e i : forall j, env_set e i (e i) j = e j.
Proof. intro j. unfold env_set. destruct (Z.eq_dec j i); congruence. Qed.

Lemma adrel_set a sw v f b : adrel a sw ->
  (forall e e', agree (ad_last a) e e' -> f e = f e') ->
  l_mean b = f (ad_mean a) ->
  (forall i, ~ (1 <= i <= ad_last a)%Z -> l_coef b i = 0) ->
  (forall i, (1 <= i <= ad_last a)%Z -> exists D,
     derivable_pt_lim (fun t => f (env_set (ad_mean a) i t)) (ad_mean a i) D /\
     l_coef b i = D * ad_sd a i) ->
  adrel (ad_set a v f) (s_set sw v b).
Proof.
  intros H Hl Hm Hz Hd. destruct H. split; cbn; auto.
  - intros u e e' Ha. destruct (Nat.eqb u v); auto.
  - intros u i. destruct (Nat.eqb u v); auto.
  - intro u. destruct (Nat.eqb u v); auto.
  - intros u i Hi. destruct (Nat.eqb u v); auto.
Qed.

Lemma derivable_ext f g x l : (forall t, f t = g t) -> derivable_pt_lim f x l -> derivable_pt_lim g x l.
Proof.
  intros E H eps He. destruct (H eps He) as (d & Hd). exists d. intros h H1 H2.
  rewrite <- !E. auto.
Qed.

Section Step.
  Context (a : adworld) (sw : sworld).
  Hypothesis (H : adrel a sw).

  Lemma mean_env v i : ad_fun a v (env_set (ad_mean a) i (ad_mean a i)) = ad_fun a v (ad_mean a).
  Proof. apply (ar_local _ _ H). intros j _. apply env_set_same. Qed.

  Lemma step_binary v x y (f : R -> R -> R) m dx dy :
    differentiable_pt_lim f (ad_fun a x (ad_mean a)) (ad_fun a y (ad_mean a)) dx dy ->
    m = f (ad_fun a x (ad_mean a)) (ad_fun a y (ad_mean a)) ->
    adrel (ad_set a v (fun e => f (ad_fun a x e) (ad_fun a y e)))
          (s_set sw v (lin_binary (s_var sw x) (s_var sw y) m dx dy)).
  Proof.
    intros Hd Hm. apply adrel_set; auto.
    - intros e e' Ha. now rewrite (ar_local _ _ H x e e' Ha), (ar_local _ _ H y e e' Ha).
    - intros i Hi. cbn. rewrite !(ar_zero _ _ H) by assumption. ring.
    - intros i Hi. destruct (ar_deriv _ _ H x i Hi) as (D1 & H1 & C1).
      destruct (ar_deriv _ _ H y i Hi) as (D2 & H2 & C2).
      exists (dx * D1 + dy * D2). split; [|cbn; rewrite C1, C2; ring].
      apply (derivable_pt_lim_comp_2d f (fun t => ad_fun a x (env_set (ad_mean a) i t))
               (fun t => ad_fun a y (env_set (ad_mean a) i t))); auto.
      now rewrite !mean_env.
  Qed.

  Lemma step_unary v x (f : R -> R) m d :
    derivable_pt_lim f (ad_fun a x (ad_mean a)) d -> m = f (ad_fun a x (ad_mean a)) ->
    adrel (ad_set a v (fun e => f (ad_fun a x e))) (s_set sw v (lin_unary (s_var sw x) m d)).
  Proof.
    intros Hd Hm. apply adrel_set; auto.
    - intros e e' Ha. now rewrite (ar_local _ _ H x e e' Ha).
    - intros i Hi. cbn. rewrite !(ar_zero _ _ H) by assumption. ring.
    - intros i Hi. destruct (ar_deriv _ _ H x i Hi) as (D1 & H1 & C1).
      exists (d * D1). split; [|cbn; rewrite C1; ring].
      apply (derivable_pt_lim_comp (fun t => ad_fun a x (env_set (ad_mean a) i t)) f); auto.
      now rewrite mean_env.
  Qed.

  Lemma step_const v n : adrel (ad_set a v (fun _ => n)) (s_set sw v (lin_number n)).
  Proof.
    apply adrel_set; auto. intros i Hi. exists 0. split; [apply derivable_pt_lim_const|cbn; ring].
  Qed.
End Step.

Lemma diff_add x y : differentiable_pt_lim Rplus x y 1 1.
Proof.
  intro eps. exists (mkposreal 1 Rlt_0_1). intros u v _ _.
  replace (u + v - (x + y) - (1 * (u - x) + 1 * (v - y))) with 0 by ring. rewrite Rabs_R0.
  apply Rmult_le_pos; [left; apply cond_pos|]. eapply Rle_trans; [apply Rabs_pos|apply Rmax_l].
Qed.
Lemma diff_sub x y : differentiable_pt_lim Rminus x y 1 (-1).
Proof.
  intro eps. exists (mkposreal 1 Rlt_0_1). intros u v _ _.
  replace (u - v - (x - y) - (1 * (u - x) + -1 * (v - y))) with 0 by ring. rewrite Rabs_R0.
  apply Rmult_le_pos; [left; apply cond_pos|]. eapply Rle_trans; [apply Rabs_pos|apply Rmax_l].
Qed.
Lemma diff_mul x y : differentiable_pt_lim Rmult x y y x.
Proof.
  intro eps. exists eps. intros u v Hu Hv.
  replace (u * v - x * y - (y * (u - x) + x * (v - y))) with ((u - x) * (v - y)) by ring.
  rewrite Rabs_mult. apply Rle_trans with (eps * Rabs (v - y)).
  - apply Rmult_le_compat_r; [apply Rabs_pos|lra].
  - apply Rmult_le_compat_l; [left; apply cond_pos|apply Rmax_r].
Qed.
Lemma diff_inv x y : y <> 0 -> differentiable_pt_lim (fun _ v => / v) x y 0 (- / (y * y)).
Proof.
  intros Hy.
  assert (D : derivable_pt_lim Rinv y (- / (y * y))).
  { apply is_derive_Reals. auto_derive; [exact Hy|]. field. exact Hy. }
  assert (E := differentiable_pt_lim_proj1_0 Rinv y x (- / (y * y)) D).
  intro eps. destruct (E eps) as (d & Hd). exists d. intros u v Hu Hv. specialize (Hd v u Hv Hu).
  cbn in Hd. rewrite Rmax_comm.
  replace (0 * (u - x) + - / (y * y) * (v - y)) with (- / (y * y) * (v - y) + 0 * (u - x)) by ring.
  exact Hd.
Qed.
Lemma diff_fst x y : differentiable_pt_lim (fun u _ => u) x y 1 0.
Proof.
  intro eps. exists (mkposreal 1 Rlt_0_1). intros u v _ _.
  replace (u - x - (1 * (u - x) + 0 * (v - y))) with 0 by ring. rewrite Rabs_R0.
  apply Rmult_le_pos; [left; apply cond_pos|]. eapply Rle_trans; [apply Rabs_pos|apply Rmax_l].
Qed.
Lemma diff_div x y : y <> 0 -> differentiable_pt_lim Rdiv x y (/ y) (- x / (y * y)).
Proof.
  intro Hy.
  assert (E := differentiable_pt_lim_comp Rmult (fun u _ => u) (fun _ v => / v) x y (/ y) x 1 0 0 (- / (y * y))
    (diff_mul x (/ y)) (diff_fst x y) (diff_inv x y Hy)).
  replace (/ y * 1 + x * 0) with (/ y) in E by ring.
  replace (/ y * 0 + x * - / (y * y)) with (- x / (y * y)) in E by (field; exact Hy).
  exact E.
Qed.

Lemma nth_map_seq {A : Type} (l : list A) (f : A -> R) k d :
  (k < length l)%nat -> nth k (map f l) 0 = f (nth k l d).
Proof.
  intro Hk. rewrite (nth_indep _ 0 (f d)) by (rewrite map_length; exact Hk). apply map_nth.
Qed.

Lemma rsum_combine (xs : list lin) (ds : list R) i : (length xs <= length ds)%nat ->
  rsum (combine xs ds) (fun xd => snd xd * l_coef (fst xd) i)
  = rsum (seq 0 (length xs)) (fun k => nth k ds 0 * nth k (map (fun x => l_coef x i) xs) 0).
Proof.
  revert ds. induction xs as [|x xs IH]; intros ds HL; [reflexivity|].
  destruct ds as [|d ds]; [cbn in HL; lia|]. cbn in HL. cbn [combine rsum fst snd length seq map nth].
  rewrite IH by lia. f_equal. rewrite <- seq_shift, rsum_map. reflexivity.
Qed.

Lemma ad_step a sw c : adrel a sw -> nary_ok c ->
  deriv_ok (fun x => ad_fun a x (ad_mean a)) c -> adrel (ad_exec a c) (spec_exec sw c).
Proof.
  intros H HN HD. assert (M := ar_mean _ _ H).
  destruct c; cbn [ad_exec spec_exec deriv_ok] in *; rewrite ?M.
  - (* new *)
    rewrite <- (ar_last _ _ H). set (i := (ad_last a + 1)%Z). assert (P := ar_pos _ _ H).
    assert (Hag : forall e t, agree (ad_last a) (env_set e i t) e).
    { intros e t j Hj. unfold env_set. destruct (Z.eq_dec j i); [lia|reflexivity]. }
    assert (Hnew : adrel (mkAD i (env_set (ad_mean a) i n) (env_set (ad_sd a) i s) (ad_fun a))
                         (mkS i (s_var sw))).
    { split; cbn [ad_last ad_mean ad_sd ad_fun s_last s_var]; auto; try lia.
      - intros v0 e e' Ha. apply (ar_local _ _ H). intros j Hj. apply Ha. lia.
      - intros v0 j Hj. apply (ar_zero _ _ H). lia.
      - intro v0. rewrite M. apply (ar_local _ _ H). intros j Hj. symmetry. now apply Hag.
      - intros v0 j Hj. destruct (Z.eq_dec j i) as [->|Nj].
        + exists 0. split.
          * apply (derivable_ext (fun _ => ad_fun a v0 (ad_mean a))); [|apply derivable_pt_lim_const].
            intro t. apply (ar_local _ _ H). intros j Hj'. unfold env_set.
            destruct (Z.eq_dec j i); [lia|reflexivity].
          * rewrite (ar_zero _ _ H) by lia. ring.
        + destruct (ar_deriv _ _ H v0 j) as (D & H1 & C1); [lia|]. exists D. split.
          * assert (E : env_set (ad_mean a) i n j = ad_mean a j)
              by (unfold env_set; destruct (Z.eq_dec j i); congruence).
            rewrite E. eapply derivable_ext; [|exact H1]. intro t. apply (ar_local _ _ H).
            intros k Hk. unfold env_set. destruct (Z.eq_dec k j); [reflexivity|].
            destruct (Z.eq_dec k i); [lia|reflexivity].
          * rewrite C1. unfold env_set. destruct (Z.eq_dec j i); congruence. }
    destruct (Rlt_dec s 0); [exact Hnew|].
    apply adrel_set; cbn [ad_last ad_mean ad_sd]; [exact Hnew| | | |].
    + intros e e' Ha. apply Ha. lia.
    + cbn. unfold env_set. destruct (Z.eq_dec i i); congruence.
    + intros j Hj. cbn. destruct (Z.eq_dec j i); [lia|reflexivity].
    + intros j Hj. cbn [l_coef lin_fresh].
      destruct (Z.eq_dec j i) as [->|Nj].
      * exists 1. split; [|unfold env_set; destruct (Z.eq_dec i i); [rg|congruence]].
        apply (derivable_ext (fun t => t)); [|apply derivable_pt_lim_id].
        intro t. unfold env_set. destruct (Z.eq_dec i i); congruence.
      * exists 0. split; [|ring].
        apply (derivable_ext (fun _ => n)); [|apply derivable_pt_lim_const].
        intro t. unfold env_set. destruct (Z.eq_dec i j); [congruence|].
        destruct (Z.eq_dec i i); congruence.
  - apply (step_const a sw H).
  - apply (step_const a sw H).
  - apply adrel_set; auto; apply H.
  - destruct HD.
  - apply (step_unary a sw H); auto.
  - apply (step_binary a sw H); auto.
  - (* nary *)
    assert (Em : map (fun v0 => l_mean (s_var sw v0)) xs = map (fun x => ad_fun a x (ad_mean a)) xs)
      by (apply map_ext; intro; apply M).
    rewrite Em. apply adrel_set; auto.
    + intros e e' Ha. f_equal. apply map_ext. intro x. now apply (ar_local _ _ H).
    + intros i Hi. cbn [l_coef lin_nary]. apply rsum_zero. intros [x d] Hin. cbn.
      apply in_combine_l in Hin. apply in_map_iff in Hin as (u & <- & _).
      rewrite (ar_zero _ _ H) by assumption. ring.
    + intros i Hi.
      assert (Hall : exists Ds, length Ds = length xs /\ forall k, (k < length xs)%nat ->
        derivable_pt_lim (fun t => ad_fun a (nth k xs 0%nat) (env_set (ad_mean a) i t)) (ad_mean a i) (nth k Ds 0) /\
        l_coef (s_var sw (nth k xs 0%nat)) i = nth k Ds 0 * ad_sd a i).
      { clear HN HD Em. induction xs as [|x xs IH]; [exists []; split; [reflexivity|cbn; lia]|].
        destruct IH as (Ds & EL & HDs). destruct (ar_deriv _ _ H x i Hi) as (D & H1 & C1).
        exists (D :: Ds). split; [cbn; congruence|]. intros [|k] Hk; cbn in *; [auto|].
        apply HDs; lia. }
      destruct Hall as (Ds & EL & HDs).
      set (ms := map (fun x => ad_fun a x (ad_mean a)) xs) in *.
      exists (rsum (seq 0 (length xs)) (fun k => nth k (dfs ms) 0 * nth k Ds 0)). split.
      * set (gs := map (fun x t => ad_fun a x (env_set (ad_mean a) i t)) xs).
        assert (C := nary_chain f gs Ds (dfs ms) (ad_mean a i)).
        unfold gs in C at 3 5 6. rewrite map_length in C.
        eapply derivable_ext; [|apply C].
        -- intro t. cbn. unfold gs. rewrite map_map. reflexivity.
        -- unfold gs. rewrite map_map.
           replace (map (fun x => ad_fun a x (env_set (ad_mean a) i (ad_mean a i))) xs) with ms; [exact HD|].
           apply map_ext. intro x. symmetry. apply (mean_env a sw H).
        -- unfold gs. now rewrite map_length.
        -- intros k Hk. destruct (HDs k) as [H1 _]; [exact Hk|]. unfold gs.
           rewrite (nth_indep _ _ ((fun x t => ad_fun a x (env_set (ad_mean a) i t)) 0%nat))
             by (rewrite map_length; exact Hk).
           rewrite (map_nth (fun x t => ad_fun a x (env_set (ad_mean a) i t))). exact H1.
      * cbn [l_coef lin_nary]. rewrite rsum_combine.
        -- rewrite map_length, map_map, <- rsum_scal_r. apply rsum_ext. intros k Hk.
           apply in_seq in Hk. destruct (HDs k) as [_ C1]; [lia|].
           rewrite (nth_map_seq xs _ k 0%nat) by lia. cbn beta. rewrite C1. rg.
        -- rewrite map_length. apply HN. unfold ms. now rewrite map_length.
  - apply (step_binary a sw H); auto.
  - apply (step_unary a sw H); auto.
    apply is_derive_Reals. auto_derive; auto.
  - apply (step_binary a sw H); auto using diff_add.
  - apply (step_binary a sw H); auto using diff_sub.
  - apply (step_binary a sw H); auto using diff_mul.
  - apply (step_binary a sw H); auto using diff_div.
  - apply (step_binary a sw H); auto using diff_add.
  - apply (step_binary a sw H); auto using diff_sub.
  - apply (step_binary a sw H); auto using diff_mul.
  - apply (step_binary a sw H); auto using diff_div.
  - exact H.
  - exact H.
Qed.

Lemma ad_run_rel cs : forall a sw, adrel a sw -> List.Forall nary_ok cs -> derivs_ok a cs ->
  adrel (ad_run a cs) (spec_run sw cs).
Proof.
  induction cs as [|c cs IH]; intros a sw H F D; [exact H|].
  inversion F; subst. destruct D as [D1 D2]. cbn [ad_run spec_run fold_left]. apply IH; auto.
  now apply ad_step.
Qed.

Lemma adrel_init : adrel ad_init s_init.
Proof. split; cbn; auto; try lia. Qed.

Lemma C05_chain_rule_proof : forall cs, List.Forall nary_ok cs -> (count_new cs <= max_new)%nat ->
  derivs_ok ad_init cs ->
  let p := ad_run ad_init cs in
  exists w (D : nat -> Z -> R), run w_init cs = Ret w /\
    (forall v, u_n (w_var w v) = ad_fun p v (ad_mean p)) /\
    (forall v i, (1 <= i <= ad_last p)%Z ->
       is_derive (fun t => ad_fun p v (env_set (ad_mean p) i t)) (ad_mean p i) (D v i)) /\
    (forall u v, u_cov (w_var w u) (w_var w v)
                 = sum_ids (ad_last p) (fun i => D u i * D v i * ad_sd p i ^ 2)) /\
    (forall v, u_var (w_var w v) = sum_ids (ad_last p) (fun i => (D v i * ad_sd p i) ^ 2)).
Proof.
  intros cs F C D p.
  assert (C' := max_new_lt _ C).
  destruct (run_sim cs w_init s_init wrep_init F) as (w & E & (EL & P & HR) & L); [cbn; lia|].
  assert (A := ad_run_rel cs _ _ adrel_init F D). fold p in A.
  set (DD := fun v i => Derive (fun t => ad_fun p v (env_set (ad_mean p) i t)) (ad_mean p i)).
  assert (HD : forall v i, (1 <= i <= ad_last p)%Z ->
     is_derive (fun t => ad_fun p v (env_set (ad_mean p) i t)) (ad_mean p i) (DD v i) /\
     l_coef (s_var (spec_run s_init cs) v) i = DD v i * ad_sd p i).
  { intros v i Hi. destruct (ar_deriv _ _ A v i Hi) as (d & Hd & Hc).
    apply is_derive_Reals in Hd. assert (DD v i = d) by (apply is_derive_unique; exact Hd).
    rewrite H. auto. }
  exists w, DD. split; [exact E|].
  split; [intro v; rewrite (rep_n _ _ _ (HR v)); apply (ar_mean _ _ A)|].
  split; [intros v i Hi; now apply HD|].
  assert (EL' : w_last w = ad_last p) by (rewrite (ar_last _ _ A); exact EL).
  split.
  - intros u v. rewrite (rep_cov _ _ _ _ _ (HR u) (HR v)), EL'. unfold lin_cov.
    apply rsum_ext. intros i Hi. apply ids_In in Hi.
    rewrite (proj2 (HD u i Hi)), (proj2 (HD v i Hi)). ring.
  - intros v. rewrite (rep_var _ _ _ (HR v)), EL'. unfold lin_var, lin_cov.
    apply rsum_ext. intros i Hi. apply ids_In in Hi. rewrite (proj2 (HD v i Hi)). ring.
Qed.
