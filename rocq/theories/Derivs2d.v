(** * Derivs2d: differentials of first and second order of functions of two variables *)

From Coq Require Import Reals Lra Lia ZArith.
From Coquelicot Require Import Coquelicot.
From Flocq Require Import Core.
From Verif Require Import Base Num Nan Math ADProofs Derivs.
Local Open Scope R_scope.

Notation dpl := differentiable_pt_lim.

(** On the open set [dom]: [f] is differentiable with partial derivatives [fx], [fy], which
    are themselves differentiable, with partial derivatives [fxx], [fxy] and [fxy], [fyy]. *)
Definition derivs2d (dom : R -> R -> Prop) (f fx fy fxx fyy fxy : R -> R -> R) : Prop :=
  (forall x y, dom x y -> locally_2d dom x y) /\
  (forall x y, dom x y -> dpl f x y (fx x y) (fy x y)) /\
  (forall x y, dom x y -> dpl fx x y (fxx x y) (fxy x y)) /\
  (forall x y, dom x y -> dpl fy x y (fxy x y) (fyy x y)).

Lemma dl_eq f x y a b a' b' : dpl f x y a b -> a = a' -> b = b' -> dpl f x y a' b'.
Proof. intros H -> ->. exact H. Qed.
Lemma dl_const c x y : dpl (fun _ _ => c) x y 0 0.
Proof.
  intro eps. exists (mkposreal 1 Rlt_0_1). intros u v _ _.
  replace (c - c - (0 * (u - x) + 0 * (v - y))) with 0 by ring. rewrite Rabs_R0.
  apply Rmult_le_pos; [left; apply cond_pos|]. eapply Rle_trans; [apply Rabs_pos|apply Rmax_l].
Qed.
Lemma dl_fst x y : dpl (fun u _ => u) x y 1 0.
Proof. apply diff_fst. Qed.
Lemma dl_snd x y : dpl (fun _ v => v) x y 0 1.
Proof.
  intro eps. exists (mkposreal 1 Rlt_0_1). intros u v _ _.
  replace (v - y - (0 * (u - x) + 1 * (v - y))) with 0 by ring. rewrite Rabs_R0.
  apply Rmult_le_pos; [left; apply cond_pos|]. eapply Rle_trans; [apply Rabs_pos|apply Rmax_l].
Qed.
Lemma dl_add f g x y fx fy gx gy : dpl f x y fx fy -> dpl g x y gx gy ->
  dpl (fun u v => f u v + g u v) x y (fx + gx) (fy + gy).
Proof.
  intros F G. eapply dl_eq.
  - exact (differentiable_pt_lim_comp Rplus f g x y 1 1 _ _ _ _ (diff_add _ _) F G).
  - ring.
  - ring.
Qed.
Lemma dl_sub f g x y fx fy gx gy : dpl f x y fx fy -> dpl g x y gx gy ->
  dpl (fun u v => f u v - g u v) x y (fx - gx) (fy - gy).
Proof.
  intros F G. eapply dl_eq.
  - exact (differentiable_pt_lim_comp Rminus f g x y 1 (-1) _ _ _ _ (diff_sub _ _) F G).
  - ring.
  - ring.
Qed.
Lemma dl_mul f g x y fx fy gx gy : dpl f x y fx fy -> dpl g x y gx gy ->
  dpl (fun u v => f u v * g u v) x y (g x y * fx + f x y * gx) (g x y * fy + f x y * gy).
Proof.
  intros F G.
  exact (differentiable_pt_lim_comp Rmult f g x y _ _ _ _ _ _ (diff_mul _ _) F G).
Qed.
Lemma dl_comp (h : R -> R) f x y d fx fy : is_derive h (f x y) d -> dpl f x y fx fy ->
  dpl (fun u v => h (f u v)) x y (d * fx) (d * fy).
Proof.
  intros D F. apply is_derive_Reals in D.
  eapply dl_eq.
  - exact (differentiable_pt_lim_comp (fun a _ => h a) f (fun _ _ => 0) x y _ _ _ _ _ _
             (differentiable_pt_lim_proj1_0 h (f x y) 0 d D) F (dl_const 0 x y)).
  - ring.
  - ring.
Qed.
Lemma dl_opp f x y fx fy : dpl f x y fx fy -> dpl (fun u v => - f u v) x y (- fx) (- fy).
Proof.
  intro F. eapply dl_eq; [apply (dl_comp Ropp f x y (-1) fx fy); [auto_derive; auto; ring|exact F]| |]; ring.
Qed.
Lemma dl_inv f x y fx fy : f x y <> 0 -> dpl f x y fx fy ->
  dpl (fun u v => / f u v) x y (- / (f x y * f x y) * fx) (- / (f x y * f x y) * fy).
Proof.
  intros H F. apply (dl_comp Rinv f); [auto_derive; [exact H|field; exact H]|exact F].
Qed.

Lemma loc2_fst (P : R -> Prop) x y : locally x P -> locally_2d (fun u _ => P u) x y.
Proof. intros [d H]. exists d. intros u v Hu _. apply H. exact Hu. Qed.
Lemma loc2_snd (P : R -> Prop) x y : locally y P -> locally_2d (fun _ v => P v) x y.
Proof. intros [d H]. exists d. intros u v _ Hv. apply H. exact Hv. Qed.
Lemma loc2_imp (P Q : R -> R -> Prop) x y :
  (forall u v, P u v -> Q u v) -> locally_2d P x y -> locally_2d Q x y.
Proof. intros H [d K]. exists d. auto. Qed.
Lemma loc2_and (P Q : R -> R -> Prop) x y :
  locally_2d P x y -> locally_2d Q x y -> locally_2d (fun u v => P u v /\ Q u v) x y.
Proof.
  intros [d H] [e K]. assert (M : 0 < Rmin d e) by (apply Rmin_pos; apply cond_pos).
  exists (mkposreal _ M). cbn. intros u v Hu Hv.
  split; [apply H|apply K]; eapply Rlt_le_trans; eauto using Rmin_l, Rmin_r.
Qed.
(** preimages of neighbourhoods *)
Lemma loc2_comp f x y a b (P : R -> Prop) : dpl f x y a b -> locally (f x y) P ->
  locally_2d (fun u v => P (f u v)) x y.
Proof.
  intros D [e H].
  assert (C : continuity_2d_pt f x y) by (apply differentiable_continuity_pt; exists a, b; exact D).
  destruct (C e) as [d K]. exists d. intros u v Hu Hv. apply H. apply K; assumption.
Qed.

(** differentiation tactic: leaves the side conditions and two equations *)
Ltac dl1 :=
  match goal with
  | |- dpl (fun u _ => u) _ _ _ _ => apply dl_fst
  | |- dpl (fun _ v => v) _ _ _ _ => apply dl_snd
  | |- dpl (fun _ _ => ?c) _ _ _ _ => apply dl_const
  | |- dpl (fun u v => @?f u v + @?g u v) _ _ _ _ => apply (dl_add f g)
  | |- dpl (fun u v => @?f u v - @?g u v) _ _ _ _ => apply (dl_sub f g)
  | |- dpl (fun u v => @?f u v * @?g u v) _ _ _ _ => apply (dl_mul f g)
  | |- dpl (fun u v => - @?f u v) _ _ _ _ => apply (dl_opp f)
  | |- dpl (fun u v => / @?f u v) _ _ _ _ => apply (dl_inv f)
  | |- dpl (fun u v => exp (@?f u v)) _ _ _ _ => eapply (dl_comp exp f); [apply (proj1 (proj2 D_exp)); exact I|]
  | |- dpl (fun u v => ln (@?f u v)) _ _ _ _ => eapply (dl_comp ln f); [apply (proj1 (proj2 D_ln))|]
  | |- dpl (fun u v => sqrt (@?f u v)) _ _ _ _ => eapply (dl_comp sqrt f); [apply (proj1 (proj2 D_sqrt))|]
  | |- dpl (fun u v => atan (@?f u v)) _ _ _ _ => eapply (dl_comp atan f); [apply (proj1 (proj2 D_atan)); exact I|]
  end.
Ltac dl := unfold Rdiv; eapply dl_eq; [repeat dl1| |].

(** ** pow on the right half plane *)
Lemma D2_pow : derivs2d (fun x _ => 0 < x) Rpower
  (fun x y => Rpower x y * / x * y) (fun x y => Rpower x y * ln x)
  (fun x y => Rpower x y * / x * y * / x * (y - 1)) (fun x y => Rpower x y * ln x * ln x)
  (fun x y => Rpower x y * / x + Rpower x y * / x * y * ln x).
Proof.
  split; [intros x y H; apply loc2_fst; now apply loc_gt|].
  unfold Rpower. repeat split; intros x y H; dl; try lra; try (field; lra).
Qed.

(** ** hypot *)
Definition R_hypot (x y : R) : R := sqrt (x * x + y * y).
Lemma sumsq_pos x y : x <> 0 \/ y <> 0 -> 0 < x * x + y * y.
Proof. intros [H|H]; nra. Qed.
Lemma loc2_sumsq x y : x <> 0 \/ y <> 0 -> locally_2d (fun x y => x <> 0 \/ y <> 0) x y.
Proof.
  intros [H|H].
  - apply (loc2_imp (fun u _ => u <> 0)); [tauto|]. apply loc2_fst; apply (loc_neq 0); exact H.
  - apply (loc2_imp (fun _ v => v <> 0)); [tauto|]. apply loc2_snd; apply (loc_neq 0); exact H.
Qed.
Lemma D2_hypot : derivs2d (fun x y => x <> 0 \/ y <> 0) R_hypot
  (fun x y => x * / R_hypot x y) (fun x y => y * / R_hypot x y)
  (fun x y => / R_hypot x y * (1 - (x * / R_hypot x y) * (x * / R_hypot x y)))
  (fun x y => / R_hypot x y * (1 - (y * / R_hypot x y) * (y * / R_hypot x y)))
  (fun x y => - (x * / R_hypot x y) * (y * / R_hypot x y) * / R_hypot x y).
Proof.
  split; [exact loc2_sumsq|].
  unfold R_hypot. repeat split; intros x y H; assert (K := sumsq_pos x y H);
    assert (Q := sqrt_lt_R0 _ K); dl; try lra; field; lra.
Qed.

(** ** atan2; [x] is the ordinate, [y] the abscissa *)
Definition atan2_dom (x y : R) : Prop := x <> 0 \/ 0 < y.
Lemma loc2_atan2 x y : atan2_dom x y -> locally_2d atan2_dom x y.
Proof.
  intros [H|H].
  - apply (loc2_imp (fun u _ => u <> 0)); [unfold atan2_dom; tauto|]. apply loc2_fst; apply (loc_neq 0); exact H.
  - apply (loc2_imp (fun _ v => 0 < v)); [unfold atan2_dom; tauto|]. apply loc2_snd; apply (loc_gt 0); exact H.
Qed.
Lemma atan2_right x y : 0 < y -> R_atan2 x y = atan (x * / y).
Proof. intro H. unfold R_atan2. destruct (Rlt_dec 0 y); [reflexivity|lra]. Qed.
Lemma atan2_up x y : 0 < x -> R_atan2 x y = PI / 2 - atan (y * / x).
Proof.
  intro H. unfold R_atan2. destruct (Rlt_dec 0 y).
  - replace (x / y) with (/ (y * / x)) by (field; lra). apply atan_inv.
    apply Rmult_lt_0_compat; [lra|now apply Rinv_0_lt_compat].
  - destruct (Rlt_dec y 0).
    + destruct (Rlt_dec x 0); [lra|].
      replace (x / y) with (- / (- y * / x)) by (field; lra). rewrite atan_opp, atan_inv.
      * replace (- y * / x) with (- (y * / x)) by ring. rewrite atan_opp. lra.
      * apply Rmult_lt_0_compat; [lra|now apply Rinv_0_lt_compat].
    + replace y with 0 by lra. destruct (Rlt_dec 0 x); [|lra].
      rewrite Rmult_0_l, atan_0. lra.
Qed.
Lemma atan2_down x y : x < 0 -> R_atan2 x y = - (PI / 2) - atan (y * / x).
Proof.
  intro H. assert (Hi : 0 < / - x) by (apply Rinv_0_lt_compat; lra).
  unfold R_atan2. destruct (Rlt_dec 0 y).
  - replace (x / y) with (- / (y * / - x)) by (field; lra). rewrite atan_opp, atan_inv.
    + replace (y * / x) with (- (y * / - x)) by (field; lra). rewrite atan_opp. lra.
    + apply Rmult_lt_0_compat; lra.
  - destruct (Rlt_dec y 0).
    + destruct (Rlt_dec x 0); [|lra].
      replace (x / y) with (/ (- y * / - x)) by (field; lra). rewrite atan_inv.
      * replace (- y * / - x) with (y * / x) by (field; lra). lra.
      * apply Rmult_lt_0_compat; lra.
    + replace y with 0 by lra. destruct (Rlt_dec 0 x); [lra|]. destruct (Rlt_dec x 0); [|lra].
      rewrite Rmult_0_l, atan_0. lra.
Qed.
Lemma D2_atan2 : derivs2d atan2_dom R_atan2
  (fun x y => y * / (x * x + y * y)) (fun x y => - (x * / (x * x + y * y)))
  (fun x y => - (2 * (x * / (x * x + y * y)) * (y * / (x * x + y * y))))
  (fun x y => 2 * (x * / (x * x + y * y)) * (y * / (x * x + y * y)))
  (fun x y => (x * x - y * y) * / (x * x + y * y) * / (x * x + y * y)).
Proof.
  split; [exact loc2_atan2|]. repeat split; intros x y H.
  - assert (K : 0 < x * x + y * y) by (apply sumsq_pos; destruct H; [tauto|right; lra]).
    destruct (Rlt_dec 0 y) as [P|P]; [|destruct (Rlt_dec 0 x) as [Q|Q]].
    + apply (differentiable_pt_lim_ext (fun x y => atan (x * / y))).
      { apply (loc2_imp (fun _ v => 0 < v)); [|apply loc2_snd; apply (loc_gt 0); exact P].
        intros u v Hv. symmetry. now apply atan2_right. }
      dl; try lra; field; lra.
    + apply (differentiable_pt_lim_ext (fun x y => PI / 2 - atan (y * / x))).
      { apply (loc2_imp (fun u _ => 0 < u)); [|apply loc2_fst; apply (loc_gt 0); exact Q].
        intros u v Hv. symmetry. now apply atan2_up. }
      dl; try lra; field; lra.
    + assert (Q' : x < 0) by (destruct H; lra).
      apply (differentiable_pt_lim_ext (fun x y => - (PI / 2) - atan (y * / x))).
      { apply (loc2_imp (fun u _ => u < 0)); [|apply loc2_fst; apply (loc_lt 0); exact Q'].
        intros u v Hv. symmetry. now apply atan2_down. }
      dl; try lra; field; lra.
  - assert (K : 0 < x * x + y * y) by (apply sumsq_pos; destruct H; [tauto|right; lra]).
    dl; try lra; field; lra.
  - assert (K : 0 < x * x + y * y) by (apply sumsq_pos; destruct H; [tauto|right; lra]).
    dl; try lra; field; lra.
Qed.

(** ** fmax, fmin *)
Lemma loc2_lt (x y : R) : x < y -> locally_2d (fun u v => u < v) x y.
Proof.
  intro H. eapply loc2_imp; [|apply (loc2_comp (fun u v => u - v) x y 1 (-1) (fun t => t < 0))].
  - cbn. intros; lra.
  - apply diff_sub.
  - apply loc_lt. lra.
Qed.
Lemma loc2_gt (x y : R) : y < x -> locally_2d (fun u v => v < u) x y.
Proof.
  intro H. eapply loc2_imp; [|apply (loc2_comp (fun u v => u - v) x y 1 (-1) (fun t => 0 < t))].
  - cbn. intros; lra.
  - apply diff_sub.
  - apply loc_gt. lra.
Qed.
Lemma loc2_neq (x y : R) : x <> y -> locally_2d (fun u v => u <> v) x y.
Proof.
  intro H. destruct (Rlt_dec x y).
  - eapply loc2_imp; [|apply loc2_lt; eassumption]. cbn; intros; lra.
  - eapply loc2_imp; [|apply loc2_gt]; [cbn; intros; lra|lra].
Qed.
Lemma dl_case (P : R -> R -> Prop) (f g : R -> R -> R) x y a b : locally_2d P x y ->
  (forall u v, P u v -> g u v = f u v) -> dpl f x y a b -> dpl g x y a b.
Proof.
  intros L E D. apply (differentiable_pt_lim_ext f); [|exact D].
  eapply loc2_imp; [|exact L]. intros; symmetry; now apply E.
Qed.
Lemma D2_fmax : derivs2d (fun x y => x <> y) Rmax
  (fun x y => if Rltb x y then 0 else 1) (fun x y => if Rltb x y then 1 else 0)
  (fun _ _ => 0) (fun _ _ => 0) (fun _ _ => 0).
Proof.
  split; [exact loc2_neq|]. repeat split; intros x y H.
  all: destruct (Rltb_spec x y) as [L|L].
  all: try (assert (L' : y < x) by lra).
  1: apply (dl_case _ (fun _ v => v) _ x y 0 1 (loc2_lt x y L)); [|apply dl_snd]; intros; apply Rmax_right; lra.
  1: apply (dl_case _ (fun u _ => u) _ x y 1 0 (loc2_gt x y L')); [|apply dl_fst]; intros; apply Rmax_left; lra.
  1: apply (dl_case _ (fun _ _ => 0) _ x y 0 0 (loc2_lt x y L)); [|apply dl_const];
     intros u v Huv; destruct (Rltb_spec u v); lra.
  1: apply (dl_case _ (fun _ _ => 1) _ x y 0 0 (loc2_gt x y L')); [|apply dl_const];
     intros u v Huv; destruct (Rltb_spec u v); lra.
  1: apply (dl_case _ (fun _ _ => 1) _ x y 0 0 (loc2_lt x y L)); [|apply dl_const];
     intros u v Huv; destruct (Rltb_spec u v); lra.
  1: apply (dl_case _ (fun _ _ => 0) _ x y 0 0 (loc2_gt x y L')); [|apply dl_const];
     intros u v Huv; destruct (Rltb_spec u v); lra.
Qed.
Lemma D2_fmin : derivs2d (fun x y => x <> y) Rmin
  (fun x y => if Rltb x y then 1 else 0) (fun x y => if Rltb x y then 0 else 1)
  (fun _ _ => 0) (fun _ _ => 0) (fun _ _ => 0).
Proof.
  split; [exact loc2_neq|]. repeat split; intros x y H.
  all: destruct (Rltb_spec x y) as [L|L].
  all: try (assert (L' : y < x) by lra).
  1: apply (dl_case _ (fun u _ => u) _ x y 1 0 (loc2_lt x y L)); [|apply dl_fst]; intros; apply Rmin_left; lra.
  1: apply (dl_case _ (fun _ v => v) _ x y 0 1 (loc2_gt x y L')); [|apply dl_snd]; intros; apply Rmin_right; lra.
  1: apply (dl_case _ (fun _ _ => 1) _ x y 0 0 (loc2_lt x y L)); [|apply dl_const];
     intros u v Huv; destruct (Rltb_spec u v); lra.
  1: apply (dl_case _ (fun _ _ => 0) _ x y 0 0 (loc2_gt x y L')); [|apply dl_const];
     intros u v Huv; destruct (Rltb_spec u v); lra.
  1: apply (dl_case _ (fun _ _ => 0) _ x y 0 0 (loc2_lt x y L)); [|apply dl_const];
     intros u v Huv; destruct (Rltb_spec u v); lra.
  1: apply (dl_case _ (fun _ _ => 1) _ x y 0 0 (loc2_gt x y L')); [|apply dl_const];
     intros u v Huv; destruct (Rltb_spec u v); lra.
Qed.

(** ** fmod, remainder *)
Definition no_jump_trunc (q : R) : Prop := forall k, k <> 0%Z -> q <> IZR k.
Lemma loc_trunc (q : R) : no_jump_trunc q ->
  locally q (fun t : R => no_jump_trunc t /\ Ztrunc t = Ztrunc q).
Proof.
  intro H. destruct (Rlt_dec q 1) as [A|A]; [destruct (Rlt_dec (-1) q) as [B|B]|].
  - apply (filter_imp (fun t => -1 < t < 1)); [|now apply loc_between].
    assert (Z0 : forall t, -1 < t < 1 -> Ztrunc t = 0%Z).
    { intros t Ht. destruct (Rle_dec 0 t).
      - rewrite Ztrunc_floor by assumption. apply Zfloor_imp. cbn; lra.
      - rewrite Ztrunc_ceil by lra. apply Zceil_imp. cbn; lra. }
    intros t Ht. split; [|now rewrite !Z0].
    intros k Hk E. assert (IZR (-1) < IZR k < IZR 1) by lra.
    destruct H0 as [H1 H2]. apply lt_IZR in H1, H2. lia.
  - assert (Q : q <> -1) by (apply (H (-1)%Z); lia).
    set (n := Zceil q). assert (U := Zceil_ub q). fold n in U.
    assert (L := Zceil_lb q). fold n in L.
    assert (Nn : n <> 0%Z).
    { intro E. rewrite E in L. cbn in L. lra. }
    assert (q <> IZR n) by now apply H.
    apply (filter_imp (fun t => IZR n - 1 < t < IZR n)); [|apply loc_between; lra].
    assert (Hn1 : (n <= -1)%Z).
    { apply Zceil_glb. cbn. lra. }
    assert (C : forall t, IZR n - 1 < t < IZR n -> Ztrunc t = n).
    { intros t Ht. apply IZR_le in Hn1. rewrite Ztrunc_ceil by lra. apply Zceil_imp.
      rewrite minus_IZR. lra. }
    intros t Ht. split; [|now rewrite (C t Ht), (C q ltac:(lra))].
    intros k Hk E. subst t. destruct Ht as [H1 H2].
    change 1 with (IZR 1) in H1. rewrite <- minus_IZR in H1. apply lt_IZR in H1, H2. lia.
  - assert (Q : q <> 1) by (apply (H 1%Z); lia).
    set (n := Zfloor q). assert (L := Zfloor_lb q). fold n in L.
    assert (U := Zfloor_ub q). fold n in U.
    assert (Nn : n <> 0%Z).
    { intro E. rewrite E in U. cbn in U. lra. }
    assert (q <> IZR n) by now apply H.
    apply (filter_imp (fun t => IZR n < t < IZR n + 1)); [|apply loc_between; lra].
    assert (Hn1 : (1 <= n)%Z).
    { apply Zfloor_lub. cbn. lra. }
    assert (C : forall t, IZR n < t < IZR n + 1 -> Ztrunc t = n).
    { intros t Ht. apply IZR_le in Hn1. rewrite Ztrunc_floor by lra. apply Zfloor_imp.
      rewrite plus_IZR. lra. }
    intros t Ht. split; [|now rewrite (C t Ht), (C q ltac:(lra))].
    intros k Hk E. subst t. destruct Ht as [H1 H2].
    change 1 with (IZR 1) in H2. rewrite <- plus_IZR in H2. apply lt_IZR in H1, H2. lia.
Qed.

Definition no_jump_round (q : R) : Prop := forall k, q <> IZR k + / 2.
Lemma no_jump_near q : no_jump_round q -> Rabs (q - IZR (ZnearestE q)) < / 2.
Proof.
  intro H. assert (K := Znearest_half (fun x => negb (Z.even x)) q).
  destruct (Rle_lt_or_eq_dec _ _ K) as [L|E]; [exact L|]. exfalso.
  set (n := ZnearestE q) in *. revert E. unfold Rabs. destruct (Rcase_abs _); intro E.
  - apply (H (n - 1)%Z). rewrite minus_IZR. lra.
  - apply (H n). lra.
Qed.
Lemma nearestA_E q : no_jump_round q -> ZnearestA q = ZnearestE q.
Proof. intro H. apply Znearest_imp. now apply no_jump_near. Qed.
Lemma loc_round (q : R) : no_jump_round q ->
  locally q (fun t : R => no_jump_round t /\ ZnearestE t = ZnearestE q).
Proof.
  intro H. assert (K := no_jump_near q H). set (n := ZnearestE q) in *.
  assert (B : IZR n - / 2 < q < IZR n + / 2) by (apply Rabs_def2 in K; lra).
  apply (filter_imp (fun t => IZR n - / 2 < t < IZR n + / 2)); [|now apply loc_between].
  intros t Ht. split.
  - intros k ->. destruct Ht as [H1 H2].
    assert (IZR (n - 1) < IZR k) by (rewrite minus_IZR; lra).
    assert (IZR k < IZR n) by lra. apply lt_IZR in H0, H3. lia.
  - apply Znearest_imp. apply Rabs_def1; lra.
Qed.

Section Quotient.
  (** fmod and remainder subtract a multiple of y that is locally constant *)
  Variables (ok : R -> Prop) (r : R -> Z).
  Hypothesis loc : forall q : R, ok q -> locally q (fun t : R => ok t /\ r t = r q).
  Definition qdom (x y : R) : Prop := y <> 0 /\ ok (x / y).
  Lemma loc2_q x y : qdom x y -> locally_2d (fun u v => qdom u v /\ r (u / v) = r (x / y)) x y.
  Proof.
    intros [Hy H].
    eapply loc2_imp; [|apply (loc2_and (fun _ v => v <> 0) (fun u v => ok (u / v) /\ r (u / v) = r (x / y)))].
    - cbn. intros u v (A & B & C). split; [split|]; assumption.
    - apply loc2_snd. now apply (loc_neq 0).
    - apply (loc2_comp Rdiv x y (/ y) (- x / (y * y)) (fun t => ok t /\ r t = r (x / y))).
      + now apply diff_div.
      + apply loc, H.
  Qed.
  Lemma D2_quot : derivs2d qdom (fun x y => x - IZR (r (x / y)) * y)
    (fun _ _ => 1) (fun x y => - IZR (r (x / y))) (fun _ _ => 0) (fun _ _ => 0) (fun _ _ => 0).
  Proof.
    split.
    { intros x y H. eapply loc2_imp; [|apply (loc2_q x y H)]. cbn. tauto. }
    repeat split; intros x y H.
    - eapply (dl_case _ (fun u v => u - IZR (r (x / y)) * v)); [apply (loc2_q x y H)| |].
      + intros u v [_ ->]. reflexivity.
      + dl; ring.
    - apply dl_const.
    - eapply (dl_case _ (fun _ _ => - IZR (r (x / y)))); [apply (loc2_q x y H)| |apply dl_const].
      intros u v [_ ->]. reflexivity.
  Qed.
End Quotient.
Definition fmod_dom : R -> R -> Prop := qdom no_jump_trunc.
Definition remainder_dom : R -> R -> Prop := qdom no_jump_round.
Lemma D2_fmod : derivs2d fmod_dom R_fmod
  (fun _ _ => 1) (fun x y => - IZR (Ztrunc (x / y))) (fun _ _ => 0) (fun _ _ => 0) (fun _ _ => 0).
Proof. apply (D2_quot no_jump_trunc Ztrunc loc_trunc). Qed.
Lemma D2_remainder : derivs2d remainder_dom R_remainder
  (fun _ _ => 1) (fun x y => - IZR (ZnearestE (x / y))) (fun _ _ => 0) (fun _ _ => 0) (fun _ _ => 0).
Proof. apply (D2_quot no_jump_round ZnearestE loc_round). Qed.
