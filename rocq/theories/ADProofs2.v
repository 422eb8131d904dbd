(** * ADProofs2: second derivatives of whole programs (C60) *)

From Coq Require Import List ZArith Bool Reals Lra Lia.
From Coquelicot Require Import Coquelicot.
From Verif Require Import Base Num Map UReal World HessGrad Moments CheckMoments UReal2 World2 Sums SpecLin SpecObs SpecAD URealFacts URealR URealProofs
  URealProofs2 ADProofs Derivs2d HessProofs U2Facts U2World SpecU2 U2Values U2Ret SpecU2Run U2Proofs U2Proofs2 SpecMath2 SpecProb SpecMom MomGiven MomEst SpecOrder OrderProofs2 SpecAD2.
Import ListNotations.
Local Open Scope R_scope.

(** ** Composition *)
Lemma loc2_through (P : R -> R -> Prop) (F G : R -> R -> R) x y : continuity_2d_pt F x y -> continuity_2d_pt G x y ->
  locally_2d P (F x y) (G x y) -> locally_2d (fun s t => P (F s t) (G s t)) x y.
Proof.
  intros CF CG (dl & H). specialize (CF dl). specialize (CG dl). unfold locally_2d in *.
  destruct CF as (d1 & H1), CG as (d2 & H2).
  assert (Q : 0 < Rmin d1 d2) by (apply Rmin_pos; apply cond_pos). exists (mkposreal _ Q). cbn. intros u v Hu Hv.
  assert (L := Rmin_l d1 d2). assert (L' := Rmin_r d1 d2).
  apply H; [apply H1|apply H2]; lra.
Qed.
Lemma td_cont f a b dx dy dxx dyy dxy : twice_differentiable f a b dx dy dxx dyy dxy -> continuity_2d_pt f a b.
Proof.
  intros (fx & fy & L & _). apply differentiable_continuity_pt. apply locally_2d_singleton in L. exists (fx a b), (fy a b). exact L.
Qed.
Lemma td_comp f F G x y fx fy fxx fyy fxy Fx Fy Fxx Fyy Fxy Gx Gy Gxx Gyy Gxy :
  twice_differentiable f (F x y) (G x y) fx fy fxx fyy fxy ->
  twice_differentiable F x y Fx Fy Fxx Fyy Fxy -> twice_differentiable G x y Gx Gy Gxx Gyy Gxy ->
  twice_differentiable (fun s t => f (F s t) (G s t)) x y (fx * Fx + fy * Gx) (fx * Fy + fy * Gy)
    (fx * Fxx + fy * Gxx + fxx * (Fx * Fx) + fyy * (Gx * Gx) + fxy * (Fx * Gx + Fx * Gx))
    (fx * Fyy + fy * Gyy + fxx * (Fy * Fy) + fyy * (Gy * Gy) + fxy * (Fy * Gy + Fy * Gy))
    (fx * Fxy + fy * Gxy + fxx * (Fx * Fy) + fyy * (Gx * Gy) + fxy * (Fx * Gy + Fy * Gx)).
Proof.
  intros Hf HF HG. assert (CF := td_cont _ _ _ _ _ _ _ _ HF). assert (CG := td_cont _ _ _ _ _ _ _ _ HG).
  destruct Hf as (p & q & Lf & <- & <- & Dp & Dq), HF as (Px & Py & LF & <- & <- & DPx & DPy), HG as (Qx & Qy & LG & <- & <- & DQx & DQy).
  exists (fun s t => p (F s t) (G s t) * Px s t + q (F s t) (G s t) * Qx s t),
         (fun s t => p (F s t) (G s t) * Py s t + q (F s t) (G s t) * Qy s t).
  assert (LF1 := locally_2d_singleton _ _ _ LF). assert (LG1 := locally_2d_singleton _ _ _ LG).
  split; [|split; [reflexivity|split; [reflexivity|]]].
  - apply (loc2_through _ F G x y CF CG) in Lf.
    generalize (locally_2d_and _ _ _ _ Lf (locally_2d_and _ _ _ _ LF LG)). apply locally_2d_impl, locally_2d_forall.
    intros u v (H1 & H2 & H3). exact (differentiable_pt_lim_comp f F G u v _ _ _ _ _ _ H1 H2 H3).
  - assert (Cp := differentiable_pt_lim_comp p F G x y _ _ _ _ _ _ Dp LF1 LG1).
    assert (Cq := differentiable_pt_lim_comp q F G x y _ _ _ _ _ _ Dq LF1 LG1). split.
    + eapply dl_eq; [apply dl_add; apply dl_mul; eassumption|cbv beta; ring|cbv beta; ring].
    + eapply dl_eq; [apply dl_add; apply dl_mul; eassumption|cbv beta; ring|cbv beta; ring].
Qed.
Lemma td_ext f g a b dx dy dxx dyy dxy : (forall u v, f u v = g u v) -> twice_differentiable f a b dx dy dxx dyy dxy ->
  twice_differentiable g a b dx dy dxx dyy dxy.
Proof.
  intros E (p & q & L & H). exists p, q. split; [|exact H]. revert L. apply locally_2d_impl, locally_2d_forall. intros u v.
  apply differentiable_pt_lim_ext. apply locally_2d_forall. exact E.
Qed.
Lemma td_eq f a b dx dy dxx dyy dxy dx' dy' dxx' dyy' dxy' : twice_differentiable f a b dx dy dxx dyy dxy ->
  dx = dx' -> dy = dy' -> dxx = dxx' -> dyy = dyy' -> dxy = dxy' -> twice_differentiable f a b dx' dy' dxx' dyy' dxy'.
Proof. intros H -> -> -> -> ->. exact H. Qed.

Lemma td_const c a b : twice_differentiable (fun _ _ => c) a b 0 0 0 0 0.
Proof.
  exists (fun _ _ => 0), (fun _ _ => 0). split; [apply locally_2d_forall; intros; apply dl_const|].
  split; [reflexivity|]. split; [reflexivity|]. split; apply dl_const.
Qed.
Lemma td_line c d e a b : twice_differentiable (fun s t => c + s * d + t * e) a b d e 0 0 0.
Proof.
  exists (fun _ _ => d), (fun _ _ => e). split.
  - apply locally_2d_forall. intros u v. eapply dl_eq; [apply dl_add; [apply dl_add; [apply dl_const|apply dl_mul; [apply dl_fst|apply dl_const]]|
      apply dl_mul; [apply dl_snd|apply dl_const]]|cbv beta; ring|cbv beta; ring].
  - split; [reflexivity|]. split; [reflexivity|]. split; apply dl_const.
Qed.
Lemma td_unary (f : R -> R) a b d1 d2 : twice_derivable f a d1 d2 -> twice_differentiable (fun u _ => f u) a b d1 0 d2 0 0.
Proof.
  intros (f1 & L & <- & D). exists (fun u _ => f1 u), (fun _ _ => 0). split.
  - destruct L as (dl & H). exists dl. intros u v Hu _. eapply dl_eq.
    + apply (dl_comp f (fun u _ => u) u v (f1 u) 1 0); [apply H; exact Hu|apply dl_fst].
    + ring.
    + ring.
  - split; [reflexivity|]. split; [reflexivity|]. split; [|apply dl_const]. eapply dl_eq.
    + apply (dl_comp f1 (fun u _ => u) a b d2 1 0); [exact D|apply dl_fst].
    + ring.
    + ring.
Qed.
Lemma td_id a : twice_derivable (fun u => u) a 1 0.
Proof. exists (fun _ => 1). split; [apply filter_forall; intro; auto_derive; auto|]. split; [reflexivity|]. apply @is_derive_const. Qed.
Lemma td_opp a : twice_derivable Ropp a (-1) 0.
Proof. exists (fun _ => -1). split; [apply filter_forall; intro; auto_derive; auto; ring|]. split; [reflexivity|]. apply @is_derive_const. Qed.
Lemma td_add a b : twice_differentiable Rplus a b 1 1 0 0 0.
Proof.
  exists (fun _ _ => 1), (fun _ _ => 1). split; [apply locally_2d_forall; intros; apply diff_add|].
  split; [reflexivity|]. split; [reflexivity|]. split; apply dl_const.
Qed.
Lemma td_sub a b : twice_differentiable Rminus a b 1 (-1) 0 0 0.
Proof.
  exists (fun _ _ => 1), (fun _ _ => -1). split; [apply locally_2d_forall; intros; apply diff_sub|].
  split; [reflexivity|]. split; [reflexivity|]. split; apply dl_const.
Qed.
Lemma td_mul a b : twice_differentiable Rmult a b b a 0 0 1.
Proof.
  exists (fun _ v => v), (fun u _ => u). split; [apply locally_2d_forall; intros; apply diff_mul|].
  split; [reflexivity|]. split; [reflexivity|]. split; [apply dl_snd|apply dl_fst].
Qed.
Lemma loc2_nz a b : b <> 0 -> locally_2d (fun _ v => v <> 0) a b.
Proof.
  intro H. assert (P : 0 < Rabs b) by now apply Rabs_pos_lt. exists (mkposreal _ P). cbn. intros u v _ Hv E. subst v.
  rewrite Rminus_0_l, Rabs_Ropp in Hv. lra.
Qed.
Lemma td_div a b : b <> 0 -> twice_differentiable Rdiv a b (/ b) (- a / b ^ 2) 0 (2 * a / b ^ 3) (- / b ^ 2).
Proof.
  intro H. exists (fun _ v => / v), (fun u v => - u * (/ v * / v)). split.
  - generalize (loc2_nz a b H). apply locally_2d_impl, locally_2d_forall. intros u v Hv.
    eapply dl_eq; [apply (diff_div u v Hv)|reflexivity|field; exact Hv].
  - split; [reflexivity|]. split; [field; exact H|].
    assert (Di := dl_inv (fun _ v => v) a b 0 1 H (dl_snd a b)). cbv beta in Di. split.
    + eapply dl_eq; [exact Di|field; exact H|field; exact H].
    + eapply dl_eq; [apply dl_mul; [apply dl_opp, dl_fst|apply dl_mul; exact Di]|cbv beta; field; exact H|cbv beta; field; exact H].
Qed.

(** ** Sums over the ids *)
Lemma along1_lin last (D E : Z -> R) a b d : along1 last (fun i => a * D i + b * E i) d = a * along1 last D d + b * along1 last E d.
Proof.
  unfold along1, sum_ids. rewrite <- !rsum_scal, <- rsum_plus. apply rsum_ext. intros; ring.
Qed.
Lemma along1_ext last (D E : Z -> R) d : (forall i, D i = E i) -> along1 last D d = along1 last E d.
Proof. intro H. unfold along1, sum_ids. apply rsum_ext. intros. now rewrite H. Qed.
Lemma along2_ext last D E d e : (forall i j : Z, D i j = E i j) -> along2 last D d e = along2 last E d e.
Proof. intro H. unfold along2, sum_ids. apply rsum_ext. intros. apply rsum_ext. intros. now rewrite H. Qed.
Lemma along2_lin last (D E : Z -> Z -> R) a b d e : along2 last (fun i j => a * D i j + b * E i j) d e = a * along2 last D d e + b * along2 last E d e.
Proof.
  unfold along2, sum_ids. rewrite <- !rsum_scal, <- rsum_plus. apply rsum_ext. intros i _. cbv beta.
  rewrite <- !rsum_scal, <- rsum_plus. apply rsum_ext. intros; ring.
Qed.
Lemma along2_prod last (D E : Z -> R) d e : along2 last (fun i j => D i * E j) d e = along1 last D d * along1 last E e.
Proof.
  unfold along2, along1, sum_ids. rewrite rsum_mult. apply rsum_ext. intros i _. apply rsum_ext. intros; ring.
Qed.
Lemma along1_0 last d : along1 last (fun _ => 0) d = 0.
Proof. apply rsum_zero. intros; ring. Qed.
Lemma along2_0 last d e : along2 last (fun _ _ => 0) d e = 0.
Proof. apply rsum_zero. intros. apply rsum_zero. intros; ring. Qed.
Lemma along1_delta last i d : (1 <= i <= last)%Z -> along1 last (fun k => if Z.eq_dec k i then 1 else 0) d = d i.
Proof.
  intro H. unfold along1, sum_ids. rewrite (rsum_single Z.eq_dec (ids last) _ i).
  - destruct (Z.eq_dec i i); [ring|congruence].
  - apply ids_NoDup.
  - now apply ids_In.
  - intros j _ Hj. destruct (Z.eq_dec j i); [congruence|ring].
Qed.

(** ** The relation between the states *)
Record good (last : Z) (m sd : env) (F : env -> R) (J : jet) (D1 : Z -> R) (D2 : Z -> Z -> R) : Prop := {
  g_mean : j_mean J = F m;
  g_local : forall e e', (forall i, (1 <= i <= last)%Z -> e i = e' i) -> F e = F e';
  g_out1 : forall i, ~ (1 <= i <= last)%Z -> D1 i = 0;
  g_out2 : forall i j, ~ (1 <= i <= last)%Z -> D2 i j = 0;
  g_sym : forall i j, D2 i j = D2 j i;
  g_g : forall i, j_g J i = D1 i * sd i;
  g_h : forall i j, j_h J i j = D2 i j * sd i * sd j / 2;
  g_td : forall K d e, (last <= K)%Z -> twice_differentiable (fun s t => F (moved m d e s t)) 0 0
    (along1 K D1 d) (along1 K D1 e) (along2 K D2 d d) (along2 K D2 e e) (along2 K D2 d e)
}.

Lemma moved_00 last m sd F J D1 D2 d e : good last m sd F J D1 D2 -> F (moved m d e 0 0) = F m.
Proof. intro G. apply (g_local _ _ _ _ _ _ _ G). intros i _. unfold moved. ring. Qed.

Lemma good_binary last m sd F G J K D1 D2 E1 E2 (f : R -> R -> R) fx fy fxx fyy fxy z :
  good last m sd F J D1 D2 -> good last m sd G K E1 E2 ->
  twice_differentiable f (F m) (G m) fx fy fxx fyy fxy -> jet_eq z (jet_binary J K (f (F m) (G m)) fx fy fxx fyy fxy) ->
  good last m sd (fun e => f (F e) (G e)) z (fun i => fx * D1 i + fy * E1 i)
    (fun i j => fx * D2 i j + fy * E2 i j + fxx * (D1 i * D1 j) + fyy * (E1 i * E1 j) + fxy * (D1 i * E1 j + D1 j * E1 i)).
Proof.
  intros HF HG Hf (M & _ & Hg & Hh). split.
  - exact M.
  - intros e e' H. f_equal; [now apply (g_local _ _ _ _ _ _ _ HF)|now apply (g_local _ _ _ _ _ _ _ HG)].
  - intros i Hi. rewrite (g_out1 _ _ _ _ _ _ _ HF), (g_out1 _ _ _ _ _ _ _ HG) by exact Hi. ring.
  - intros i j Hi. rewrite (g_out1 _ _ _ _ _ _ _ HF i), (g_out1 _ _ _ _ _ _ _ HG i), (g_out2 _ _ _ _ _ _ _ HF i j), (g_out2 _ _ _ _ _ _ _ HG i j) by exact Hi. ring.
  - intros i j. rewrite (g_sym _ _ _ _ _ _ _ HF i j), (g_sym _ _ _ _ _ _ _ HG i j). ring.
  - intro i. rewrite Hg. cbn [jet_binary j_g]. rewrite (g_g _ _ _ _ _ _ _ HF), (g_g _ _ _ _ _ _ _ HG). ring.
  - intros i j. rewrite Hh. cbn [jet_binary j_h]. rewrite !(g_g _ _ _ _ _ _ _ HF), !(g_g _ _ _ _ _ _ _ HG), (g_h _ _ _ _ _ _ _ HF), (g_h _ _ _ _ _ _ _ HG). field.
  - intros N d e HN. assert (TF := g_td _ _ _ _ _ _ _ HF N d e HN). assert (TG := g_td _ _ _ _ _ _ _ HG N d e HN).
    assert (Hf' : twice_differentiable f (F (moved m d e 0 0)) (G (moved m d e 0 0)) fx fy fxx fyy fxy).
    { rewrite (moved_00 _ _ _ _ _ _ _ d e HF), (moved_00 _ _ _ _ _ _ _ d e HG). exact Hf. }
    assert (A2 : forall d e, along2 N (fun i j => fx * D2 i j + fy * E2 i j + fxx * (D1 i * D1 j) + fyy * (E1 i * E1 j) + fxy * (D1 i * E1 j + D1 j * E1 i)) d e =
      fx * along2 N D2 d e + fy * along2 N E2 d e + fxx * (along1 N D1 d * along1 N D1 e) + fyy * (along1 N E1 d * along1 N E1 e) +
      (fxy * (along1 N D1 d * along1 N E1 e) + fxy * (along1 N E1 d * along1 N D1 e))).
    { intros d' e'. rewrite <- !along2_prod. unfold along2, sum_ids.
      rewrite <- !rsum_scal, <- !rsum_plus. apply rsum_ext. intros i _. cbv beta.
      rewrite <- !rsum_scal, <- !rsum_plus. apply rsum_ext. intros; ring. }
    eapply td_eq; [exact (td_comp f _ _ 0 0 _ _ _ _ _ _ _ _ _ _ _ _ _ _ _ Hf' TF TG)|..].
    + rewrite along1_lin; ring.
    + rewrite along1_lin; ring.
    + rewrite A2; ring.
    + rewrite A2; ring.
    + rewrite A2; ring.
Qed.
Lemma good_ext last m sd F F' J J' D1 D2 : (forall e, F e = F' e) -> good last m sd F J D1 D2 -> jet_eq J' J -> good last m sd F' J' D1 D2.
Proof.
  intros E G (M & _ & Hg & Hh). split; try apply G.
  - now rewrite M, <- E, (g_mean _ _ _ _ _ _ _ G).
  - intros e e' H. rewrite <- !E. now apply (g_local _ _ _ _ _ _ _ G).
  - intro i. now rewrite Hg, (g_g _ _ _ _ _ _ _ G).
  - intros i j. now rewrite Hh, (g_h _ _ _ _ _ _ _ G).
  - intros K d e HK. apply (td_ext (fun s t => F (moved m d e s t))); [intros; apply E|]. now apply G.
Qed.
Lemma good_unary last m sd F J D1 D2 (f : R -> R) d1 d2 z : good last m sd F J D1 D2 -> twice_derivable f (F m) d1 d2 ->
  jet_eq z (jet_unary J (f (F m)) d1 d2) -> exists E1 E2, good last m sd (fun e => f (F e)) z E1 E2.
Proof.
  intros G H Hz. eexists. eexists. apply (good_binary last m sd F F J J D1 D2 D1 D2 (fun u _ => f u) d1 0 d2 0 0 z G G); [now apply td_unary|].
  destruct Hz as (M & Hd & Hg & Hh). split; [exact M|]. split; [intro i; rewrite Hd; cbn; tauto|].
  split; intros; rewrite ?Hg, ?Hh; cbn [jet_unary jet_binary j_g j_h]; field.
Qed.
Lemma good_grow last last' m m' sd sd' F J D1 D2 : good last m sd F J D1 D2 -> (last <= last')%Z ->
  (forall i, (1 <= i <= last)%Z -> m i = m' i /\ sd i = sd' i) -> good last' m' sd' F J D1 D2.
Proof.
  intros G HL HA. assert (LOC := g_local _ _ _ _ _ _ _ G). split.
  - rewrite (g_mean _ _ _ _ _ _ _ G). apply LOC. intros. now apply HA.
  - intros e e' H. apply LOC. intros; apply H; lia.
  - intros i Hi. apply G. lia.
  - intros i j Hi. apply G. lia.
  - apply G.
  - intro i. rewrite (g_g _ _ _ _ _ _ _ G). destruct (Z_le_dec 1 i); [destruct (Z_le_dec i last)|].
    + now rewrite (proj2 (HA i ltac:(lia))).
    + rewrite (g_out1 _ _ _ _ _ _ _ G) by lia. ring.
    + rewrite (g_out1 _ _ _ _ _ _ _ G) by lia. ring.
  - intros i j. rewrite (g_h _ _ _ _ _ _ _ G).
    assert (DI : (1 <= i <= last)%Z \/ ~ (1 <= i <= last)%Z) by lia. assert (DJ : (1 <= j <= last)%Z \/ ~ (1 <= j <= last)%Z) by lia.
    destruct DI as [DI|DI]; [|rewrite (g_out2 _ _ _ _ _ _ _ G i j) by exact DI; lra].
    destruct DJ as [DJ|DJ]; [|rewrite (g_sym _ _ _ _ _ _ _ G i j), (g_out2 _ _ _ _ _ _ _ G j i) by exact DJ; lra].
    now rewrite (proj2 (HA i DI)), (proj2 (HA j DJ)).
  - intros K d e HK. apply (td_ext (fun s t => F (moved m d e s t))).
    + intros s t. apply LOC. intros i Hi. unfold moved. now rewrite (proj1 (HA i Hi)).
    + apply G. lia.
Qed.

Definition adrel2 (w : world2 RN) (a : adworld) : Prop :=
  w2_last w = ad_last a /\ forall v, exists D1 D2, good (ad_last a) (ad_mean a) (ad_sd a) (ad_fun a v) (jet_of (w2_var w v)) D1 D2.

Lemma good_const last m sd n z : jet_eq z (jet_const n) -> good last m sd (fun _ => n) z (fun _ => 0) (fun _ _ => 0).
Proof.
  intros (M & _ & Hg & Hh). split; try (intros; reflexivity).
  - exact M.
  - intro i. rewrite Hg. cbn. ring.
  - intros i j. rewrite Hh. cbn. lra.
  - intros K d e _. rewrite !along1_0, !along2_0. apply td_const.
Qed.
Lemma good_fresh last m sd i n s z : (1 <= i <= last)%Z -> m i = n -> sd i = s -> jet_eq z (jet_fresh i n s) ->
  good last m sd (fun e => e i) z (fun k => if Z.eq_dec k i then 1 else 0) (fun _ _ => 0).
Proof.
  intros Hi Em Es (M & _ & Hg & Hh). split; try (intros; reflexivity).
  - now rewrite M.
  - intros e e' H. now apply H.
  - intros k Hk. destruct (Z.eq_dec k i); [lia|reflexivity].
  - intro k. rewrite Hg. cbn. destruct (Z.eq_dec k i) as [->|N].
    + rewrite Z.eqb_refl, Es. ring.
    + apply Z.eqb_neq in N. rewrite N. ring.
  - intros k j. rewrite Hh. cbn. lra.
  - intros K d e HK. rewrite !along1_delta by lia. rewrite !along2_0. apply td_line.
Qed.

Section Eig.
  Variable eig : list (list RN) -> option (list RN).
  Lemma adrel2_step env w a c : wwf2 env w -> adrel2 w a -> nary_ok2 c -> thr_number c ->
    (w2_last w + (if is_new2 c then 1 else 0) < maxid)%Z -> snd (exec2 eig w c) = Ret tt ->
    jet_covered (fun v => jet_of (w2_var w v)) c -> deriv2_ok (fun x => ad_fun a x (ad_mean a)) c ->
    adrel2 (fst (exec2 eig w c)) (ad2_exec a c).
  Proof.
    intros W [HL HR] HN HT HB HO HC HD. assert (P := proj1 (proj1 W)). fold (w2_last w) in P.
    assert (DEC : (exists c1, c = E1 c1) \/ only2 c) by (destruct c; [left; eauto|..]; right; exact I).
    destruct DEC as [(c1 & ->)|O2].
    { cbn [ad2_exec]. cbn [is_new2] in HB. destruct (gen_exec Rltb_00 (w2_w w) c1 (proj1 W) HN HB) as (_ & L1 & _).
      change (w_last (w2_w w)) with (w2_last w) in L1. split.
      - cbn [ad_last exec2]. destruct (exec (w2_w w) c1) as [w1 o]. cbn [fst] in *. unfold w2_last at 1. cbn [w2_w]. rewrite L1, HL. reflexivity.
      - intro v. rewrite exec2_frame1. destruct (HR v) as (D1 & D2 & G). exists D1, D2. cbn [ad_last ad_mean ad_sd ad_fun].
        eapply good_grow; [exact G|destruct (is_new c1); lia|auto]. }
    destruct (exec2_jet eig env w c W HT HB O2 HO) as (v & J & EJ & _ & J1 & Fr & L1 & _). specialize (J1 HC). cbv zeta in *.
    assert (MM : forall x, u2mu (w2_var w x) = ad_fun a x (ad_mean a)).
    { intro x. destruct (HR x) as (D1 & D2 & G). exact (g_mean _ _ _ _ _ _ _ G). }
    assert (SET : forall f, is_new2 c = false -> ad2_exec a c = ad_set a v f ->
      (exists D1 D2, good (ad_last a) (ad_mean a) (ad_sd a) f (jet_of (w2_var (fst (exec2 eig w c)) v)) D1 D2) -> adrel2 (fst (exec2 eig w c)) (ad2_exec a c)).
    { intros f Hn -> G. split; [rewrite L1, Hn, HL; cbn; lia|]. intro u. cbn [ad_set ad_last ad_mean ad_sd ad_fun].
      destruct (Nat.eqb_spec u v) as [->|Hu]; [exact G|]. rewrite Fr by exact Hu. apply HR. }
    assert (NEW : forall n s, ad2_exec a c = ad_set (mkAD (ad_last a + 1) (env_set (ad_mean a) (ad_last a + 1) n) (env_set (ad_sd a) (ad_last a + 1) s) (ad_fun a)) v (fun e => e (ad_last a + 1)%Z) ->
      is_new2 c = true -> J = jet_fresh (w2_last w + 1) n s -> adrel2 (fst (exec2 eig w c)) (ad2_exec a c)).
    { intros n s -> Hn ->. rewrite Hn in L1. split; [rewrite L1, HL; reflexivity|]. intro u. cbn [ad_set ad_last ad_mean ad_sd ad_fun].
      destruct (Nat.eqb_spec u v) as [->|Hu].
      - eexists. eexists. apply (good_fresh _ _ _ _ n s); [lia| | |rewrite <- HL; exact J1]; unfold env_set; destruct (Z.eq_dec _ _); congruence.
      - rewrite Fr by exact Hu. destruct (HR u) as (D1 & D2 & G). exists D1, D2. eapply good_grow; [exact G|lia|].
        intros i Hi. unfold env_set. destruct (Z.eq_dec i (ad_last a + 1)); [lia|auto]. }
    assert (UN : forall x (f : R -> R) d1 d2, is_new2 c = false -> ad2_exec a c = ad_set a v (fun e => f (ad_fun a x e)) ->
      twice_derivable f (ad_fun a x (ad_mean a)) d1 d2 -> jet_eq J (jet_unary (jet_of (w2_var w x)) (f (ad_fun a x (ad_mean a))) d1 d2) -> adrel2 (fst (exec2 eig w c)) (ad2_exec a c)).
    { intros x f d1 d2 Hn Ea T EqJ. apply (SET _ Hn Ea). destruct (HR x) as (D1 & D2 & G). apply (good_unary _ _ _ _ _ D1 D2 f d1 d2 _ G T).
      eapply jet_eq_trans; eassumption. }
    assert (BI : forall x y (f : R -> R -> R) fx fy fxx fyy fxy, is_new2 c = false -> ad2_exec a c = ad_set a v (fun e => f (ad_fun a x e) (ad_fun a y e)) ->
      twice_differentiable f (ad_fun a x (ad_mean a)) (ad_fun a y (ad_mean a)) fx fy fxx fyy fxy ->
      jet_eq J (jet_binary (jet_of (w2_var w x)) (jet_of (w2_var w y)) (f (ad_fun a x (ad_mean a)) (ad_fun a y (ad_mean a))) fx fy fxx fyy fxy) ->
      adrel2 (fst (exec2 eig w c)) (ad2_exec a c)).
    { intros x y f fx fy fxx fyy fxy Hn Ea T EqJ. apply (SET _ Hn Ea). destruct (HR x) as (D1 & D2 & G), (HR y) as (E1' & E2' & G').
      eexists. eexists. apply (good_binary _ _ _ _ _ _ _ D1 D2 E1' E2' f fx fy fxx fyy fxy _ G G' T). eapply jet_eq_trans; eassumption. }
    destruct c; try destruct O2; cbn [jet_call] in EJ; injection EJ as <- EJ; cbn [deriv2_ok] in HD; cbn [jet_of j_mean] in EJ; rewrite ?MM in EJ.
    - eapply NEW; [reflexivity|reflexivity|symmetry; exact EJ].
    - eapply NEW; [reflexivity|reflexivity|symmetry; exact EJ].
    - eapply SET; [reflexivity|reflexivity|]. eexists. eexists. apply good_const. rewrite EJ. exact J1.
    - eapply SET; [reflexivity|reflexivity|]. eexists. eexists. apply good_const. rewrite EJ. exact J1.
    - eapply (UN x (fun u => u)); [reflexivity|reflexivity|apply td_id|]. rewrite <- EJ. split; [cbn; now rewrite MM|].
      split; [reflexivity|]. split; intros; cbn; field.
    - eapply UN; [reflexivity|reflexivity|exact HD|]. rewrite <- EJ. apply jet_eq_refl.
    - eapply BI; [reflexivity|reflexivity|exact HD|]. rewrite <- EJ. apply jet_eq_refl.
    - eapply (UN x Ropp); [reflexivity|reflexivity|apply td_opp|]. rewrite <- EJ. split; [cbn; now rewrite MM|].
      split; [reflexivity|]. split; intros; cbn; field.
    - eapply (BI x y Rplus); [reflexivity|reflexivity|apply td_add|]. rewrite <- EJ. split; [cbn; now rewrite !MM|].
      split; [reflexivity|]. split; intros; cbn; field.
    - eapply (BI x y Rminus); [reflexivity|reflexivity|apply td_sub|]. rewrite <- EJ. split; [cbn; now rewrite !MM|].
      split; [reflexivity|]. split; intros; cbn; field.
    - eapply (BI x y Rmult); [reflexivity|reflexivity|apply td_mul|]. rewrite <- EJ. split; [cbn; now rewrite !MM|].
      split; [reflexivity|]. split; intros; cbn; rewrite !MM; field.
    - eapply (BI x y Rdiv); [reflexivity|reflexivity|apply (td_div _ _ HD)|]. rewrite <- EJ. apply jet_eq_refl.
  Qed.

  Lemma adrel2_run cs : forall env w a, wwf2 env w -> adrel2 w a -> List.Forall nary_ok2 cs -> List.Forall thr_number cs ->
    (w2_last w + Z.of_nat (count_new2 cs) < maxid)%Z -> accepted eig w cs -> covered_run eig w cs -> derivs2_ok a cs ->
    exists w', run2 eig w cs = Ret w' /\ adrel2 w' (ad2_run a cs).
  Proof.
    induction cs as [|c cs IH]; intros env w a W HR F T B A CR HD.
    - exists w. split; [reflexivity|exact HR].
    - inversion F as [|? ? Fc Fcs]; subst. inversion T as [|? ? Tc Tcs]; subst. rewrite count_new2_cons in B.
      destruct A as [A1 A], CR as [C1 CR], HD as [D1 HD].
      assert (B1 : (w2_last w + (if is_new2 c then 1 else 0) < maxid)%Z) by (destruct (is_new2 c); lia).
      assert (HR1 := adrel2_step env w a c W HR Fc Tc B1 A1 C1 D1).
      destruct (gen_exec2 Rltb_00 eig env w c W Fc Tc B1) as (env1 & W1 & _ & L1 & _).
      destruct (IH env1 _ _ W1 HR1 Fcs Tcs ltac:(lia) A CR HD) as (w' & E & HR').
      exists w'. split; [|exact HR']. cbn [run2]. destruct (exec2 eig w c) as [w1 o]. cbn [fst snd] in *. subst o. exact E.
  Qed.
End Eig.

Lemma taylor_run eig (cs : list (call2 RN)) : legal2 cs -> accepted eig w2_init cs ->
  covered_run eig w2_init cs -> derivs2_ok ad_init cs ->
  exists w, run2 eig w2_init cs = Ret w /\ adrel2 w (ad2_run ad_init cs).
Proof.
  intros (F & T & C) A CR HD. apply max_new_lt in C.
  assert (R0 : adrel2 w2_init ad_init).
  { split; [reflexivity|]. intro v. exists (fun _ => 0), (fun _ _ => 0). apply (good_const _ _ _ 0). split; [reflexivity|].
    split; [intro i; cbn; tauto|]. split; [reflexivity|]. intros i j. cbn. destruct (i =? j)%Z; reflexivity. }
  exact (adrel2_run eig cs (fun _ => mkM n0 n0 n0 n0 n0 n0) w2_init ad_init (wwf2_init _) R0 F T ltac:(change (w2_last w2_init) with 0%Z; lia) A CR HD).
Qed.
Lemma good_derivs last m sd F J D1 D2 : good last m sd F J D1 D2 -> has_derivatives2 last F m D1 D2.
Proof. intro G. split; [exact (g_sym _ _ _ _ _ _ _ G)|]. intros d e. apply (g_td _ _ _ _ _ _ _ G). apply Z.le_refl. Qed.

Lemma C60_second_order_taylor_partial_proof : forall eig (cs : list (call2 RN)), legal2 cs -> accepted eig w2_init cs ->
  covered_run eig w2_init cs -> derivs2_ok ad_init cs ->
  let p := ad2_run ad_init cs in
  exists w, run2 eig w2_init cs = Ret w /\ w2_last w = ad_last p /\
    forall v, u2_first_order_n (w2_var w v) = ad_fun p v (ad_mean p) /\
      exists (D1 : Z -> R) (D2 : Z -> Z -> R), has_derivatives2 (ad_last p) (ad_fun p v) (ad_mean p) D1 D2 /\
        (forall i, j_g (jet_of (w2_var w v)) i = D1 i * ad_sd p i) /\
        (forall i j, j_h (jet_of (w2_var w v)) i j = D2 i j * ad_sd p i * ad_sd p j / 2).
Proof.
  intros eig cs HL A CR HD p. destruct (taylor_run eig cs HL A CR HD) as (w & E & HLast & HR).
  exists w. split; [exact E|]. split; [exact HLast|]. intro v. destruct (HR v) as (D1 & D2 & G). split; [exact (g_mean _ _ _ _ _ _ _ G)|].
  exists D1, D2. split; [exact (good_derivs _ _ _ _ _ _ _ G)|]. split; [exact (g_g _ _ _ _ _ _ _ G)|exact (g_h _ _ _ _ _ _ _ G)].
Qed.

Lemma value_taylor last m sd F (J : jet) D1 D2 (P : prob) l (X : Z -> Om P -> R) : good last m sd F J D1 D2 -> NoDup l -> involves_only J l ->
  forall o, value J l X o = taylor2 last (F m) D1 D2 (fun i => sd i * X i o).
Proof.
  intros G ND HI o. unfold value, taylor2, quad, along1, along2, sum_ids. rewrite (g_mean _ _ _ _ _ _ _ G).
  assert (SYM : forall i j, j_h J i j = j_h J j i) by (intros i j; rewrite !(g_h _ _ _ _ _ _ _ G), (g_sym _ _ _ _ _ _ _ G i j); field).
  assert (O1 : forall i, ~ In i (ids last) -> j_g J i = 0).
  { intros i Hi. rewrite (g_g _ _ _ _ _ _ _ G), (g_out1 _ _ _ _ _ _ _ G); [ring|]. intro H. apply Hi. now apply ids_In. }
  assert (O2 : forall i j, ~ In i (ids last) -> j_h J i j = 0).
  { intros i j Hi. rewrite (g_h _ _ _ _ _ _ _ G), (g_out2 _ _ _ _ _ _ _ G); [lra|]. intro H. apply Hi. now apply ids_In. }
  rewrite Rplus_assoc. f_equal. f_equal.
  - rewrite (rsum_support Z.eq_dec l (ids last)); [|exact ND|apply ids_NoDup| |].
    + apply rsum_ext. intros i _. rewrite (g_g _ _ _ _ _ _ _ G). ring.
    + intros i _ Hi. rewrite O1 by exact Hi. ring.
    + intros i _ Hi. rewrite (proj1 (HI i Hi)). ring.
  - unfold Rdiv. rewrite <- rsum_scal_r. rewrite (rsum_support Z.eq_dec l (ids last)); [|exact ND|apply ids_NoDup| |].
    + apply rsum_ext. intros i _. rewrite <- rsum_scal_r. rewrite (rsum_support Z.eq_dec l (ids last)); [|exact ND|apply ids_NoDup| |].
      * apply rsum_ext. intros j _. rewrite (g_h _ _ _ _ _ _ _ G). field.
      * intros j _ Hj. rewrite SYM, O2 by exact Hj. ring.
      * intros j _ Hj. rewrite SYM, (proj2 (HI j Hj)). ring.
    + intros i _ Hi. apply rsum_zero. intros. rewrite O2 by exact Hi. ring.
    + intros i _ Hi. apply rsum_zero. intros. rewrite (proj2 (HI i Hi)). ring.
Qed.

Lemma C60_moments_of_the_taylor_polynomial_partial_proof : forall eig (cs : list (call2 RN)), legal2 cs -> accepted eig w2_init cs ->
  covered_run eig w2_init cs -> derivs2_ok ad_init cs ->
  let p := ad2_run ad_init cs in
  exists w, run2 eig w2_init cs = Ret w /\
    forall v, let x := w2_var w v in
      exists (D1 : Z -> R) (D2 : Z -> Z -> R), has_derivatives2 (ad_last p) (ad_fun p v) (ad_mean p) D1 D2 /\
        forall (P : prob) (l : list Z) (X : Z -> Om P -> R) (M : Z -> moms RN), NoDup l ->
          independent P l X (fun i => stdmom (M i)) ->
          (forall i, In i l -> exists s, s <> 0 /\ given eig w2_init cs i = Some (s, M i)) ->
          involves_only (jet_of x) l ->
          let Y := fun o => taylor2 (ad_last p) (ad_fun p v (ad_mean p)) D1 D2 (fun i => ad_sd p i * X i o) in
          u2_n PropMean x = Ret (Ex P Y) /\
          forall n, (2 <= n <= 4)%nat -> u2_m x (Z.of_nat n) = Ret (Ex P (fun o => (Y o - Ex P Y) ^ n)).
Proof.
  intros eig cs HL A CR HD p. destruct (taylor_run eig cs HL A CR HD) as (w & E & HLast & HR).
  exists w. split; [exact E|]. intros v x. destruct (HR v) as (D1 & D2 & G). exists D1, D2. split; [exact (good_derivs _ _ _ _ _ _ _ G)|].
  intros P l X M ND IND GV HI Y.
  destruct (C32_mean_and_estimate_proof eig cs w HL E P l X M ND IND GV v HI) as (m1 & _ & _ & N1 & _).
  destruct (C28_moments_of_the_polynomial_proof eig cs w HL E P l X M ND IND GV v HI) as (I0 & _ & N2).
  assert (V : forall o, value (jet_of x) l X o = Y o) by exact (value_taylor _ _ _ _ _ _ _ P l X G ND HI).
  assert (EV : Ex P (value (jet_of x) l X) = Ex P Y) by (apply Ex_ext; [exact V|exact I0]).
  fold x in N1, N2. rewrite EV in N1. split; [exact N1|]. intros n Hn. destruct (N2 n Hn) as (I1 & ->). f_equal. apply Ex_ext; [|exact I1].
  intro o. now rewrite EV, V.
Qed.

Lemma C60_covariance_of_the_taylor_polynomials_partial_proof : forall eig (cs : list (call2 RN)), legal2 cs -> accepted eig w2_init cs ->
  covered_run eig w2_init cs -> derivs2_ok ad_init cs ->
  let p := ad2_run ad_init cs in
  exists w, run2 eig w2_init cs = Ret w /\
    forall u v, let x := w2_var w u in let y := w2_var w v in
      exists (D1 E1 : Z -> R) (D2 E2 : Z -> Z -> R),
        has_derivatives2 (ad_last p) (ad_fun p u) (ad_mean p) D1 D2 /\ has_derivatives2 (ad_last p) (ad_fun p v) (ad_mean p) E1 E2 /\
        forall (P : prob) (l : list Z) (X : Z -> Om P -> R) (M : Z -> moms RN), NoDup l ->
          independent P l X (fun i => stdmom (M i)) ->
          (forall i, In i l -> exists s, s <> 0 /\ given eig w2_init cs i = Some (s, M i)) ->
          involves_only (jet_of x) l -> involves_only (jet_of y) l ->
          let Y := fun o => taylor2 (ad_last p) (ad_fun p u (ad_mean p)) D1 D2 (fun i => ad_sd p i * X i o) in
          let Z := fun o => taylor2 (ad_last p) (ad_fun p v (ad_mean p)) E1 E2 (fun i => ad_sd p i * X i o) in
          u2_cov x y = Ret (Ex P (fun o => (Y o - Ex P Y) * (Z o - Ex P Z))).
Proof.
  intros eig cs HL A CR HD p. destruct (taylor_run eig cs HL A CR HD) as (w & E & HLast & HR).
  exists w. split; [exact E|]. intros u v x y. destruct (HR u) as (D1 & D2 & G), (HR v) as (E1' & E2' & G').
  exists D1, E1', D2, E2'. split; [exact (good_derivs _ _ _ _ _ _ _ G)|]. split; [exact (good_derivs _ _ _ _ _ _ _ G')|].
  intros P l X M ND IND GV HI HI' Y Z.
  destruct (C28_moments_of_the_polynomial_proof eig cs w HL E P l X M ND IND GV u HI) as (I0 & _).
  destruct (C28_moments_of_the_polynomial_proof eig cs w HL E P l X M ND IND GV v HI') as (I0' & _).
  assert (V : forall o, value (jet_of x) l X o = Y o) by exact (value_taylor _ _ _ _ _ _ _ P l X G ND HI).
  assert (V' : forall o, value (jet_of y) l X o = Z o) by exact (value_taylor _ _ _ _ _ _ _ P l X G' ND HI').
  assert (EV : Ex P (value (jet_of x) l X) = Ex P Y) by (apply Ex_ext; [exact V|exact I0]).
  assert (EV' : Ex P (value (jet_of y) l X) = Ex P Z) by (apply Ex_ext; [exact V'|exact I0']).
  destruct (C29_covariance_of_the_polynomials_proof eig cs w HL E P l X M ND IND GV u v HI HI') as (I1 & C).
  fold x y in C, I1. rewrite C. f_equal. apply Ex_ext; [|exact I1]. intro o. cbv beta. now rewrite EV, EV', V, V'.
Qed.
