(** * TrueProb: variables that differ little have close means, deviations and covariances (C90) *)

From Coq Require Import List ZArith Reals Lra Lia.
From Coquelicot Require Import Coquelicot.
From Verif Require Import Base Num SpecProb SpecAD SpecTrue.
Local Open Scope R_scope.

Section Prob.
  Variable P : prob.
  Hypothesis WP : with_products P.
  Notation E := (Ex P).
  Notation fv := (finite_variance P).

  Lemma E_eq f g : (forall o, f o = g o) -> int P f -> E f = E g.
  Proof. intros H I. now apply Ex_ext. Qed.
  Lemma I_eq f g : (forall o, f o = g o) -> int P f -> int P g.
  Proof. intros H I. now apply (Ex_ext P f g). Qed.
  Lemma E_le f g : int P f -> int P g -> (forall o, f o <= g o) -> E f <= E g.
  Proof.
    intros If Ig H. destruct (Ex_scal P (-1) f If) as [I1 E1]. destruct (Ex_plus P g _ Ig I1) as [I2 E2].
    assert (Q : 0 <= E (fun o => g o + -1 * f o)) by (apply Ex_pos; [exact I2|intro o; specialize (H o); lra]). lra.
  Qed.
  Lemma I_lin a b f g : int P f -> int P g -> int P (fun o => a * f o + b * g o) /\ E (fun o => a * f o + b * g o) = a * E f + b * E g.
  Proof.
    intros If Ig. destruct (Ex_scal P a f If) as [I1 E1], (Ex_scal P b g Ig) as [I2 E2].
    destruct (Ex_plus P _ _ I1 I2) as [I3 E3]. split; [exact I3|]. now rewrite E3, E1, E2.
  Qed.
  Lemma fv_prod f g : fv f -> fv g -> int P (fun o => f o * g o).
  Proof. intros [A B] [C D]. now apply WP. Qed.
  Lemma fv_lin a b f g : fv f -> fv g -> fv (fun o => a * f o + b * g o).
  Proof.
    intros F G. split; [apply I_lin; [apply F|apply G]|].
    apply (I_eq (fun o => 1 * (a * a * (f o * f o) + 2 * a * b * (f o * g o)) + b * b * (g o * g o))); [intro; ring|].
    apply (I_lin 1 (b * b)); [|apply G]. apply (I_lin (a * a) (2 * a * b)); [apply F|now apply fv_prod].
  Qed.
  Lemma fv_const c : fv (fun _ => c).
  Proof. split; apply Ex_const. Qed.
  Lemma fv_ext f g : (forall o, f o = g o) -> fv f -> fv g.
  Proof. intros H [A B]. split; [now apply (I_eq f)|]. apply (I_eq (fun o => f o * f o)); [intro o; now rewrite H|exact B]. Qed.
  Lemma fv_center f : fv f -> fv (fun o => f o - E f).
  Proof.
    intro F. apply (fv_ext (fun o => 1 * f o + -1 * (fun _ => E f) o)); [intro; ring|]. apply fv_lin; [exact F|apply fv_const].
  Qed.
  Lemma sq_pos f : fv f -> 0 <= E (fun o => f o * f o).
  Proof. intros [_ B]. apply Ex_pos; [exact B|]. intro o. nra. Qed.
  Lemma rms_pos f : 0 <= rms P f.
  Proof. apply sqrt_pos. Qed.
  Lemma rms_sq f : fv f -> rms P f * rms P f = E (fun o => f o * f o).
  Proof. intro F. apply sqrt_sqrt, sq_pos, F. Qed.

  Lemma quad_exp a b f g : fv f -> fv g ->
    E (fun o => (a * f o + b * g o) * (a * f o + b * g o)) = a * a * E (fun o => f o * f o) + 2 * a * b * E (fun o => f o * g o) + b * b * E (fun o => g o * g o).
  Proof.
    intros F G. assert (FG := fv_prod f g F G).
    destruct (I_lin (a * a) (2 * a * b) (fun o => f o * f o) (fun o => f o * g o) (proj2 F) FG) as [I1 E1].
    destruct (I_lin 1 (b * b) _ (fun o => g o * g o) I1 (proj2 G)) as [I2 E2]. rewrite E1 in E2.
    rewrite <- (E_eq (fun o => 1 * (a * a * (f o * f o) + 2 * a * b * (f o * g o)) + b * b * (g o * g o))); [|intro; ring|exact I2]. rewrite E2. ring.
  Qed.
  Lemma cauchy f g : fv f -> fv g -> Rabs (E (fun o => f o * g o)) <= rms P f * rms P g.
  Proof.
    intros F G. set (A := E (fun o => f o * f o)). set (B := E (fun o => f o * g o)). set (C := E (fun o => g o * g o)).
    assert (HA : 0 <= A) by (apply sq_pos, F). assert (HC : 0 <= C) by (apply sq_pos, G).
    assert (Q : forall a b, 0 <= a * a * A + 2 * a * b * B + b * b * C).
    { intros a b. unfold A, B, C. rewrite <- (quad_exp a b f g F G). apply sq_pos, fv_lin; assumption. }
    assert (D : B * B <= A * C).
    { destruct (Req_dec C 0) as [C0|C0].
      - assert (B = 0).
        { destruct (Req_dec B 0) as [|NB]; [assumption|]. specialize (Q B (- (A / 2 + 1))). rewrite C0 in Q.
          assert (0 < B * B) by nra. nra. }
        rewrite H, C0. lra.
      - assert (0 < C) by lra. specialize (Q C (- B)). assert (0 <= C * (A * C - B * B)) by nra. nra. }
    unfold rms. fold A C. rewrite <- sqrt_mult by assumption.
    rewrite <- (sqrt_Rsqr_abs B). apply sqrt_le_1_alt. exact D.
  Qed.
  Lemma triangle f g : fv f -> fv g -> rms P (fun o => f o + g o) <= rms P f + rms P g.
  Proof.
    intros F G. assert (C := cauchy f g F G). assert (Q := quad_exp 1 1 f g F G).
    assert (S : fv (fun o => f o + g o)) by (apply (fv_ext (fun o => 1 * f o + 1 * g o)); [intro; ring|now apply fv_lin]).
    assert (E1 : E (fun o => (1 * f o + 1 * g o) * (1 * f o + 1 * g o)) = E (fun o => (f o + g o) * (f o + g o))).
    { symmetry. apply E_eq; [intro; ring|apply S]. }
    rewrite E1, <- (rms_sq f F), <- (rms_sq g G), <- (rms_sq _ S) in Q.
    assert (B := Rle_abs (E (fun o => f o * g o))).
    assert (P1 := rms_pos f). assert (P2 := rms_pos g). assert (P3 := rms_pos (fun o => f o + g o)).
    apply Rsqr_incr_0_var; [|lra]. unfold Rsqr. lra.
  Qed.
  Lemma center_le f : fv f -> rms P (fun o => f o - E f) <= rms P f.
  Proof.
    intro F. apply sqrt_le_1_alt. assert (Q := quad_exp 1 (- E f) f (fun _ => 1) F (fv_const 1)).
    assert (E1 : E (fun o => f o * 1) = E f) by (symmetry; apply E_eq; [intro; ring|apply F]).
    assert (E2 : E (fun _ => 1 * 1) = 1) by (rewrite (proj2 (Ex_const P (1 * 1))); ring). cbv beta in Q. rewrite E1, E2 in Q.
    rewrite (E_eq _ (fun o => (1 * f o + - E f * 1) * (1 * f o + - E f * 1))); [|intro; ring|apply fv_center, F]. rewrite Q. nra.
  Qed.
  Lemma true_sd_rms f : true_sd P f = rms P (fun o => f o - E f).
  Proof. reflexivity. Qed.

  (** [y] differs from [t] by no more than [c] times [b]. *)
  Section Close.
    Variables (y t b : Om P -> R) (c : R).
    Hypothesis (Hc : 0 <= c) (HB : forall o, Rabs (y o - t o) <= c * b o).
    Lemma mean_close : int P y -> int P t -> int P b -> Rabs (E y - E t) <= c * E b.
    Proof using Hc HB.
      intros Iy It Ib. destruct (I_lin 1 (-1) y t Iy It) as [I1 E1]. destruct (Ex_scal P c b Ib) as [I2 E2].
      destruct (Ex_scal P (-c) b Ib) as [I3 E3].
      assert (A1 : E (fun o => 1 * y o + -1 * t o) <= E (fun o => c * b o)).
      { apply E_le; [exact I1|exact I2|]. intro o. assert (Q := HB o). apply Rabs_le_between in Q. lra. }
      assert (A2 : E (fun o => - c * b o) <= E (fun o => 1 * y o + -1 * t o)).
      { apply E_le; [exact I3|exact I1|]. intro o. assert (Q := HB o). apply Rabs_le_between in Q. lra. }
      apply Rabs_le. lra.
    Qed.
    Hypothesis (Fy : fv y) (Ft : fv t) (Fb : fv b).
    Let r := fun o => y o - t o.
    Lemma r_fv : fv r.
    Proof using WP Fy Ft. apply (fv_ext (fun o => 1 * y o + -1 * t o)); [intro; unfold r; ring|now apply fv_lin]. Qed.
    Lemma r_rms : rms P r <= c * rms P b.
    Proof using WP Fy Ft Fb Hc HB.
      assert (Er : E (fun o => r o * r o) <= c * c * E (fun o => b o * b o)).
      { destruct (Ex_scal P (c * c) _ (proj2 Fb)) as [I2 E2]. rewrite <- E2. apply E_le; [apply r_fv|exact I2|].
        intro o. assert (Q := HB o). fold (r o) in Q. apply Rabs_le_between in Q. assert (0 <= (c * b o - r o) * (c * b o + r o)) by (apply Rmult_le_pos; lra). lra. }
      unfold rms at 1. rewrite <- (sqrt_square (c * rms P b)) by (apply Rmult_le_pos; [exact Hc|apply rms_pos]).
      apply sqrt_le_1_alt. replace (c * rms P b * (c * rms P b)) with (c * c * (rms P b * rms P b)) by ring. now rewrite (rms_sq b Fb).
    Qed.
    Let rc := fun o => r o - E r.
    Lemma E_r : E r = E y - E t.
    Proof using Fy Ft.
      destruct (I_lin 1 (-1) y t (proj1 Fy) (proj1 Ft)) as [I1 E1].
      rewrite <- (E_eq (fun o => 1 * y o + -1 * t o) r); [rewrite E1; ring|intro; unfold r; ring|exact I1].
    Qed.
    Lemma split_center o : y o - E y = (t o - E t) + rc o.
    Proof using Fy Ft. unfold rc. rewrite E_r. unfold r. ring. Qed.
    Lemma rc_rms : rms P rc <= c * rms P b.
    Proof using WP Fy Ft Fb Hc HB. eapply Rle_trans; [apply center_le, r_fv|apply r_rms]. Qed.
    Lemma rc_fv : fv rc.
    Proof using WP Fy Ft. apply fv_center, r_fv. Qed.
    Lemma rms_ext f g : (forall o, f o = g o) -> fv f -> rms P f = rms P g.
    Proof. intros H F. unfold rms. f_equal. apply E_eq; [intro o; now rewrite H|apply F]. Qed.
    Lemma sd_close : Rabs (true_sd P y - true_sd P t) <= c * rms P b.
    Proof using WP Fy Ft Fb Hc HB.
      rewrite !true_sd_rms. assert (Q := rc_rms). assert (Cy := fv_center y Fy). assert (Ct := fv_center t Ft). assert (Cr := rc_fv).
      assert (A1 : rms P (fun o => y o - E y) <= rms P (fun o => t o - E t) + rms P rc).
      { rewrite (rms_ext (fun o => y o - E y) (fun o => (t o - E t) + rc o)); [apply (triangle (fun o => t o - E t) rc Ct Cr)|exact split_center|exact Cy]. }
      assert (Cn : fv (fun o => - rc o)) by (apply (fv_ext (fun o => -1 * rc o + 0 * rc o)); [intro; ring|now apply fv_lin]).
      assert (A2 : rms P (fun o => t o - E t) <= rms P (fun o => y o - E y) + rms P rc).
      { rewrite (rms_ext (fun o => t o - E t) (fun o => (y o - E y) + - rc o)); [|intro o; rewrite split_center; ring|exact Ct].
        eapply Rle_trans; [apply (triangle (fun o => y o - E y) (fun o => - rc o) Cy Cn)|]. apply Rplus_le_compat_l. right. unfold rms. f_equal.
        apply E_eq; [intro; ring|apply Cn]. }
      apply Rabs_le. lra.
    Qed.
  End Close.
  Lemma cov_close y t b c y' t' b' c' : 0 <= c -> 0 <= c' ->
    (forall o, Rabs (y o - t o) <= c * b o) -> (forall o, Rabs (y' o - t' o) <= c' * b' o) ->
    fv y -> fv t -> fv b -> fv y' -> fv t' -> fv b' ->
    Rabs (true_cov P y y' - true_cov P t t') <= true_sd P t * (c' * rms P b') + c * rms P b * true_sd P t' + c * rms P b * (c' * rms P b').
  Proof.
    intros Hc Hc' HB HB' Fy Ft Fb Fy' Ft' Fb'. rewrite !true_sd_rms. unfold true_cov.
    assert (Q := rc_rms y t b c Hc HB Fy Ft Fb). assert (Q' := rc_rms y' t' b' c' Hc' HB' Fy' Ft' Fb').
    assert (S := split_center y t Fy Ft). assert (S' := split_center y' t' Fy' Ft').
    assert (G := rc_fv y t Fy Ft). assert (G' := rc_fv y' t' Fy' Ft').
    set (r := fun o => y o - t o - E (fun o => y o - t o)) in *. set (r' := fun o => y' o - t' o - E (fun o => y' o - t' o)) in *.
    assert (Ct := fv_center t Ft). assert (Ct' := fv_center t' Ft').
    set (d := fun o => t o - E t) in *. set (d' := fun o => t' o - E t') in *.
    destruct (I_lin 1 1 (fun o => d o * d' o) (fun o => d o * r' o) (fv_prod _ _ Ct Ct') (fv_prod _ _ Ct G')) as [I1 E1].
    destruct (I_lin 1 1 (fun o => r o * d' o) (fun o => r o * r' o) (fv_prod _ _ G Ct') (fv_prod _ _ G G')) as [I2 E2].
    destruct (I_lin 1 1 _ _ I1 I2) as [I3 E3].
    assert (EE : E (fun o => (y o - E y) * (y' o - E y')) = E (fun o => 1 * (1 * (d o * d' o) + 1 * (d o * r' o)) + 1 * (1 * (r o * d' o) + 1 * (r o * r' o)))).
    { symmetry. apply E_eq; [|exact I3]. intro o. rewrite S, S'. unfold d, d', r, r'. ring. }
    rewrite EE, E3, E1, E2.
    assert (K1 := cauchy d r' Ct G'). assert (K2 := cauchy r d' G Ct'). assert (K3 := cauchy r r' G G').
    assert (P1 := rms_pos d). assert (P2 := rms_pos d'). assert (P3 := rms_pos r). assert (P4 := rms_pos r').
    assert (M1 : rms P d * rms P r' <= rms P d * (c' * rms P b')) by (apply Rmult_le_compat_l; lra).
    assert (M2 : rms P r * rms P d' <= c * rms P b * rms P d') by (apply Rmult_le_compat_r; lra).
    assert (M3 : rms P r * rms P r' <= c * rms P b * (c' * rms P b')) by (apply Rmult_le_compat; lra).
    change (fun o => (t o - E t) * (t' o - E t')) with (fun o => d o * d' o).
    match goal with |- Rabs ?z <= _ => replace z with (E (fun o => d o * r' o) + E (fun o => r o * d' o) + E (fun o => r o * r' o)) by ring end.
    eapply Rle_trans; [apply Rabs_triang|]. eapply Rle_trans; [apply Rplus_le_compat_r, Rabs_triang|]. lra.
  Qed.
End Prob.

(** ** Taylor's theorem along a curve *)
Lemma bends_taylor1 g B d : bends 2 g B -> is_derive g 0 d -> Rabs (g 1 - (g 0 + d)) <= 1 / 2 * B.
Proof.
  intros H D. destruct (Taylor_Lagrange g 1 0 1) as (z & Hz & E); [lra|intros t Ht k Hk; apply (H t Ht); lia|].
  rewrite E. cbn [sum_f_R0]. assert (D1 : Derive_n g 1 0 = d) by exact (is_derive_unique _ _ _ D).
  assert (B2 : Rabs (Derive_n g 2 z) <= B) by (apply H; lra).
  rewrite D1. cbn [Derive_n fact INR Nat.mul Nat.add pow] in *.
  match goal with |- Rabs ?a <= _ => replace a with (1 / 2 * Derive_n g 2 z) by (cbn [Derive_n]; field) end.
  rewrite Rabs_mult, (Rabs_pos_eq (1 / 2)) by lra. apply Rmult_le_compat_l; [lra|exact B2].
Qed.
Lemma bends_taylor2 g B d h : bends 3 g B -> Derive_n g 1 0 = d -> Derive_n g 2 0 = h -> Rabs (g 1 - (g 0 + d + h / 2)) <= 1 / 6 * B.
Proof.
  intros H D1 D2. destruct (Taylor_Lagrange g 2 0 1) as (z & Hz & E); [lra|intros t Ht k Hk; apply (H t Ht); lia|].
  rewrite E. cbn [sum_f_R0].
  assert (B2 : Rabs (Derive_n g 3 z) <= B) by (apply H; lra).
  rewrite D1, D2. change (Derive_n g 0 0) with (g 0).
  match goal with |- Rabs ?a <= _ => replace a with (1 / 6 * Derive_n g 3 z) by (cbn [fact INR Nat.mul Nat.add pow]; field) end.
  rewrite Rabs_mult, (Rabs_pos_eq (1 / 6)) by lra. apply Rmult_le_compat_l; [lra|exact B2].
Qed.
