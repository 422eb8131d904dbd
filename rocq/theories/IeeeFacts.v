(** * IeeeFacts: laws of arithmetic that survive rounding *)

From Coq Require Import List ZArith Reals Bool Lra Lia.
From Flocq Require Import Core Plus_error BinarySingleNaN.
From Verif Require Import Base Num Ieee.
Local Open Scope R_scope.

Notation fexp64 := (SpecFloat.fexp 53 1024).
Notation rnd64 := (round radix2 fexp64 (round_mode mode_NE)).

Lemma dmul_comm a b : dmul a b = dmul b a.
Proof.
  destruct a as [sa|sa| |sa ma ea Ha], b as [sb|sb| |sb mb eb Hb]; cbn; try reflexivity; try (rewrite xorb_comm; reflexivity).
  apply B2SF_inj. unfold dmul, Bmult. rewrite !B2SF_SF2B. rewrite (xorb_comm sa sb), (Pos.mul_comm ma mb), (Z.add_comm ea eb). reflexivity.
Qed.
Lemma dadd_comm a b : dadd a b = dadd b a.
Proof.
  destruct a as [sa|sa| |sa ma ea Ha], b as [sb|sb| |sb mb eb Hb]; cbn; try reflexivity;
    try (destruct sa, sb; reflexivity).
  unfold Fplus_naive. rewrite (Z.min_comm ea eb), Z.add_comm. reflexivity.
Qed.

Lemma one_B2R : B2R (dofZ 1) = 1.
Proof.
  assert (H := binary_normalize_correct 53 1024 prec53 emax1024 mode_NE 1 0 false). cbv zeta in H.
  replace (F2R {| Fnum := 1; Fexp := 0 |}) with 1 in H by (unfold F2R; cbn; lra).
  rewrite round_generic in H; [|apply valid_rnd_round_mode|].
  - rewrite Rabs_R1, Rlt_bool_true in H; [apply H|]. change 1 with (bpow radix2 0). apply bpow_lt. lia.
  - change 1 with (bpow radix2 0). apply generic_format_bpow. cbv. discriminate.
Qed.
Lemma one_finite : is_finite (dofZ 1) = true. Proof. reflexivity. Qed.
Lemma one_sign : Bsign (dofZ 1) = false. Proof. reflexivity. Qed.
Lemma B2R_format (a : double) : generic_format radix2 fexp64 (B2R a).
Proof. apply generic_format_B2R. Qed.
Lemma B2R_lt_emax (a : double) : Rabs (B2R a) < bpow radix2 1024.
Proof. apply abs_B2R_lt_emax. Qed.

Lemma dmul_1_l a : dmul (dofZ 1) a = a.
Proof.
  destruct (is_finite a) eqn:F.
  - assert (H := Bmult_correct 53 1024 prec53 emax1024 mode_NE (dofZ 1) a). rewrite one_B2R, Rmult_1_l in H.
    rewrite round_generic in H by (try apply valid_rnd_round_mode; apply B2R_format).
    rewrite Rlt_bool_true in H by apply B2R_lt_emax. destruct H as (H1 & H2 & H3). rewrite F, one_finite in H2.
    apply B2R_Bsign_inj; [exact H2|exact F|exact H1|]. unfold dmul. rewrite H3.
    + rewrite one_sign. now destruct (Bsign a).
    + destruct (Bmult mode_NE (dofZ 1) a); try reflexivity; discriminate H2.
  - destruct a as [s|s| |s m e H]; try discriminate F; [|reflexivity]. cbn. now destruct s.
Qed.
Lemma dmul_m1_l a : dmul (dopp (dofZ 1)) a = dopp a.
Proof.
  destruct (is_finite a) eqn:F.
  - assert (H := Bmult_correct 53 1024 prec53 emax1024 mode_NE (dopp (dofZ 1)) a). unfold dopp in H at 1 2 3.
    rewrite B2R_Bopp, one_B2R in H. replace (- (1) * B2R a) with (B2R (Bopp a)) in H by (rewrite B2R_Bopp; ring).
    rewrite round_generic in H by (try apply valid_rnd_round_mode; apply B2R_format).
    rewrite Rlt_bool_true in H by apply B2R_lt_emax. destruct H as (H1 & H2 & H3).
    rewrite F, andb_true_r in H2. change (is_finite (Bopp (dofZ 1))) with true in H2.
    assert (Nn : is_nan (dmul (dopp (dofZ 1)) a) = false).
    { unfold dmul. revert H2. unfold dopp. destruct (Bmult mode_NE (Bopp (dofZ 1)) a); intro H2; try reflexivity; discriminate H2. }
    apply B2R_Bsign_inj.
    + exact H2.
    + unfold dopp. rewrite is_finite_Bopp. exact F.
    + exact H1.
    + unfold dmul in *. rewrite H3 by exact Nn. change (Bsign (dopp (dofZ 1))) with true. unfold dopp.
      rewrite (Bsign_Bopp 53 1024 a) by (destruct a; try reflexivity; discriminate F). reflexivity.
  - destruct a as [s|s| |s m e H]; try discriminate F; [|reflexivity]. cbn. now destruct s.
Qed.
(** a + (-a) = +0 *)
Lemma dadd_opp a : is_finite a = true -> dadd a (dopp a) = dzero.
Proof.
  intro F. assert (H := Bplus_correct 53 1024 prec53 emax1024 mode_NE a (dopp a) F).
  unfold dopp in H. rewrite is_finite_Bopp, B2R_Bopp in H. specialize (H F).
  replace (B2R a + - B2R a) with 0 in H by ring. rewrite round_0 in H by apply valid_rnd_round_mode.
  rewrite Rabs_R0, Rlt_bool_true in H by apply bpow_gt_0. destruct H as (H1 & H2 & H3).
  apply B2R_Bsign_inj; [exact H2|reflexivity|exact H1|]. unfold dadd, dopp. rewrite H3, Rcompare_Eq by reflexivity.
  rewrite Bsign_Bopp by (destruct a; try reflexivity; discriminate F). cbn. now destruct (Bsign a).
Qed.
Lemma dsub_self a : is_finite a = true -> dsub a a = dzero.
Proof.
  intro F. assert (H := Bminus_correct 53 1024 prec53 emax1024 mode_NE a a F F).
  replace (B2R a - B2R a) with 0 in H by ring. rewrite round_0 in H by apply valid_rnd_round_mode.
  rewrite Rabs_R0, Rlt_bool_true in H by apply bpow_gt_0. destruct H as (H1 & H2 & H3).
  apply B2R_Bsign_inj; [exact H2|reflexivity|exact H1|]. unfold dsub. rewrite H3, Rcompare_Eq by reflexivity.
  cbn. now destruct (Bsign a).
Qed.

(** ** The sign of zero *)
Definition mzero : double := B754_zero true.
Definition is_zero (a : double) : Prop := a = dzero \/ a = mzero.
(** equal numbers, perhaps zeros of different sign *)
Definition zeq (a b : double) : Prop := a = b \/ (is_zero a /\ is_zero b).
Lemma zeq_refl a : zeq a a. Proof. now left. Qed.
Lemma zeq_sym a b : zeq a b -> zeq b a. Proof. unfold zeq. intuition congruence. Qed.
Lemma dadd_pos a b : a <> mzero -> dadd a b <> mzero.
Proof.
  intros A E. destruct a as [sa|sa| |sa ma ea Ha], b as [sb|sb| |sb mb eb Hb]; try discriminate E.
  - destruct sa; [now apply A|]. destruct sb; discriminate E.
  - destruct sa, sb; discriminate E.
  - assert (H := Bplus_correct 53 1024 prec53 emax1024 mode_NE (B754_finite sa ma ea Ha) (B754_finite sb mb eb Hb) eq_refl eq_refl).
    unfold dadd in E. rewrite E in H. destruct (Rlt_bool _ _) eqn:Lt.
    + destruct H as (H1 & _ & H3). cbn [B2R mzero] in H1. cbn [Bsign mzero] in H3.
      revert H3 H1. case Rcompare_spec; intros C H3 H1; try discriminate H3.
      * symmetry in H1. assert (Z := fun U => round_plus_neq_0 radix2 fexp64 (round_mode mode_NE) _ _ (B2R_format (B754_finite sa ma ea Ha)) (B2R_format (B754_finite sb mb eb Hb)) U H1).
        apply Z. lra.
      * cbn in H3. destruct sa; [|discriminate H3]. destruct sb; [|discriminate H3].
        assert (NA : B2R (B754_finite true ma ea Ha) < 0) by (apply F2R_lt_0; reflexivity).
        assert (NB : B2R (B754_finite true mb eb Hb) < 0) by (apply F2R_lt_0; reflexivity). lra.
    + destruct H as (H & _). cbn in H. discriminate H.
Qed.
Lemma dadd_zeros a b c : a <> mzero -> is_zero b -> is_zero c -> dadd a b = dadd a c.
Proof.
  intros A [->| ->] [->| ->]; try reflexivity; destruct a as [[|]|s| |s m e H]; cbn; try reflexivity; now elim A.
Qed.
Lemma dmul_zeros a b t : is_zero a -> is_zero b -> dmul a t = dmul b t \/ (is_zero (dmul a t) /\ is_zero (dmul b t)).
Proof.
  intros [->| ->] [->| ->]; try (now left); destruct t as [[|]|s| |[|] m e H]; cbn;
    solve [now left | right; split; (now left) || now right].
Qed.
Lemma zeq_mul a b t : zeq a b -> zeq (dmul a t) (dmul b t).
Proof. intros [->|[A B]]; [now left|]. destruct (dmul_zeros a b t A B); [now left|now right]. Qed.
Lemma zeq_mul2 a b s t : zeq a b -> zeq s t -> zeq (dmul a s) (dmul b t).
Proof.
  intros A B. assert (X := zeq_mul a b s A). assert (Y := zeq_mul s t b B). rewrite (dmul_comm s b), (dmul_comm t b) in Y.
  revert X Y. generalize (dmul a s) (dmul b s) (dmul b t). intros p q r [->|[P Q]] [->|[P' Q']]; [now left|now right|now right|now right].
Qed.
Lemma acc_zeq acc a b : acc <> mzero -> zeq a b -> dadd acc a = dadd acc b.
Proof. intros H [->|[A B]]; [reflexivity|]. now apply dadd_zeros. Qed.
Lemma square_zeq a b : zeq a b -> zeq (dmul a a) (dmul b b).
Proof. intro H. now apply zeq_mul2. Qed.
Lemma dzero_pos : dzero <> mzero. Proof. discriminate. Qed.
(** 0 + a = a but for the sign of zero *)
Lemma zeq_add0 a : zeq (dadd dzero a) a.
Proof. destruct a as [[|]|s| |s m e H]; try (now left). right. split; [now left|now right]. Qed.

(** ** Signs *)
Definition nonneg (a : double) : Prop := Bltb a dzero = false.
Lemma nonneg_abs a : nonneg (dabs a).
Proof. destruct a as [s|s| |s m e H]; reflexivity. Qed.
Lemma nonneg_leb a : Bleb dzero a = true -> nonneg a.
Proof. destruct a as [s|[|]| |[|] m e H]; cbn; intro E; try reflexivity; discriminate E. Qed.
Lemma nonneg_sqrt a : nonneg (dsqrt a).
Proof.
  unfold nonneg. destruct (is_finite (dsqrt a)) eqn:F.
  - rewrite Bltb_correct by (exact F || reflexivity). apply Rlt_bool_false. cbn [B2R dzero].
    destruct (Bsqrt_correct 53 1024 prec53 emax1024 mode_NE a) as [H _]. unfold dsqrt. rewrite H.
    apply round_ge_generic; [apply FLT_exp_valid; reflexivity|apply valid_rnd_round_mode|apply generic_format_0|apply sqrt_pos].
  - destruct a as [s|[|]| |[|] m e H]; try reflexivity; try discriminate F.
    destruct (Bsqrt_correct 53 1024 prec53 emax1024 mode_NE (B754_finite false m e H)) as (_ & H1 & _).
    unfold dsqrt in F. rewrite H1 in F. discriminate F.
Qed.
Lemma nonneg_square a : nonneg (dmul a a).
Proof.
  unfold nonneg. destruct (is_nan (dmul a a)) eqn:Nn; [destruct (dmul a a); try discriminate Nn; reflexivity|].
  assert (S : Bsign (dmul a a) = false).
  { assert (H := Bmult_correct 53 1024 prec53 emax1024 mode_NE a a). destruct (Rlt_bool _ _).
    - destruct H as (_ & _ & H). unfold dmul. rewrite (H Nn). now destruct (Bsign a).
    - unfold dmul. rewrite xorb_nilpotent in H. destruct (Bmult mode_NE a a); cbn in H; try discriminate H; now injection H. }
  revert S. destruct (dmul a a) as [s|s| |s m e H]; cbn; intro S; subst; reflexivity.
Qed.
Lemma nonneg_add a b : nonneg a -> nonneg b -> nonneg (dadd a b).
Proof.
  unfold nonneg. intros A B. destruct (is_finite a) eqn:Fa, (is_finite b) eqn:Fb.
  - rewrite Bltb_correct in A by (assumption || reflexivity). rewrite Bltb_correct in B by (assumption || reflexivity).
    cbn [B2R dzero] in A, B.
    assert (A' : 0 <= B2R a) by (revert A; case Rlt_bool_spec; intros; [discriminate|assumption]).
    assert (B' : 0 <= B2R b) by (revert B; case Rlt_bool_spec; intros; [discriminate|assumption]).
    clear A B.
    assert (H := Bplus_correct 53 1024 prec53 emax1024 mode_NE a b Fa Fb). destruct (Rlt_bool _ _) eqn:Lt.
    + destruct H as (H1 & H2 & _). rewrite Bltb_correct by (exact H2 || reflexivity). apply Rlt_bool_false. cbn [B2R dzero]. unfold dadd. rewrite H1.
      apply round_ge_generic; [apply FLT_exp_valid; reflexivity|apply valid_rnd_round_mode|apply generic_format_0|lra].
    + destruct H as (H & S). unfold dadd.
      assert (Bsign a = false).
      { destruct (Bsign a) eqn:Sa; [|reflexivity]. exfalso.
        assert (Za : B2R a = 0). { destruct a as [s|s| |s m e Hm]; try reflexivity. cbn in Sa; subst s. assert (B2R (B754_finite true m e Hm) < 0) by (apply F2R_lt_0; reflexivity). lra. }
        rewrite Za, Rplus_0_l in Lt. rewrite round_generic in Lt by (try apply valid_rnd_round_mode; apply B2R_format).
        rewrite Rlt_bool_true in Lt by apply B2R_lt_emax. discriminate. }
      rewrite H0 in H. destruct (Bplus mode_NE a b); cbn in H; try discriminate H. now injection H as ->.
  - destruct a as [s|s| |s m e H], b as [s'|s'| |s' m' e' H']; try discriminate; cbn in *; try reflexivity; try (now destruct s'); now destruct s.
  - destruct a as [s|s| |s m e H], b as [s'|s'| |s' m' e' H']; try discriminate; cbn in *; try reflexivity; try (now destruct s'); now destruct s.
  - destruct a as [s|s| |s m e H], b as [s'|s'| |s' m' e' H']; try discriminate; cbn in *; try reflexivity; try (now destruct s'); try (now destruct s). destruct s, s'; cbn in *; congruence.
Qed.
Lemma Beqb_one a : Beqb a (dofZ 1) = true -> a = dofZ 1.
Proof.
  intro H. destruct (is_finite a) eqn:F.
  - rewrite Beqb_correct in H by (exact F || reflexivity). revert H. case Req_bool_spec; intros H E; [clear E|discriminate E].
    rewrite one_B2R in H. apply B2R_inj; [|reflexivity|now rewrite one_B2R].
    destruct a; cbn in *; try reflexivity; try discriminate F; lra.
  - destruct a as [s|[|]| |s m e Hm]; try discriminate F; discriminate H.
Qed.
