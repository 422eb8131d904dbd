(** * Track: doubles that carry the exact value and a bound on their error (C75)

    A numeric type whose elements are a double, the real number it approximates, the two
    magnitudes and the number of roundings, with the proof that they bound the error. *)

From Coq Require Import List ZArith Bool Reals Lra Lia Psatz.
From Flocq Require Import Core BinarySingleNaN.
From Verif Require Import Base Num Map HessGrad Moments UReal2 World2 SpecU2 SpecCast ConvProofs Ieee IeeeFacts SpecIeee IeeeProofs2 IeeeProofs3 IeeeProofs4
  IeeeCov IeeeRel IoAcc1 FunAcc2 FunAcc4 SpecAcc2.
Import ListNotations.
Local Open Scope R_scope.

Notation u1 := (1 + uround).
Lemma u1_ge : 1 <= u1. Proof. assert (P := pow2_pos (-53)). unfold uround. lra. Qed.
Lemma pw_ge k : 1 <= u1 ^ k. Proof. apply pow_R1_Rle, u1_ge. Qed.
Lemma pw_up k l : (k <= l)%nat -> u1 ^ k <= u1 ^ l. Proof. intro H. apply Rle_pow; [apply u1_ge|exact H]. Qed.
Lemma tiny_pos : 0 < tiny. Proof. apply pow2_pos. Qed.

Definition rel (d : double) (r a b : R) (k : nat) : Prop :=
  Rabs r <= a <= b /\ (finite d -> Rabs (real_of d - r) <= u1 ^ k * b - a).

Lemma rel_exact d : rel d (real_of d) (Rabs (real_of d)) (Rabs (real_of d)) 0.
Proof. split; [lra|]. intros _. rewrite Rminus_eq_0, Rabs_R0. cbn [pow]. lra. Qed.
Lemma rel_size d r a b k : rel d r a b k -> finite d -> Rabs (real_of d) <= u1 ^ k * b.
Proof.
  intros [[A B] E] F. specialize (E F). replace (real_of d) with (r + (real_of d - r)) by ring.
  eapply Rle_trans; [apply Rabs_triang|]. lra.
Qed.

Lemma add_fin_inv a b : is_finite (dadd a b) = true -> is_finite a = true /\ is_finite b = true.
Proof. destruct a, b; cbn; try discriminate; try (destruct (Bool.eqb _ _)); try discriminate; auto. Qed.
Lemma mul_fin_inv a b : is_finite (dmul a b) = true -> is_finite a = true /\ is_finite b = true.
Proof. destruct a, b; cbn; try discriminate; auto. Qed.
Lemma add_val a b : finite (dadd a b) -> finite a /\ finite b /\ real_of (dadd a b) = nearest (real_of a + real_of b).
Proof.
  intro F. destruct (add_fin_inv a b F) as [Fa Fb]. split; [exact Fa|]. split; [exact Fb|].
  assert (H := Bplus_correct 53 1024 prec53 emax1024 mode_NE a b Fa Fb). destruct (Rlt_bool _ _); [apply H|].
  destruct H as [H _]. exfalso. revert F. unfold finite, dadd. rewrite <- is_finite_SF_B2SF. rewrite H. cbn. discriminate.
Qed.
Lemma mul_val a b : finite (dmul a b) -> finite a /\ finite b /\ real_of (dmul a b) = nearest (real_of a * real_of b).
Proof.
  intro F. destruct (mul_fin_inv a b F) as [Fa Fb]. split; [exact Fa|]. split; [exact Fb|].
  assert (H := Bmult_correct 53 1024 prec53 emax1024 mode_NE a b). destruct (Rlt_bool _ _); [apply H|].
  exfalso. revert F. unfold finite, dmul. rewrite <- is_finite_SF_B2SF. rewrite H. cbn. discriminate.
Qed.

Lemma rel_add d1 r1 a1 b1 k1 d2 r2 a2 b2 k2 : rel d1 r1 a1 b1 k1 -> rel d2 r2 a2 b2 k2 ->
  rel (dadd d1 d2) (r1 + r2) (a1 + a2) (b1 + b2) (S (Nat.max k1 k2)).
Proof.
  intros R1 R2. split; [destruct R1 as [[A1 A2] _], R2 as [[A3 A4] _]; assert (T := Rabs_triang r1 r2); lra|].
  intro F. destruct (add_val d1 d2 F) as (F1 & F2 & V). destruct (nearest_sum d1 d2) as (e & He & Ee). rewrite V, Ee. change (Rabs e <= uround) in He.
  assert (S1 := rel_size _ _ _ _ _ R1 F1). assert (S2 := rel_size _ _ _ _ _ R2 F2).
  destruct R1 as [[A1 A2] E1], R2 as [[A3 A4] E2]. specialize (E1 F1). specialize (E2 F2).
  set (m := Nat.max k1 k2). assert (P1 : u1 ^ k1 <= u1 ^ m) by (apply pw_up; unfold m; lia). assert (P2 : u1 ^ k2 <= u1 ^ m) by (apply pw_up; unfold m; lia).
  assert (P0 := pw_ge k1). assert (Pm := pw_ge m).
  assert (Q1 : 0 <= b1) by (assert (Z := Rabs_pos r1); lra). assert (Q2 : 0 <= b2) by (assert (Z := Rabs_pos r2); lra).
  assert (M1 : u1 ^ k1 * b1 <= u1 ^ m * b1) by (apply Rmult_le_compat_r; assumption).
  assert (M2 : u1 ^ k2 * b2 <= u1 ^ m * b2) by (apply Rmult_le_compat_r; assumption).
  assert (T : Rabs (real_of d1 + real_of d2) <= u1 ^ m * (b1 + b2)) by (eapply Rle_trans; [apply Rabs_triang|]; lra).
  replace ((real_of d1 + real_of d2) * (1 + e) - (r1 + r2)) with ((real_of d1 - r1) + (real_of d2 - r2) + e * (real_of d1 + real_of d2)) by ring.
  assert (T2 : Rabs (e * (real_of d1 + real_of d2)) <= uround * (u1 ^ m * (b1 + b2))).
  { rewrite Rabs_mult. apply Rmult_le_compat; try apply Rabs_pos; assumption. }
  eapply Rle_trans; [apply abs_tri3; [exact E1|exact E2|exact T2]|]. cbn [pow]. lra.
Qed.
Lemma rel_opp d r a b k : rel d r a b k -> rel (dopp d) (- r) a b k.
Proof.
  intros [A E]. split; [now rewrite Rabs_Ropp|]. intro F. apply opp_finite in F. specialize (E F). rewrite real_of_opp.
  replace (- real_of d - - r) with (- (real_of d - r)) by ring. now rewrite Rabs_Ropp.
Qed.
Lemma rel_sub d1 r1 a1 b1 k1 d2 r2 a2 b2 k2 : rel d1 r1 a1 b1 k1 -> rel d2 r2 a2 b2 k2 ->
  rel (dsub d1 d2) (r1 - r2) (a1 + a2) (b1 + b2) (S (Nat.max k1 k2)).
Proof. intros R1 R2. rewrite dsub_dadd. unfold Rminus. apply rel_add; [exact R1|now apply rel_opp]. Qed.

Definition mmul (eta a b : R) : R := if Req_EM_T (a * b) 0 then 0 else a * b + eta.
Lemma mmul_ge eta a b : 0 <= eta -> a * b <= mmul eta a b. Proof. intro E. unfold mmul. destruct (Req_EM_T _ _); lra. Qed.
Lemma mmul_0 a b : mmul 0 a b = a * b. Proof. unfold mmul. destruct (Req_EM_T _ _); lra. Qed.
Lemma rel_mul d1 r1 a1 b1 k1 d2 r2 a2 b2 k2 : rel d1 r1 a1 b1 k1 -> rel d2 r2 a2 b2 k2 ->
  rel (dmul d1 d2) (r1 * r2) (mmul 0 a1 a2) (mmul tiny b1 b2) (S (k1 + k2)).
Proof.
  intros R1 R2. rewrite mmul_0. assert (Et := tiny_pos).
  assert (N1 := Rabs_pos r1). assert (N2 := Rabs_pos r2).
  destruct R1 as [[A1 A2] E1] eqn:X1, R2 as [[A3 A4] E2] eqn:X2. clear X1 X2.
  assert (AB : a1 * a2 <= b1 * b2) by (apply Rmult_le_compat; lra).
  split.
  - rewrite Rabs_mult. split; [apply Rmult_le_compat; lra|]. eapply Rle_trans; [exact AB|]. apply mmul_ge. lra.
  - intro F. destruct (mul_val d1 d2 F) as (F1 & F2 & V).
    assert (S1 := rel_size _ _ _ _ _ R1 F1). assert (S2 := rel_size _ _ _ _ _ R2 F2). specialize (E1 F1). specialize (E2 F2).
    assert (P1 := pw_ge k1). assert (P2 := pw_ge k2). assert (Pp := pw_ge (k1 + k2)). assert (Pe : u1 ^ (k1 + k2) = u1 ^ k1 * u1 ^ k2) by apply pow_add.
    assert (SS : Rabs (real_of d1 * real_of d2) <= u1 ^ (k1 + k2) * (b1 * b2)).
    { rewrite Rabs_mult, Pe. replace (u1 ^ k1 * u1 ^ k2 * (b1 * b2)) with ((u1 ^ k1 * b1) * (u1 ^ k2 * b2)) by ring.
      apply Rmult_le_compat; try apply Rabs_pos; assumption. }
    assert (EE : Rabs (real_of d1 * real_of d2 - r1 * r2) <= u1 ^ (k1 + k2) * (b1 * b2) - a1 * a2).
    { replace (real_of d1 * real_of d2 - r1 * r2) with (r1 * (real_of d2 - r2) + (real_of d1 - r1) * r2 + (real_of d1 - r1) * (real_of d2 - r2)) by ring.
      set (e1 := Rabs (real_of d1 - r1)) in *. set (e2 := Rabs (real_of d2 - r2)) in *.
      assert (Z1 : 0 <= e1) by apply Rabs_pos. assert (Z2 : 0 <= e2) by apply Rabs_pos.
      eapply Rle_trans; [apply (abs_tri3 _ _ _ (a1 * e2) (e1 * a2) (e1 * e2))|].
      - rewrite Rabs_mult. apply Rmult_le_compat_r; assumption.
      - rewrite Rabs_mult. apply Rmult_le_compat_l; assumption.
      - rewrite Rabs_mult. apply Rle_refl.
      - rewrite Pe. replace (u1 ^ k1 * u1 ^ k2 * (b1 * b2)) with ((u1 ^ k1 * b1) * (u1 ^ k2 * b2)) by ring.
        assert (W : (a1 + e1) * (a2 + e2) <= (u1 ^ k1 * b1) * (u1 ^ k2 * b2)) by (apply Rmult_le_compat; lra). lra. }
    destruct (nearest_pm (real_of d1 * real_of d2)) as (e & t & He & Ht & En). fold tiny in Ht. change (Rabs e <= uround) in He.
    rewrite V. unfold mmul. destruct (Req_EM_T (b1 * b2) 0) as [Z|Z].
    + rewrite Z in SS, EE. rewrite Rmult_0_r in SS. assert (Z0 : real_of d1 * real_of d2 = 0).
      { assert (Q := Rabs_pos (real_of d1 * real_of d2)). destruct (Req_dec (real_of d1 * real_of d2) 0) as [|C]; [assumption|]. apply Rabs_pos_lt in C. lra. }
      rewrite Z0 in *. assert (N0 : nearest 0 = 0) by (unfold nearest; apply round_0, valid_rnd_N). rewrite N0.
      rewrite !Rmult_0_r in *. lra.
    + rewrite En. replace (real_of d1 * real_of d2 * (1 + e) + t - r1 * r2) with ((real_of d1 * real_of d2 - r1 * r2) + e * (real_of d1 * real_of d2) + t) by ring.
      eapply Rle_trans; [apply abs_tri3; [exact EE| |exact Ht]|].
      * rewrite Rabs_mult. apply Rmult_le_compat; try apply Rabs_pos; [exact He|exact SS].
      * cbn [pow]. assert (Uu := u1_ge).
        assert (W : tiny <= u1 * u1 ^ (k1 + k2) * tiny) by (assert (1 <= u1 * u1 ^ (k1 + k2)) by nra; nra). lra.
Qed.

Definition kZ (z : Z) : nat := if (Z.abs z <=? 2 ^ 53)%Z then 0%nat else 1%nat.
Lemma rel_ofZ z : rel (dofZ z) (IZR z) (Rabs (IZR z)) (Rabs (IZR z)) (kZ z).
Proof.
  split; [lra|]. intro F. unfold kZ. destruct (Z.leb_spec (Z.abs z) (2 ^ 53)).
  - destruct (dofZ_exact z H) as [_ ->]. rewrite Rminus_eq_0, Rabs_R0. cbn [pow]. lra.
  - assert (N := binary_normalize_correct 53 1024 prec53 emax1024 mode_NE z 0 false). cbv zeta in N.
    assert (E : F2R (Float radix2 z 0) = IZR z) by (unfold F2R; cbn; ring).
    assert (L : pow2 (-1022) <= Rabs (IZR z)).
    { apply Rle_trans with 1; [change 1 with (pow2 0); apply pow2_le; lia|]. rewrite <- abs_IZR. apply IZR_le. lia. }
    assert (V : real_of (dofZ z) = nearest (IZR z)).
    { destruct (Rlt_bool _ _); [destruct N as [N _]; rewrite E in N; exact N|].
      exfalso. revert F. unfold finite, dofZ. rewrite <- is_finite_SF_B2SF. rewrite N. cbn. discriminate. }
    rewrite V. assert (Q := rel_err (IZR z) L). unfold uround. cbn [pow]. lra.
Qed.

(** ** The numeric type *)
Record trk : Type := mkTrk { td : double; tr : R; ta : R; tb : R; tk : nat; t_ok : rel td tr ta tb tk }.
Definition t_exact (d : double) : trk := mkTrk d (real_of d) (Rabs (real_of d)) (Rabs (real_of d)) 0 (rel_exact d).
Definition t_add (x y : trk) : trk := mkTrk (dadd (td x) (td y)) (tr x + tr y) (ta x + ta y) (tb x + tb y) (S (Nat.max (tk x) (tk y))) (rel_add _ _ _ _ _ _ _ _ _ _ (t_ok x) (t_ok y)).
Definition t_sub (x y : trk) : trk := mkTrk (dsub (td x) (td y)) (tr x - tr y) (ta x + ta y) (tb x + tb y) (S (Nat.max (tk x) (tk y))) (rel_sub _ _ _ _ _ _ _ _ _ _ (t_ok x) (t_ok y)).
Definition t_mul (x y : trk) : trk := mkTrk (dmul (td x) (td y)) (tr x * tr y) (mmul 0 (ta x) (ta y)) (mmul tiny (tb x) (tb y)) (S (tk x + tk y)) (rel_mul _ _ _ _ _ _ _ _ _ _ (t_ok x) (t_ok y)).
Definition t_opp (x : trk) : trk := mkTrk (dopp (td x)) (- tr x) (ta x) (tb x) (tk x) (rel_opp _ _ _ _ _ (t_ok x)).
Definition t_ofZ (z : Z) : trk := mkTrk (dofZ z) (IZR z) (Rabs (IZR z)) (Rabs (IZR z)) (kZ z) (rel_ofZ z).
Lemma rel_0 : rel dzero 0 0 0 0. Proof. split; [rewrite Rabs_R0; lra|]. intros _. cbn. rewrite Rminus_0_r, Rabs_R0. lra. Qed.
Definition t_0 : trk := mkTrk dzero 0 0 0 0 rel_0.
(** The operations not used by the computation of moments are those on the double. *)
Definition TN : Num := {|
  T := trk; n0 := t_0; n1 := t_exact (dofZ 1);
  nadd := t_add; nsub := t_sub; nmul := t_mul; ndiv := fun x y => t_exact (ddiv (td x) (td y)); nopp := t_opp;
  nltb := fun x y => Bltb (td x) (td y); nleb := fun x y => Bleb (td x) (td y); neqb := fun x y => Beqb (td x) (td y);
  nabs := fun x => t_exact (dabs (td x)); nsqrt := fun x => t_exact (dsqrt (td x)); nofZ := t_ofZ |}.

Lemma td_ring : keeps_ring (N := TN) (M := DN) td. Proof. repeat split. Qed.
Lemma tr_ring : keeps_ring (N := TN) (M := RN) tr. Proof. repeat split. Qed.
Lemma ta_ring : keeps_ring (N := TN) (M := mag 0) ta. Proof. repeat split. Qed.
Lemma tb_ring : keeps_ring (N := TN) (M := mag tiny) tb. Proof. repeat split. Qed.
Lemma tk_ring : keeps_ring (N := TN) (M := roundings) tk. Proof. repeat split. Qed.

(** ** Conversions compose *)
Lemma cd_comp {N M Q : Num} (f : N -> M) (g : M -> Q) x : cd g (cd f x) = cd (fun a => g (f a)) x.
Proof. destruct x as [a b [[]|]]; reflexivity. Qed.
Lemma cu_comp {N M Q : Num} (f : N -> M) (g : M -> Q) x : cu g (cu f x) = cu (fun a => g (f a)) x.
Proof.
  destruct x as [[D T] m]. unfold cu, chg. cbn [u2hg u2mu diagmap trimap]. f_equal. rewrite !map_map. f_equal.
  - apply map_ext. intros [k d]. unfold ckd. cbn [fst snd]. now rewrite cd_comp.
Qed.
Lemma cu_id {N : Num} (x : ureal2 N) : cu (fun a => a) x = x.
Proof.
  destruct x as [[D T] m]. unfold cu, chg. cbn [u2hg u2mu diagmap trimap]. f_equal. f_equal.
  - rewrite <- (map_id D) at 2. apply map_ext. intros [k [g h mm]]. unfold ckd, cd. cbn. do 2 f_equal. destruct mm as [[]|]; reflexivity.
  - rewrite <- (map_id T) at 2. apply map_ext. now intros [k v].
Qed.
Definition lift (x : ureal2 DN) : ureal2 TN := cu (N := DN) (M := TN) t_exact x.
