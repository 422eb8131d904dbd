(** * DemoShape: exact moments of a variable with second derivatives (example of C82) *)

From Coq Require Import List ZArith Bool Reals Lra Lia.
From Coq Require Import SpecFloat.
From Flocq Require Import Core BinarySingleNaN.
From Verif Require Import Base Num Map UReal World HessGrad Moments UReal2 World2 SpecCast ConvProofs Ieee IeeeFacts IoAcc1 SpecIeee IeeeProofs2 IeeeProofs3 IeeeProofs4 IeeeProofs5 HessProofs U2Facts SpecAcc2 Track AccMom2 AccFinal DemoAcc2 SpecProb SpecMom SpecU2Run SpecObs SpecShape ShapeAcc ShapeAcc2.
Import ListNotations.
Local Open Scope R_scope.

(** Integers, and magnitudes of integers; spec_float, to compare doubles. *)
Definition ZN : Num := {| T := Z; n0 := 0%Z; n1 := 1%Z; nadd := Z.add; nsub := Z.sub; nmul := Z.mul; ndiv := Z.div; nopp := Z.opp;
  nltb := Z.ltb; nleb := Z.leb; neqb := Z.eqb; nabs := Z.abs; nsqrt := Z.sqrt; nofZ := fun z => z |}.
Definition ZM : Num := {| T := Z; n0 := 0%Z; n1 := 1%Z; nadd := Z.add; nsub := Z.add; nmul := Z.mul; ndiv := Z.div; nopp := fun z => z;
  nltb := Z.ltb; nleb := Z.leb; neqb := Z.eqb; nabs := Z.abs; nsqrt := Z.sqrt; nofZ := Z.abs |}.
Lemma ZN_ring : keeps_ring (N := ZN) (M := RN) IZR.
Proof. split; [reflexivity|]. split; [reflexivity|]. split; [exact plus_IZR|]. split; [exact minus_IZR|exact mult_IZR]. Qed.
Lemma ZM_ring : keeps_ring (N := ZM) (M := mag 0) IZR.
Proof.
  split; [reflexivity|]. split; [exact abs_IZR|]. split; [exact plus_IZR|]. split; [exact plus_IZR|].
  intros a b. rewrite mag0_mul. apply mult_IZR.
Qed.
Definition SN : Num := {| T := SpecFloat.spec_float; n0 := SpecFloat.S754_nan; n1 := SpecFloat.S754_nan; nadd := fun a _ => a; nsub := fun a _ => a; nmul := fun a _ => a; ndiv := fun a _ => a; nopp := fun a => a;
  nltb := fun _ _ => true; nleb := fun _ _ => true; neqb := fun _ _ => true; nabs := fun a => a; nsqrt := fun a => a; nofZ := fun _ => SpecFloat.S754_nan |}.
Lemma map_inj {A B} (f : A -> B) : (forall a b, f a = f b -> a = b) -> forall l l', map f l = map f l' -> l = l'.
Proof. intros I l. induction l as [|a l IH]; intros [|b l'] E; try discriminate E; [reflexivity|]. cbn in E. injection E as E1 E2. f_equal; auto. Qed.
Lemma cu_inj {N M : Num} (f : N -> M) : (forall a b, f a = f b -> a = b) -> forall x y, cu f x = cu f y -> x = y.
Proof.
  intros I [[D T] m] [[D' T'] m'] E. unfold cu, chg in E. cbn [u2hg u2mu diagmap trimap] in E. injection E as E1 E2 E3.
  f_equal; [f_equal|]; [eapply map_inj; [|exact E1]|eapply map_inj; [|exact E2]|auto].
  - intros [k [g h mo]] [k' [g' h' mo']] Ek. unfold ckd, cd in Ek. cbn in Ek. injection Ek as -> Eg Eh Em. apply I in Eg. apply I in Eh. subst. do 2 f_equal.
    destruct mo as [[]|], mo' as [[]|]; cbn in Em; try discriminate; [|reflexivity]. unfold moms_convert in Em. cbn in Em. injection Em as A1 A2 A3 A4 A5 A6.
    apply I in A1, A2, A3, A4, A5, A6. now subst.
  - intros [k a] [k' a'] Ek. unfold ckt in Ek. cbn in Ek. injection Ek as -> Ea. apply I in Ea. now subst.
Qed.

Definition expoZ : moms ZN := mkM (N := ZN) 2%Z 9%Z 44%Z 265%Z 1854%Z 14833%Z.
(** z = x y x, with x = 3 +- 2 and y = 5 +- 1 *)
Definition zZ : ureal2 ZN := mkU2 (N := ZN) (mkHG (N := ZN) [(1%Z, mkD (N := ZN) 60%Z 20%Z (Some expoZ)); (2%Z, mkD (N := ZN) 9%Z 0%Z (Some expoZ))] [((1, 2)%Z, 6%Z)]) 45%Z.
Definition sf : DN -> SN := fun a => B2SF (a : double).
Lemma sf_inj a b : sf a = sf b -> a = b.
Proof. exact (B2SF_inj _ _ a b). Qed.
Lemma z_double : w2_var acc_world 3%nat = cu (N := ZN) (M := DN) dofZ zZ.
Proof. apply (cu_inj (M := SN) sf sf_inj). vm_compute. reflexivity. Qed.
Lemma z_ok : hg_ok (u2hg (w2_var acc_world 3%nat)). Proof. exact (var_ok no_eig acc_demo acc_world acc_demo_legal acc_demo_run 3). Qed.
Ltac reals := repeat match goal with |- context [real_of (dofZ ?z)] => rewrite (proj2 (dofZ_exact z ltac:(lia))) end.
Lemma z_exact : exactly (w2_var acc_world 3%nat) = cu (N := ZN) (M := RN) IZR zZ.
Proof.
  unfold exactly. rewrite convert_cu by exact z_ok. rewrite z_double, cu_comp. unfold cu, chg, ckd, ckt, cd, moms_convert, zZ, expoZ. cbn [u2hg u2mu diagmap trimap map fst snd dgrad dhh dmom option_map v3 v4 v5 v6 v7 v8].
  reals. reflexivity.
Qed.
Definition zM : ureal2 ZM := cu (N := ZN) (M := ZM) Z.abs zZ.
Lemma z_sized : sized 0 (w2_var acc_world 3%nat) = cu (N := ZM) (M := mag 0) IZR zM.
Proof.
  unfold sized. rewrite convert_cu by exact z_ok. rewrite z_double. unfold zM. rewrite !cu_comp. unfold cu, chg, ckd, ckt, cd, moms_convert, zZ, expoZ. cbn [u2hg u2mu diagmap trimap map fst snd dgrad dhh dmom option_map v3 v4 v5 v6 v7 v8].
  reals. rewrite <- !abs_IZR. reflexivity.
Qed.
Lemma z_moments : let x := w2_var acc_world 3%nat in
  exact_moment x 2 11825 (merr x 2 12625) /\ exact_moment x 3 7161906 (merr x 3 8644906) /\ exact_moment x 4 8809708905 (merr x 4 10133253865).
Proof.
  assert (M : forall n zr za, u2_m zZ (Z.of_nat n) = Ret zr -> u2_m zM (Z.of_nat n) = Ret za -> exact_moment (w2_var acc_world 3%nat) n (IZR zr) (merr (w2_var acc_world 3%nat) n (IZR za))).
  { intros n zr za Er Ea. split.
    - rewrite z_exact, (m_map (N := ZN) (M := RN) IZR ZN_ring). rewrite Er. reflexivity.
    - exists (IZR za). split; [|reflexivity]. rewrite z_sized, (m_map (N := ZM) (M := mag 0) IZR ZM_ring). rewrite Ea. reflexivity. }
  cbv zeta. split; [|split]; apply M; vm_compute; reflexivity.
Qed.
Lemma z_case : let x := w2_var acc_world 3%nat in conditioned 11825 (merr x 2 12625) /\
  Rabs 7161906 + merr x 3 8644906 <= pow2 1000 * (sqrt 11825 * 11825) /\ Rabs 8809708905 + merr x 4 10133253865 <= pow2 1000 * (11825 * 11825).
Proof.
  assert (N : n_ids (w2_var acc_world 3%nat) = 2%nat) by (vm_compute; reflexivity). cbv zeta. unfold merr. rewrite N.
  assert (Ue : uround = / 9007199254740992) by reflexivity. rewrite Ue.
  assert (D2 : INR (depth 2 2) = 17) by (cbn; lra). assert (D3 : INR (depth 3 2) <= 1000) by (rewrite INR_IZR_INZ; apply IZR_le; vm_compute; discriminate).
  assert (D4 : INR (depth 4 2) <= 1000) by (rewrite INR_IZR_INZ; apply IZR_le; vm_compute; discriminate).
  assert (P40 : 1099511627776 <= pow2 1000) by (apply Rle_trans with (pow2 40); [right; unfold pow2; cbn; lra|apply pow2_le; lia]).
  assert (S1 : 1 <= sqrt 11825) by (rewrite <- sqrt_1; apply sqrt_le_1_alt; lra). assert (S2 : 0 < sqrt 11825 * 11825) by lra.
  split; [|split].
  - split; [split|].
    + apply Rle_trans with 1; [change 1 with (pow2 0); apply pow2_le; lia|lra].
    + apply Rle_trans with (pow2 40); [apply Rle_trans with 1099511627776; [lra|right; unfold pow2; cbn; lra]|apply pow2_le; lia].
    + rewrite D2. lra.
  - rewrite Rabs_pos_eq by lra. apply Rle_trans with (1099511627776 * (1 * 11825)); [lra|]. apply Rmult_le_compat; lra.
  - rewrite Rabs_pos_eq by lra. apply Rle_trans with (1099511627776 * (11825 * 11825)); [lra|]. apply Rmult_le_compat_r; lra.
Qed.

(** the sum of the squares of the coins is constant *)
Definition fairZ : moms ZN := mkM (N := ZN) 0%Z 1%Z 0%Z 1%Z 0%Z 1%Z.
Definition coinsZ : ureal2 ZN := mkU2 (N := ZN) (mkHG (N := ZN) [(1%Z, mkD (N := ZN) 0%Z 100000380000361%Z (Some fairZ)); (2%Z, mkD (N := ZN) 0%Z 1002001%Z (Some fairZ))] []) 0%Z.
Lemma coins_double : w2_var coins_world 4%nat = cu (N := ZN) (M := DN) dofZ coinsZ.
Proof. apply (cu_inj (M := SN) sf sf_inj). vm_compute. reflexivity. Qed.
Lemma coins_exact : u2_m (exactly (w2_var coins_world 4%nat)) 2 = Ret 0.
Proof.
  assert (E : exactly (w2_var coins_world 4%nat) = cu (N := ZN) (M := RN) IZR coinsZ).
  { unfold exactly. rewrite convert_cu by exact (var_ok no_eig coins coins_world coins_legal coins_run 4). rewrite coins_double, cu_comp.
    unfold cu, chg, ckd, ckt, cd, moms_convert, coinsZ, fairZ. cbn [u2hg u2mu diagmap trimap map fst snd dgrad dhh dmom option_map v3 v4 v5 v6 v7 v8]. reals. reflexivity. }
  rewrite E, (m_map (N := ZN) (M := RN) IZR ZN_ring). replace (u2_m coinsZ 2) with (Ret (A := ZN) 0%Z) by (vm_compute; reflexivity). reflexivity.
Qed.

Lemma C82_deviation_refuted_proof : exists eig (cs : list (call2 DN)) w, legal2 cs /\ run2 eig w2_init cs = Ret w /\
  (forall v mu s m t, In (ENewStd v mu s m t) cs -> realizable (moms_convert (N := DN) (M := RN) real_of m)) /\
  exists v, let x := w2_var w v in ordinary x /\
  exists m s k, u2_m x 2 = Ret m /\ finite m /\ real_of m < 0 /\ u2_s x = Ret s /\ is_nan s = true /\ u2_skew x = Ret k /\ is_nan k = true /\ u2_m (exactly x) 2 = Ret 0.
Proof.
  exists no_eig, coins, coins_world. split; [exact coins_legal|]. split; [exact coins_run|]. split.
  { intros v mu s m t H. repeat (destruct H as [H|H]; [first [discriminate H|injection H; intros; subst; exact fair_realizable]|]). destruct H. }
  exists 4%nat. cbv zeta. split; [exact coins_ordinary|].
  set (x := w2_var coins_world 4%nat).
  let v := eval vm_compute in (sfo (u2_m (w2_var coins_world 4%nat) 2)) in match v with Some ?f => destruct (sfo_ret (u2_m x 2) f) as (m & Em & Vm); [vm_compute; reflexivity|] end.
  destruct (sfo_ret (u2_s x) S754_nan) as (s & Es & Vs); [vm_compute; reflexivity|].
  destruct (sfo_ret (u2_skew x) S754_nan) as (k & Ek & Vk); [vm_compute; reflexivity|].
  exists m, s, k. split; [exact Em|]. split; [unfold finite; rewrite <- is_finite_SF_B2SF, Vm; reflexivity|].
  split; [rewrite real_SF, Vm; unfold SF2R, F2R; cbn -[IZR Rmult Rinv]; lra|].
  split; [exact Es|]. split; [now apply sf_nan|]. split; [exact Ek|]. split; [now apply sf_nan|exact coins_exact].
Qed.
