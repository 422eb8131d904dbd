(** * IeeeProofs4: accuracy of the standard deviation (C57) *)

From Coq Require Import List ZArith Reals Bool Lra Lia Psatz.
From Flocq Require Import Core Relative BinarySingleNaN.
From Verif Require Import Base Num Map UReal World URealFacts SpecLin SpecObs URealProofs URealProofs2 Ieee IeeeFacts SpecIeee IeeeProofs IeeeProofs2 IeeeProofs3.
Import ListNotations.
Local Open Scope R_scope.

Notation ur := uround.
Lemma ur_small : 0 < ur < / 1000. Proof. exact u_small. Qed.
Lemma nearest_nonneg r : 0 <= r -> 0 <= nearest r.
Proof. intro H. unfold nearest. apply round_ge_generic; [apply FLT_exp_valid; reflexivity|apply valid_rnd_N|apply generic_format_0|exact H]. Qed.
Lemma nearest_format (a : double) : nearest (real_of a) = real_of a.
Proof. unfold nearest. apply round_generic; [apply valid_rnd_N|apply B2R_format]. Qed.
Lemma nearest_ge e r : (-1074 <= e)%Z -> pow2 e <= r -> pow2 e <= nearest r.
Proof.
  intros He H. unfold nearest. apply round_ge_generic; [apply FLT_exp_valid; reflexivity|apply valid_rnd_N| |exact H].
  apply generic_format_bpow. unfold FLT_exp. lia.
Qed.
Lemma rel_pos r : pow2 (-1022) <= r -> (1 - ur) * r <= nearest r <= (1 + ur) * r.
Proof.
  intro H. assert (P := pow2_pos (-1022)). assert (E := rel_err r). rewrite Rabs_pos_eq in E by lra. specialize (E H).
  apply Rabs_le_inv in E. unfold uround. lra.
Qed.
Lemma pow_up n : 1 <= (1 + ur) ^ n. Proof. apply pow_R1_Rle. assert (U := ur_small). lra. Qed.
Lemma pow_dn n : 0 < (1 - ur) ^ n <= 1.
Proof. assert (U := ur_small). split; [apply pow_lt; lra|]. induction n as [|n IH]; cbn [pow]; [lra|]. assert (0 < (1 - ur) ^ n) by (apply pow_lt; lra). nra. Qed.
Lemma pow_exp n : INR n * ur <= 1 -> (1 + ur) ^ n <= 3.
Proof.
  intro H. assert (U := ur_small). apply Rle_trans with (exp (INR n * ur)).
  - clear H. induction n as [|n IH]; [cbn [INR pow]; rewrite Rmult_0_l, exp_0; lra|].
    rewrite S_INR, Rmult_plus_distr_r, Rmult_1_l, exp_plus. cbn [pow]. rewrite Rmult_comm.
    apply Rmult_le_compat; [assert (Q := pow_up n); lra|lra|exact IH|]. assert (Q := exp_ineq1 ur). lra.
  - eapply Rle_trans; [|exact exp_le_3]. destruct (Rle_lt_or_eq_dec _ _ H) as [L|E]; [left; now apply exp_increasing|rewrite E; lra].
Qed.

(** one step: acc + c * c *)
Lemma step_sq (acc c : double) (A : R) i : (1 <= i)%nat ->
  finite acc -> finite c -> (real_of c = 0 \/ pow2 (-511) <= Rabs (real_of c)) -> 0 <= A ->
  (1 - ur) ^ i * A <= real_of acc <= (1 + ur) ^ i * A ->
  (1 + ur) ^ S i * (A + real_of c * real_of c) <= pow2 1023 ->
  finite (dadd acc (dmul c c)) /\
  (1 - ur) ^ S i * (A + real_of c * real_of c) <= real_of (dadd acc (dmul c c)) <= (1 + ur) ^ S i * (A + real_of c * real_of c).
Proof.
  intros Hi Fa Fc Hc HA HB HO. assert (U := ur_small). assert (Ui := pow_up i). assert (Di := pow_dn i).
  assert (A0 : 0 <= real_of acc) by nra.
  set (q := real_of c * real_of c) in *. assert (Q0 : 0 <= q) by (unfold q; nra).
  assert (T3 : 2 * pow2 1023 = pow2 1024) by (change 2 with (pow2 1); rewrite <- pow2_add; reflexivity).
  assert (P3 := pow2_pos 1023).
  assert (US : (1 + ur) ^ S i = (1 + ur) * (1 + ur) ^ i) by reflexivity.
  assert (DS : (1 - ur) ^ S i = (1 - ur) * (1 - ur) ^ i) by reflexivity.
  assert (Up1 : 1 + ur <= (1 + ur) ^ i). { destruct i as [|j]; [lia|]. cbn [pow]. assert (Uj := pow_up j). nra. }
  assert (Dn1 : (1 - ur) ^ i <= 1 - ur). { destruct i as [|j]; [lia|]. cbn [pow]. assert (Dj := pow_dn j). nra. }
  assert (US1 := pow_up (S i)).
  assert (Lq : A + q <= pow2 1023).
  { apply Rle_trans with (1 * (A + q)); [lra|]. eapply Rle_trans; [apply Rmult_le_compat_r; [lra|exact US1]|exact HO]. }
  assert (Eq : (1 - ur) * q <= nearest q <= (1 + ur) * q /\ (q = 0 \/ pow2 (-1022) <= nearest q)).
  { destruct Hc as [Z|H].
    - assert (Zq : q = 0) by (unfold q; rewrite Z; ring). rewrite Zq. unfold nearest. rewrite round_0 by apply valid_rnd_N. split; [lra|now left].
    - assert (G : pow2 (-1022) <= q).
      { unfold q. replace (real_of c * real_of c) with (Rabs (real_of c) * Rabs (real_of c)) by (rewrite <- Rabs_mult; apply Rabs_pos_eq; nra).
        replace (-1022)%Z with (-511 + -511)%Z by reflexivity. rewrite pow2_add. assert (P := pow2_pos (-511)). nra. }
      split; [now apply rel_pos|]. right. apply nearest_ge; [lia|exact G]. }
  destruct Eq as [Eq Nq].
  destruct (dmul_round c c Fc Fc) as [Ft Et].
  { unfold no_overflow. fold q. rewrite Rabs_pos_eq by (apply nearest_nonneg; lra). nra. }
  fold q in Et. set (t := dmul c c) in *.
  set (r := real_of acc + real_of t).
  assert (Rr : (1 - ur) ^ i * (A + q) <= r <= (1 + ur) ^ i * (A + q)) by (unfold r; rewrite Et; nra).
  assert (Er : (1 - ur) * r <= nearest r <= (1 + ur) * r).
  { destruct Nq as [Zq|Nq].
    - assert (Er0 : r = real_of acc). { unfold r. rewrite Et, Zq. unfold nearest. rewrite round_0 by apply valid_rnd_N. ring. }
      rewrite Er0, nearest_format. nra.
    - apply rel_pos. unfold r. rewrite Et. lra. }
  assert (R0 : 0 <= r) by nra.
  destruct (dadd_round acc t Fa Ft) as [Fs Es].
  { unfold no_overflow. fold r. rewrite Rabs_pos_eq by (apply nearest_nonneg; lra). rewrite US in HO. nra. }
  fold r in Es. split; [exact Fs|]. rewrite Es, US, DS. nra.
Qed.
Lemma fold_sq l : forall (acc : double) A i, (1 <= i)%nat ->
  finite acc -> List.Forall (fun c => finite c /\ (real_of c = 0 \/ pow2 (-511) <= Rabs (real_of c))) l -> 0 <= A ->
  (1 - ur) ^ i * A <= real_of acc <= (1 + ur) ^ i * A ->
  (1 + ur) ^ (i + List.length l) * (A + sum_sq l) <= pow2 1023 ->
  let r := fold_left (fun (acc : double) (c : double) => dadd acc (dmul c c)) l acc in
  finite r /\ (1 - ur) ^ (i + List.length l) * (A + sum_sq l) <= real_of r <= (1 + ur) ^ (i + List.length l) * (A + sum_sq l).
Proof.
  assert (NN : forall l, 0 <= sum_sq l). { intro l0. induction l0; cbn; [lra|]. fold (sum_sq l0). nra. }
  induction l as [|c l IH]; intros acc A i Hi Fa F HA HB HO.
  - cbn in *. rewrite Nat.add_0_r, Rplus_0_r in *. auto.
  - inversion F as [|? ? [Fc Hc] Fl]; subst. cbn [fold_left].
    assert (Es : sum_sq (c :: l) = real_of c * real_of c + sum_sq l) by reflexivity. rewrite Es in *.
    assert (El : (i + List.length (c :: l) = S i + List.length l)%nat) by (cbn; lia). rewrite El in *.
    assert (U := ur_small). assert (Nl := NN l).
    assert (Q : 0 <= real_of c * real_of c) by nra.
    assert (Lt : (1 + ur) ^ S i * (A + real_of c * real_of c) <= pow2 1023).
    { eapply Rle_trans; [|exact HO]. apply Rmult_le_compat; [assert (G := pow_up (S i)); lra|lra| |lra]. apply Rle_pow; [lra|lia]. }
    destruct (step_sq acc c A i Hi Fa Fc Hc HA HB Lt) as [F1 B1].
    rewrite <- Rplus_assoc in *. apply (IH _ (A + real_of c * real_of c) (S i)); auto; try lia; lra.
Qed.
Lemma fold_snd (l : list (Z * double)) : forall acc : double,
  fold_left (fun (acc : double) (kv : Z * double) => dadd acc (dmul (snd kv) (snd kv))) l acc
  = fold_left (fun (acc : double) (c : double) => dadd acc (dmul c c)) (map snd l) acc.
Proof. induction l as [|[k v] l IH]; intro acc; [reflexivity|]. apply IH. Qed.

Lemma sum_sq_nonneg l : 0 <= sum_sq l.
Proof. induction l as [|c l IH]; [cbn; lra|]. change (0 <= real_of c * real_of c + sum_sq l). nra. Qed.
Lemma sum_sq_cases l : no_underflow l -> sum_sq l = 0 \/ pow2 (-1020) <= sum_sq l.
Proof.
  induction 1 as [|c l [Fc Hc] Hl IH]; [now left|]. change (sum_sq (c :: l)) with (real_of c * real_of c + sum_sq l).
  assert (N := sum_sq_nonneg l). destruct Hc as [Z|H].
  - rewrite Z, Rmult_0_l, Rplus_0_l. exact IH.
  - right. replace (real_of c * real_of c) with (Rabs (real_of c) * Rabs (real_of c)) by (rewrite <- Rabs_mult; apply Rabs_pos_eq; nra).
    replace (-1020)%Z with (-510 + -510)%Z by reflexivity. rewrite pow2_add. assert (P := pow2_pos (-510)). nra.
Qed.
Lemma keys_count last (z : ureal DN) : wf last z -> (0 <= last)%Z -> (List.length (coefs z) <= S (Z.to_nat last))%nat.
Proof.
  intros W Hl. unfold coefs. destruct (Z.ltb_spec 0 (uid z)); [cbn; lia|]. destruct (Z.ltb_spec (uid z) 0); [|cbn; lia].
  rewrite map_length. rewrite <- (map_length fst).
  apply Nat.le_trans with (List.length (ids last)); [|unfold ids; rewrite map_length, seq_length; lia].
  apply NoDup_incl_length; [apply msorted_NoDup, W|]. intros k Hk.
  assert (Bk := wf_bound _ _ W k). rewrite ukeys_neg in Bk by assumption. specialize (Bk Hk). unfold ids.
  apply in_map_iff. exists (Z.to_nat k). split; [lia|]. apply in_seq. lia.
Qed.
Lemma sqrt_d (a : double) : finite a -> 0 <= real_of a -> finite (dsqrt a) /\ real_of (dsqrt a) = nearest (sqrt (real_of a)).
Proof.
  intros F N. destruct (Bsqrt_correct 53 1024 prec53 emax1024 mode_NE a) as (R1 & R2 & _). split; [|exact R1].
  unfold finite, dsqrt. rewrite R2. destruct a as [s|s| |[|] m e Hm]; try reflexivity; try discriminate F.
  assert (real_of (B754_finite true m e Hm) < 0) by (apply F2R_lt_0; reflexivity). lra.
Qed.
Lemma sq_rel s r n : 0 <= r -> (1 - ur) * sqrt r <= s <= (1 + ur) * sqrt r -> forall S0, 0 <= S0 ->
  (1 - ur) ^ n * S0 <= r <= (1 + ur) ^ n * S0 -> (1 - ur) ^ (n + 2) * S0 <= s * s <= (1 + ur) ^ (n + 2) * S0.
Proof.
  intros Hr Hs S0 HS HB. assert (U := ur_small). assert (Q := sqrt_sqrt r Hr). assert (P := sqrt_pos r).
  assert (E1 : (1 - ur) * (1 - ur) * r <= s * s <= (1 + ur) * (1 + ur) * r).
  { rewrite <- Q. split.
    - replace ((1 - ur) * (1 - ur) * (sqrt r * sqrt r)) with (((1 - ur) * sqrt r) * ((1 - ur) * sqrt r)) by ring. apply Rmult_le_compat; nra.
    - replace ((1 + ur) * (1 + ur) * (sqrt r * sqrt r)) with (((1 + ur) * sqrt r) * ((1 + ur) * sqrt r)) by ring. apply Rmult_le_compat; nra. }
  rewrite !pow_add. replace ((1 - ur) ^ 2) with ((1 - ur) * (1 - ur)) by ring. replace ((1 + ur) ^ 2) with ((1 + ur) * (1 + ur)) by ring.
  assert (0 < (1 - ur) * (1 - ur)) by nra. assert (0 < (1 + ur) * (1 + ur)) by nra. nra.
Qed.
Lemma accurate_s2 (l : list double) : no_underflow l -> sum_sq l <= pow2 1020 -> (Z.of_nat (List.length l) <= 2147483648)%Z ->
  let r := fold_left (fun (acc : double) (c : double) => dadd acc (dmul c c)) l dzero in
  finite r /\ (1 - ur) ^ (1 + List.length l) * sum_sq l <= real_of r <= (1 + ur) ^ (1 + List.length l) * sum_sq l /\
  (1 + ur) ^ (1 + List.length l) <= 3 /\ / 2 <= (1 - ur) ^ (1 + List.length l).
Proof.
  intros Nu Sm Le. assert (U := ur_small).
  assert (Li : INR (1 + List.length l) * ur <= / 4).
  { rewrite INR_IZR_INZ. assert (G : IZR (Z.of_nat (1 + List.length l)) <= 2147483649) by (apply IZR_le; lia).
    assert (Ue : ur = / 9007199254740992) by reflexivity. rewrite Ue. lra. }
  assert (P3 : (1 + ur) ^ (1 + List.length l) <= 3) by (apply pow_exp; lra).
  assert (N := sum_sq_nonneg l).
  assert (T : pow2 1023 = 8 * pow2 1020) by (replace 8 with (pow2 3) by reflexivity; rewrite <- pow2_add; reflexivity).
  assert (F : List.Forall (fun c => finite c /\ (real_of c = 0 \/ pow2 (-511) <= Rabs (real_of c))) l).
  { revert Nu. apply List.Forall_impl. intros c [Fc [Z|H]]; split; auto. right. eapply Rle_trans; [apply (pow2_le (-511) (-510)); lia|exact H]. }
  destruct (fold_sq l dzero 0 1 (le_n 1) eq_refl F (Rle_refl 0)) as [Fr Br].
  - change (real_of dzero) with 0. rewrite !Rmult_0_r. lra.
  - rewrite Rplus_0_l. assert (Q := pow2_pos 1020). assert (G := pow_up (1 + List.length l)). nra.
  - rewrite Rplus_0_l in Br. split; [exact Fr|]. split; [exact Br|]. split; [exact P3|].
    assert (Bern : forall n, 1 - INR n * ur <= (1 - ur) ^ n).
    { induction n as [|n IH]; [cbn; lra|]. rewrite S_INR. cbn [pow]. assert (D := pow_dn n). assert (I0 := pos_INR n). nra. }
    specialize (Bern (1 + List.length l)%nat). lra.
Qed.
Lemma C57_accuracy_proof : forall cs w, dlegal cs -> List.Forall (fun c => self_assign c = false) cs ->
  run w_init cs = Ret w -> forall v, let x := w_var w v in let n := List.length (coefs x) in
  no_underflow (coefs x) -> sum_sq (coefs x) <= pow2 1020 ->
  finite (u_s x) /\ finite (u_var x) /\
  (1 - uround) ^ (n + 3) * sum_sq (coefs x) <= real_of (u_s x) * real_of (u_s x) <= (1 + uround) ^ (n + 3) * sum_sq (coefs x) /\
  (1 - uround) ^ (n + 4) * sum_sq (coefs x) <= real_of (u_var x) <= (1 + uround) ^ (n + 4) * sum_sq (coefs x).
Proof.
  intros cs w L NS E v x n Nu Sm. assert (Fr := wfresh_init cs w L NS E v). fold x in Fr.
  destruct (dreach_wwf w) as [[Pl W] B]; [now exists cs|]. specialize (W v). fold x in W.
  assert (Le : (Z.of_nat (List.length (coefs x)) <= 2147483648)%Z).
  { assert (K := keys_count (w_last w) x W Pl). unfold maxid in B. lia. }
  destruct (accurate_s2 (coefs x) Nu Sm Le) as (Fa & Ba & P3 & D2). assert (N := sum_sq_nonneg (coefs x)).
  assert (U := ur_small). fold n in Ba, P3, D2.
  assert (T3 : 8 * pow2 1020 = pow2 1023) by (replace 8 with (pow2 3) by reflexivity; rewrite <- pow2_add; reflexivity).
  assert (T4 : 2 * pow2 1023 = pow2 1024) by (change 2 with (pow2 1); rewrite <- pow2_add; reflexivity).
  assert (T5 : 4 * pow2 (-1022) = pow2 (-1020)) by (replace 4 with (pow2 2) by reflexivity; rewrite <- pow2_add; reflexivity).
  assert (Q0 := pow2_pos 1020). assert (Q1 := pow2_pos (-1022)).
  assert (Cs := sum_sq_cases (coefs x) Nu).
  assert (Mono : forall a b, (a <= b)%nat -> (1 + ur) ^ a <= (1 + ur) ^ b /\ (1 - ur) ^ b <= (1 - ur) ^ a).
  { intros a b Hab. split; [apply Rle_pow; [lra|exact Hab]|]. replace b with (a + (b - a))%nat by lia. rewrite pow_add.
    assert (D1 := pow_dn a). assert (D3 := pow_dn (b - a)). nra. }
  (* variance of a deviation d with d * d close to the sum *)
  assert (Var : forall d : double, finite d -> 0 <= real_of d * real_of d ->
    (1 - ur) ^ (n + 3) * sum_sq (coefs x) <= real_of d * real_of d <= (1 + ur) ^ (n + 3) * sum_sq (coefs x) ->
    finite (dmul d d) /\ (1 - ur) ^ (n + 4) * sum_sq (coefs x) <= real_of (dmul d d) <= (1 + ur) ^ (n + 4) * sum_sq (coefs x)).
  { intros d Fd D0 Hd.
    assert (U3 : (1 + ur) ^ (n + 3) <= 4).
    { replace (n + 3)%nat with ((1 + n) + 2)%nat by lia. rewrite pow_add. replace ((1 + ur) ^ 2) with ((1 + ur) * (1 + ur)) by ring.
      assert (G := pow_up (1 + n)). nra. }
    assert (D3 : / 4 <= (1 - ur) ^ (n + 3)).
    { replace (n + 3)%nat with ((1 + n) + 2)%nat by lia. rewrite pow_add. replace ((1 - ur) ^ 2) with ((1 - ur) * (1 - ur)) by ring. nra. }
    assert (G : (1 - ur) * (real_of d * real_of d) <= nearest (real_of d * real_of d) <= (1 + ur) * (real_of d * real_of d)).
    { destruct Cs as [Z|H].
      - rewrite Z, !Rmult_0_r in Hd. replace (real_of d * real_of d) with 0 by lra. unfold nearest. rewrite round_0 by apply valid_rnd_N. lra.
      - apply rel_pos. nra. }
    destruct (dmul_round d d Fd Fd) as [Fm Em].
    { unfold no_overflow. rewrite Rabs_pos_eq by (apply nearest_nonneg; lra). nra. }
    split; [exact Fm|]. rewrite Em. replace (n + 4)%nat with (S (n + 3)) by lia. cbn [pow]. nra. }
  destruct (Z.leb_spec 0 (uid x)) as [P|P].
  - assert (Ec : u_s x = dabs (usdev x) /\ u_var x = dmul (usdev x) (usdev x)).
    { unfold u_s, u_var. apply Z.leb_le in P. rewrite P. cbn [orb]. auto. }
    destruct Ec as [-> ->].
    assert (Sd : finite (usdev x) /\ real_of (usdev x) * real_of (usdev x) = sum_sq (coefs x)).
    { unfold coefs in Nu |- *. destruct (Z.ltb_spec 0 (uid x)).
      - inversion Nu as [|? ? [Fc _] _]; subst. split; [exact Fc|]. cbn. ring.
      - assert (Ux : uid x = 0%Z) by lia. rewrite Ux. cbn [Z.ltb Z.compare]. rewrite (wf_zero _ _ W Ux). split; [reflexivity|]. cbn. ring. }
    destruct Sd as [Fd Ed]. assert (Up := pow_up (n + 3)). assert (Dn := pow_dn (n + 3)).
    split; [unfold finite, dabs; now rewrite is_finite_Babs|].
    destruct (Var (usdev x) Fd) as [Fv Bv]; [rewrite Ed; exact N|rewrite Ed; nra|].
    split; [exact Fv|]. split; [|exact Bv].
    assert (Ea : real_of (dabs (usdev x)) * real_of (dabs (usdev x)) = sum_sq (coefs x)).
    { unfold real_of, dabs. rewrite B2R_Babs. rewrite <- Rabs_mult. unfold real_of in Ed. rewrite Ed. apply Rabs_pos_eq. exact N. }
    rewrite Ea. nra.
  - assert (Es2 : u_s2 x = fold_left (fun (acc : double) (c : double) => dadd acc (dmul c c)) (coefs x) dzero).
    { unfold coefs. destruct (Z.ltb_spec 0 (uid x)); [lia|]. destruct (Z.ltb_spec (uid x) 0); [|lia]. apply fold_snd. }
    rewrite <- Es2 in *. set (r := u_s2 x) in *.
    assert (R0 : 0 <= real_of r) by nra.
    destruct (sqrt_d r Fa R0) as [Fs Ess].
    assert (Rs : (1 - ur) * sqrt (real_of r) <= real_of (dsqrt r) <= (1 + ur) * sqrt (real_of r)).
    { rewrite Ess. destruct Cs as [Z|H].
      - rewrite Z, !Rmult_0_r in Ba. replace (real_of r) with 0 by lra. rewrite sqrt_0. unfold nearest. rewrite round_0 by apply valid_rnd_N. lra.
      - apply rel_pos. apply Rle_trans with (pow2 (-511)); [apply pow2_le; lia|].
        rewrite <- (sqrt_square (pow2 (-511))) by (left; apply pow2_pos). apply sqrt_le_1_alt. rewrite <- pow2_add. change (-511 + -511)%Z with (-1022)%Z. nra. }
    assert (Rsq := sq_rel (real_of (dsqrt r)) (real_of r) (1 + n) R0 Rs (sum_sq (coefs x)) N Ba).
    replace (1 + n + 2)%nat with (n + 3)%nat in Rsq by lia.
    assert (Us : u_s x = dsqrt r). { rewrite (fresh_s x Fr). destruct (Z.leb_spec 0 (uid x)); [lia|reflexivity]. }
    rewrite Us. split; [exact Fs|].
    assert (Uv : u_var x = dmul (dsqrt r) (dsqrt r) \/ u_var x = r).
    { unfold u_var. destruct (Z.leb_spec 0 (uid x)); [lia|]. cbn [orb]. destruct (nleb n0 (usdev x)) eqn:Nl; [|now right].
      left. destruct (Fr P) as [K|K]; rewrite K in *; [discriminate Nl|reflexivity]. }
    assert (Gv : finite (u_var x) /\ (1 - ur) ^ (n + 4) * sum_sq (coefs x) <= real_of (u_var x) <= (1 + ur) ^ (n + 4) * sum_sq (coefs x)).
    { destruct Uv as [-> | ->].
      - apply Var; [exact Fs|nra|exact Rsq].
      - split; [exact Fa|]. destruct (Mono (1 + n)%nat (n + 4)%nat ltac:(lia)) as [M1 M2]. nra. }
    destruct Gv as [Fv Bv]. split; [exact Fv|]. split; [exact Rsq|exact Bv].
Qed.
