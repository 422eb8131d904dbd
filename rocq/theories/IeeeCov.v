(** * IeeeCov: accuracy of covariances and correlations on doubles (C61-C63) *)

From Coq Require Import List ZArith Reals Bool Lra Lia Psatz.
From Flocq Require Import Core Relative Plus_error BinarySingleNaN.
From Verif Require Import Base Num Map UReal World URealFacts SpecLin SpecObs URealProofs URealProofs2 Ieee IeeeFacts SpecIeee
  SpecIeee2 IeeeProofs IeeeProofs2 IeeeProofs3 IeeeProofs4.
Import ListNotations.
Local Open Scope R_scope.

(** ** cov is a sum over the common variables *)
Definition dfold (l : list (double * double)) (acc : double) : double :=
  fold_left (fun a p => dadd a (dmul (fst p) (snd p))) l acc.
Definition pairs (xs ys : list (Z * double)) : list (double * double) :=
  flat_map (fun a => map (fun b => (snd a, snd b)) (filter (fun b => (fst a =? fst b)%Z) ys)) xs.

Lemma klt_lt (a b : Z) : klt a b -> (a < b)%Z.
Proof. unfold klt; cbn. apply Z.compare_lt_iff. Qed.
Lemma pairs_cons i (v : double) xs ys : pairs ((i, v) :: xs) ys =
  map (fun b => (v, snd b)) (filter (fun b => (i =? fst b)%Z) ys) ++ pairs xs ys.
Proof. reflexivity. Qed.
Lemma pairs_nil_r xs : pairs xs [] = [].
Proof. induction xs; [reflexivity|]. exact IHxs. Qed.
Lemma filter_above (k : Z) (ys : list (Z * double)) : (forall j, In j (map fst ys) -> (k < j)%Z) ->
  filter (fun b : Z * double => (k =? fst b)%Z) ys = [].
Proof.
  induction ys as [|[j v] ys IH]; intro H; [reflexivity|]. cbn [filter fst].
  destruct (Z.eqb_spec k j) as [->|NE]; [specialize (H j (or_introl eq_refl)); lia|]. apply IH. intros i Hi. apply H. now right.
Qed.
Lemma pairs_skip_r xs j (w : double) ys : (forall i, In i (map fst xs) -> (j < i)%Z) -> pairs xs ((j, w) :: ys) = pairs xs ys.
Proof.
  induction xs as [|[i v] xs IH]; intro H; [reflexivity|]. unfold pairs. cbn [flat_map]. fold (pairs xs ((j, w) :: ys)) (pairs xs ys).
  rewrite IH by (intros k Hk; apply H; now right). f_equal. cbn [filter fst].
  destruct (Z.eqb_spec i j) as [->|NE]; [specialize (H j (or_introl eq_refl)); lia|]. reflexivity.
Qed.

Lemma cov_loop_pairs xs : forall ys acc, msorted xs -> msorted ys -> @u_cov_loop DN xs ys acc = dfold (pairs xs ys) acc.
Proof.
  induction xs as [|[i v] xs IHx]; intros ys acc Sx Sy.
  - destruct ys; reflexivity.
  - destruct (msorted_inv _ _ _ Sx) as [Sx' Hx]. revert acc. induction ys as [|[j w] ys IHy]; intro acc.
    + rewrite pairs_nil_r. reflexivity.
    + destruct (msorted_inv _ _ _ Sy) as [Sy' Hy]. cbn [u_cov_loop].
      assert (LX : forall k, In k (map fst xs) -> (i < k)%Z) by (intros k Hk; apply klt_lt; now apply Hx).
      assert (LY : forall k, In k (map fst ys) -> (j < k)%Z) by (intros k Hk; apply klt_lt; now apply Hy).
      destruct (Z.leb_spec i j) as [L1|L1]; [destruct (Z.leb_spec j i) as [L2|L2]|].
      * assert (i = j) by lia. subst j. rewrite Z.eqb_refl. rewrite IHx by assumption.
        unfold pairs at 2. cbn [flat_map]. fold (pairs xs ((i, w) :: ys)). rewrite pairs_skip_r by exact LX.
        cbn [filter fst]. rewrite Z.eqb_refl. rewrite filter_above by exact LY. reflexivity.
      * destruct (Z.eqb_spec i j); [lia|]. rewrite IHx by assumption.
        unfold pairs at 2. cbn [flat_map]. fold (pairs xs ((j, w) :: ys)). cbn [filter fst].
        destruct (Z.eqb_spec i j); [lia|]. rewrite filter_above; [reflexivity|]. intros k Hk. specialize (LY k Hk). lia.
      * destruct (Z.eqb_spec i j); [lia|]. specialize (IHy Sy' acc). cbn [u_cov_loop] in IHy. rewrite IHy.
        rewrite pairs_skip_r; [reflexivity|]. intros k [<-|Hk]; [exact L1|]. specialize (LX k Hk). lia.
Qed.

Lemma pairs_find_r xs k (w : double) acc : msorted xs ->
  dfold (pairs xs [(k, w)]) acc = match mfind k xs with Some v => dadd acc (dmul v w) | None => acc end.
Proof.
  intro S. induction xs as [|[i v] xs IH]; [reflexivity|]. destruct (msorted_inv _ _ _ S) as [S' H].
  assert (L : forall j, In j (map fst xs) -> (i < j)%Z) by (intros j Hj; now apply klt_lt, H).
  rewrite pairs_cons. cbn [filter fst].
  destruct (Z.eqb_spec i k) as [->|NE].
  - rewrite pairs_skip_r, pairs_nil_r by exact L. rewrite (In_mfind _ _ _ S (or_introl eq_refl)). reflexivity.
  - cbn [map app]. rewrite IH by exact S'.
    assert (E : mfind k ((i, v) :: xs) = mfind k xs).
    { destruct (mfind k xs) as [a|] eqn:E.
      - apply In_mfind; [exact S|]. right. now apply mfind_In in E.
      - apply mfind_None_iff; [exact S|]. intros [F|F]; [cbn in F; congruence|]. revert F. now apply mfind_None_iff. }
    rewrite E. reflexivity.
Qed.
Lemma pairs_find_l ys k (v : double) acc : msorted ys ->
  dfold (pairs [(k, v)] ys) acc = match mfind k ys with Some w => dadd acc (dmul v w) | None => acc end.
Proof.
  intro S. unfold pairs. cbn [flat_map fst snd]. rewrite app_nil_r.
  induction ys as [|[i w] ys IH]; [reflexivity|]. destruct (msorted_inv _ _ _ S) as [S' H].
  assert (L : forall j, In j (map fst ys) -> (i < j)%Z) by (intros j Hj; now apply klt_lt, H).
  cbn [filter fst]. destruct (Z.eqb_spec k i) as [->|NE].
  - rewrite filter_above by exact L. rewrite (In_mfind _ _ _ S (or_introl eq_refl)). reflexivity.
  - rewrite IH by exact S'.
    assert (E : mfind k ((i, w) :: ys) = mfind k ys).
    { destruct (mfind k ys) as [a|] eqn:E.
      - apply In_mfind; [exact S|]. right. now apply mfind_In in E.
      - apply mfind_None_iff; [exact S|]. intros [F|F]; [cbn in F; congruence|]. revert F. now apply mfind_None_iff. }
    rewrite E. reflexivity.
Qed.

Lemma cov_common last (x y : ureal DN) : wf last x -> wf last y -> u_cov x y = dfold (common x y) dzero.
Proof.
  intros Wx Wy. unfold u_cov, common. fold (pairs (cells x) (cells y)). unfold cells.
  assert (Sx := wf_sorted _ _ Wx). assert (Sy := wf_sorted _ _ Wy).
  destruct (Z.ltb_spec 0 (uid x)) as [X|X], (Z.ltb_spec 0 (uid y)) as [Y|Y]; cbn [andb].
  - unfold pairs. cbn [flat_map filter fst]. destruct (Z.eqb_spec (uid x) (uid y)) as [E|NE]; reflexivity.
  - destruct (Z.ltb_spec (uid x) 0); [lia|]. cbn [andb]. destruct (Z.ltb_spec (uid y) 0); cbn [andb].
    + rewrite pairs_find_l by exact Sy. reflexivity.
    + rewrite pairs_nil_r. reflexivity.
  - destruct (Z.ltb_spec (uid x) 0); cbn [andb].
    + rewrite pairs_find_r by exact Sx. reflexivity.
    + reflexivity.
  - destruct (Z.ltb_spec (uid x) 0); cbn [andb].
    + destruct (Z.ltb_spec (uid y) 0); cbn [andb]; [now apply cov_loop_pairs|rewrite pairs_nil_r; reflexivity].
    + reflexivity.
Qed.

(** ** Error of a sum of products *)
Lemma nearest_pm r : exists e t, Rabs e <= ur /\ Rabs t <= pow2 (-1075) /\ nearest r = r * (1 + e) + t.
Proof.
  destruct (error_N_FLT radix2 (-1074) 53 eq_refl (fun x => negb (Z.even x)) r) as (e & t & He & Ht & _ & E).
  exists e, t. split; [|split; [|exact E]].
  - replace ur with (/ 2 * bpow radix2 (- (53) + 1)); [exact He|]. symmetry. unfold uround, pow2. change (-53)%Z with ((-1) + (-(53) + 1))%Z. rewrite bpow_plus. reflexivity.
  - replace (pow2 (-1075)) with (/ 2 * bpow radix2 (-1074)); [exact Ht|]. symmetry. unfold pow2. change (-1075)%Z with ((-1) + (-1074))%Z. rewrite bpow_plus. reflexivity.
Qed.
Lemma nearest_sum (a b : double) : exists e, Rabs e <= ur /\ nearest (real_of a + real_of b) = (real_of a + real_of b) * (1 + e).
Proof.
  destruct (FLT_plus_error_N_ex radix2 (-1074) 53 (fun x => negb (Z.even x)) (real_of a) (real_of b) (B2R_format a) (B2R_format b)) as (e & He & E).
  exists e. split; [|exact E]. eapply Rle_trans; [exact He|]. assert (U := ur_small).
  assert (Eu : u_ro radix2 53 = ur). { symmetry. unfold u_ro, uround, pow2. change (-53)%Z with ((-1) + (-(53) + 1))%Z. rewrite bpow_plus. reflexivity. }
  rewrite Eu. apply Rmult_le_reg_r with (1 + ur); [lra|]. unfold Rdiv. rewrite Rmult_assoc, Rinv_l by lra. nra.
Qed.
Lemma nearest_bound e r : (-1074 <= e)%Z -> Rabs r <= pow2 e -> Rabs (nearest r) <= pow2 e.
Proof.
  intros He H. unfold nearest. apply abs_round_le_generic; [apply FLT_exp_valid; reflexivity|apply valid_rnd_N| |exact H].
  apply generic_format_bpow. unfold FLT_exp. lia.
Qed.
Lemma fits r : Rabs r <= pow2 1023 -> no_overflow r.
Proof. intro H. unfold no_overflow. apply Rle_lt_trans with (pow2 1023); [apply nearest_bound; [lia|exact H]|]. apply bpow_lt. lia. Qed.

Lemma step_cov (acc c d : double) (S A : R) k : (Z.of_nat k <= 2147483648)%Z ->
  finite acc -> finite c -> finite d -> Rabs S <= A ->
  Rabs (real_of acc - S) <= ((1 + ur) ^ (k + 1) - 1) * A + INR k * pow2 (-1074) ->
  A + Rabs (real_of c * real_of d) <= pow2 1020 ->
  finite (dadd acc (dmul c d)) /\
  Rabs (real_of (dadd acc (dmul c d)) - (S + real_of c * real_of d)) <=
    ((1 + ur) ^ (k + 2) - 1) * (A + Rabs (real_of c * real_of d)) + INR (k + 1) * pow2 (-1074).
Proof.
  intros Hk Fa Fc Fd HS HE HO. assert (U := ur_small).
  set (q := real_of c * real_of d) in *. set (g := (1 + ur) ^ (k + 1)) in *.
  assert (Q0 := Rabs_pos q). assert (S0 := Rabs_pos S).
  assert (P20 := pow2_pos 1020).
  assert (T : pow2 1023 = 8 * pow2 1020) by (replace 8 with (pow2 3) by reflexivity; rewrite <- pow2_add; reflexivity).
  assert (Te : pow2 (-1074) = 2 * pow2 (-1075)) by (change 2 with (pow2 1); rewrite <- pow2_add; reflexivity).
  assert (E0 := pow2_pos (-1075)).
  assert (E1 : pow2 (-1074) <= pow2 0 / 1000000000000). 
  { apply Rle_trans with (pow2 (-60)); [apply pow2_le; lia|]. unfold pow2. cbn. lra. }
  assert (P1 : 1 <= pow2 1020) by (change 1 with (pow2 0); apply pow2_le; lia).
  change (pow2 0) with 1 in E1.
  assert (Li : INR (k + 1) * ur <= / 4).
  { rewrite INR_IZR_INZ. assert (G : IZR (Z.of_nat (k + 1)) <= 2147483649) by (apply IZR_le; lia).
    assert (Ue : ur = / 9007199254740992) by reflexivity. rewrite Ue. lra. }
  assert (G1 : 1 <= g) by apply pow_up. assert (G3 : g <= 3) by (apply pow_exp; lra).
  assert (Lk : 0 <= INR k <= 2147483648). { split; [apply pos_INR|]. rewrite INR_IZR_INZ. apply IZR_le. lia. }
  assert (Gs : (1 + ur) ^ (k + 2) = (1 + ur) * g). { unfold g. replace (k + 2)%nat with (Datatypes.S (k + 1)) by lia. reflexivity. }
  rewrite Gs. rewrite plus_INR in *. change (INR 1) with 1 in *.
  destruct (dmul_round c d Fc Fd) as [Ft Et]; [apply fits; fold q; lra|]. fold q in Et. set (t := dmul c d) in *.
  destruct (nearest_pm q) as (e & h & He & Hh & Eq). rewrite Eq in Et.
  assert (B1 : Rabs (real_of acc + real_of t - (S + q)) <= (g - 1) * A + INR k * pow2 (-1074) + ur * Rabs q + pow2 (-1075)).
  { replace (real_of acc + real_of t - (S + q)) with ((real_of acc - S) + (q * e + h)) by (rewrite Et; ring).
    eapply Rle_trans; [apply Rabs_triang|]. assert (X := Rabs_triang (q * e) h). rewrite Rabs_mult in X.
    assert (Rabs q * Rabs e <= ur * Rabs q) by nra. lra. }
  set (s := real_of acc + real_of t) in *.
  assert (A0 : 0 <= A) by lra.
  assert (Ks : INR k * pow2 (-1074) <= 1) by nra.
  assert (B2 : Rabs s <= Rabs (S + q) + ((g - 1) * A + INR k * pow2 (-1074) + ur * Rabs q + pow2 (-1075))).
  { replace s with ((S + q) + (s - (S + q))) by ring. eapply Rle_trans; [apply Rabs_triang|]. lra. }
  assert (B3 : Rabs (S + q) <= A + Rabs q) by (eapply Rle_trans; [apply Rabs_triang|lra]).
  destruct (dadd_round acc t Fa Ft) as [Fs Es]; [apply fits; fold s; nra|]. fold s in Es. split; [exact Fs|].
  rewrite Es. destruct (nearest_sum acc t) as (e' & He' & Eq'). fold s in Eq'. rewrite Eq'.
  replace (s * (1 + e') - (S + q)) with ((s - (S + q)) + s * e') by ring.
  eapply Rle_trans; [apply Rabs_triang|]. rewrite Rabs_mult.
  assert (X : Rabs s * Rabs e' <= ur * Rabs s) by (assert (Y := Rabs_pos s); nra).
  set (D := (g - 1) * A + INR k * pow2 (-1074) + ur * Rabs q + pow2 (-1075)) in *.
  apply Rle_trans with (D + ur * (A + Rabs q + D)); [nra|]. unfold D.
  assert (Lk1 : (1 + ur) * (INR k + / 2) <= INR k + 1) by nra.
  assert (Gq : (1 + ur) * ur + ur <= (1 + ur) * g - 1).
  { assert (1 + ur <= g). { unfold g. rewrite Nat.add_1_r. cbn [pow]. assert (Y := pow_up k). nra. } nra. }
  apply Rle_trans with (((1 + ur) * g - 1) * A + ((1 + ur) * ur + ur) * Rabs q + (1 + ur) * (INR k + / 2) * pow2 (-1074)).
  - rewrite Te. apply Req_le. field.
  - rewrite Te in *. nra.
Qed.

Lemma sum_abs_nonneg l : 0 <= sum_abs l.
Proof. induction l as [|p l IH]; [cbn; lra|]. change (0 <= Rabs (real_of (fst p) * real_of (snd p)) + sum_abs l). assert (Q := Rabs_pos (real_of (fst p) * real_of (snd p))). lra. Qed.
Lemma sum_prod_abs l : Rabs (sum_prod l) <= sum_abs l.
Proof.
  induction l as [|p l IH]; [cbn; rewrite Rabs_R0; lra|].
  change (Rabs (real_of (fst p) * real_of (snd p) + sum_prod l) <= Rabs (real_of (fst p) * real_of (snd p)) + sum_abs l).
  eapply Rle_trans; [apply Rabs_triang|]. lra.
Qed.

Lemma fold_cov l : forall (acc : double) (S A : R) k, (Z.of_nat (k + List.length l) <= 2147483648)%Z ->
  finite acc -> finite_pairs l -> Rabs S <= A ->
  Rabs (real_of acc - S) <= ((1 + ur) ^ (k + 1) - 1) * A + INR k * pow2 (-1074) ->
  A + sum_abs l <= pow2 1020 ->
  finite (dfold l acc) /\
  Rabs (real_of (dfold l acc) - (S + sum_prod l)) <=
    ((1 + ur) ^ (k + List.length l + 1) - 1) * (A + sum_abs l) + INR (k + List.length l) * pow2 (-1074).
Proof.
  induction l as [|[c d] l IH]; intros acc S A k Hk Fa F HS HE HO.
  - cbn in *. rewrite Nat.add_0_r, !Rplus_0_r in *. auto.
  - inversion F as [|? ? [Fc Fd] Fl]; subst. cbn [fst snd] in *.
    assert (El : (k + List.length ((c, d) :: l) = (k + 1) + List.length l)%nat) by (cbn; lia). rewrite El in *.
    change (sum_abs ((c, d) :: l)) with (Rabs (real_of c * real_of d) + sum_abs l) in *.
    change (sum_prod ((c, d) :: l)) with (real_of c * real_of d + sum_prod l).
    change (dfold ((c, d) :: l) acc) with (dfold l (dadd acc (dmul c d))).
    assert (N := sum_abs_nonneg l).
    destruct (step_cov acc c d S A k) as [F1 B1]; [lia|assumption..|lra|].
    rewrite <- !Rplus_assoc in *. apply IH; try assumption.
    + eapply Rle_trans; [apply Rabs_triang|]. lra.
    + replace (k + 1 + 1)%nat with (k + 2)%nat by lia. exact B1.
Qed.

Lemma filter_one k (ys : list (Z * double)) : msorted ys -> (List.length (filter (fun b : Z * double => (k =? fst b)%Z) ys) <= 1)%nat.
Proof.
  induction ys as [|[j w] ys IH]; intro S; [cbn; lia|]. destruct (msorted_inv _ _ _ S) as [S' H]. cbn [filter fst].
  destruct (Z.eqb_spec k j) as [->|NE]; [|auto]. rewrite filter_above; [cbn; lia|]. intros i Hi. now apply klt_lt, H.
Qed.
Lemma pairs_length xs ys : msorted ys -> (List.length (pairs xs ys) <= List.length xs)%nat.
Proof.
  intro S. induction xs as [|[i v] xs IH]; [cbn; lia|]. rewrite pairs_cons, app_length, map_length. cbn [List.length].
  assert (H := filter_one i ys S). lia.
Qed.
Lemma cells_sorted last x : wf last x -> msorted (cells x).
Proof.
  intro W. unfold cells. destruct (0 <? uid x)%Z; [|destruct (uid x <? 0)%Z; [apply (wf_sorted _ _ W)|constructor]].
  constructor; [constructor|constructor].
Qed.
Lemma coefs_cells x : coefs x = map snd (cells x).
Proof. unfold coefs, cells. destruct (0 <? uid x)%Z; [reflexivity|]. destruct (uid x <? 0)%Z; reflexivity. Qed.

Lemma common_length last x y : wf last x -> wf last y -> (0 <= last < maxid)%Z ->
  (List.length (common x y) <= List.length (coefs x))%nat /\ (Z.of_nat (List.length (coefs x)) <= 2147483648)%Z.
Proof.
  intros Wx Wy B. assert (K := keys_count last x Wx (proj1 B)). unfold maxid in B. split; [|lia].
  rewrite coefs_cells, map_length. apply (pairs_length (cells x) (cells y)), (cells_sorted last y Wy).
Qed.

Lemma C61_covariance_accuracy_proof : forall w, dreachable w -> forall u v,
  let x := w_var w u in let y := w_var w v in let l := common x y in let n := List.length l in
  finite_pairs l -> sum_abs l <= pow2 1020 ->
  finite (u_cov x y) /\
  Rabs (real_of (u_cov x y) - sum_prod l) <= ((1 + uround) ^ (n + 1) - 1) * sum_abs l + INR n * pow2 (-1074).
Proof.
  intros w Rw u v x y l n F O. destruct (dreach_wwf w Rw) as [[Pl W] B].
  assert (Wx := W u). assert (Wy := W v). fold x in Wx. fold y in Wy.
  destruct (common_length _ x y Wx Wy (conj Pl B)) as [L1 L2]. fold l in L1.
  rewrite (cov_common _ _ _ Wx Wy). fold l.
  destruct (fold_cov l dzero 0 0 0) as [Ff Bf]; auto.
  - cbn [Nat.add]. lia.
  - reflexivity.
  - rewrite Rabs_R0. lra.
  - change (real_of dzero) with 0. rewrite Rminus_0_r, Rabs_R0. cbn. lra.
  - lra.
  - rewrite !Rplus_0_l in Bf. split; [exact Ff|exact Bf].
Qed.
