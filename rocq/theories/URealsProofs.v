(** * URealsProofs: generation of correlated variables (C19, C20) *)

From Coq Require Import List ZArith Bool Reals Lra Lia.
From Verif Require Import Base Num Map UReal World Sums SpecLin SpecObs URealFacts URealR URealProofs.
From Verif Require Import Stat StatProofs UReals SpecLDLT.
Import ListNotations.
Local Open Scope R_scope.

(** ** generic lemmas *)

Lemma omapM_Ret {A B : Type} (f : A -> outcome B) (g : A -> B) l :
  (forall a, In a l -> f a = Ret (g a)) -> omapM f l = Ret (map g l).
Proof.
  induction l as [|a l IH]; intro H; [reflexivity|]. cbn. rewrite H by now left. cbn.
  rewrite IH; [reflexivity|]. intros; apply H; now right.
Qed.
Lemma omapM_ext {A B : Type} (f g : A -> outcome B) l :
  (forall a, In a l -> f a = g a) -> omapM f l = omapM g l.
Proof.
  induction l as [|a l IH]; intro H; [reflexivity|]. cbn. rewrite H by now left.
  destruct (g a); [|reflexivity..]. cbn. rewrite IH; [reflexivity|]. intros; apply H; now right.
Qed.

Lemma lower_indices_spec n p : In p (lower_indices n) <-> (snd p <= fst p < n)%nat.
Proof.
  unfold lower_indices. rewrite in_flat_map. split.
  - intros (j & Hj & Hp). apply in_map_iff in Hp as (i & <- & Hi).
    apply in_seq in Hi. apply in_seq in Hj. cbn. lia.
  - destruct p as [i j]; cbn. intro H. exists j. split; [apply in_seq; lia|].
    apply in_map_iff. exists i. split; [reflexivity|apply in_seq; lia].
Qed.

Lemma ureals_V_ok (N : Num) n (cov : list N) : length cov = (n * n)%nat ->
  ureals_V n cov = Ret (map (fun ij => (ij, nth (fst ij + n * snd ij) cov n0)) (lower_indices n)).
Proof.
  intro H. apply omapM_Ret. intros [i j] Hin. apply lower_indices_spec in Hin. cbn [fst snd] in *.
  unfold buf_get. rewrite (nth_error_nth' cov n0) by (rewrite H; nia). reflexivity.
Qed.

Lemma size_check (m n : nat) :
  (if negb (n =? 0)%nat then negb (m mod n =? 0)%nat || negb (m / n =? n)%nat else negb (m =? 0)%nat)
  = negb (m =? n * n)%nat.
Proof.
  destruct (Nat.eqb_spec n 0) as [->|Hn]; cbn [negb].
  - reflexivity.
  - destruct (Nat.eqb_spec m (n * n)) as [->|Hm]; cbn [negb].
    + rewrite Nat.mod_mul, Nat.div_mul by assumption. now rewrite (Nat.eqb_refl n).
    + destruct (Nat.eqb_spec (m mod n) 0) as [E1|E1]; cbn [negb orb]; [|reflexivity].
      destruct (Nat.eqb_spec (m / n) n) as [E2|E2]; cbn [negb]; [|reflexivity].
      exfalso. apply Hm. rewrite (Nat.div_mod m n Hn), E1, E2. lia.
Qed.

(** ** permutation by transpositions *)

Lemma nth_error_ext {A : Type} (l1 : list A) : forall l2,
  (forall i, nth_error l1 i = nth_error l2 i) -> l1 = l2.
Proof.
  induction l1 as [|a l1 IH]; intros [|b l2] H; auto.
  - specialize (H 0%nat). discriminate.
  - specialize (H 0%nat). discriminate.
  - f_equal; [specialize (H 0%nat); now injection H|]. apply IH. intro i. exact (H (S i)).
Qed.

Lemma swap_ok {A : Type} a b (l : list A) : (a < length l)%nat -> (b < length l)%nat ->
  exists l', swap a b l = Ret l' /\ length l' = length l /\
    forall i, nth_error l' i = nth_error l (transpose a b i).
Proof.
  intros Ha Hb. unfold swap, buf_get.
  destruct (nth_error l a) as [x|] eqn:Ex; [|apply nth_error_None in Ex; lia].
  destruct (nth_error l b) as [y|] eqn:Ey; [|apply nth_error_None in Ey; lia]. cbn [bind].
  destruct (buf_set_Ret a y l Ha) as (l1 & E1 & L1 & F1). rewrite E1. cbn [bind].
  destruct (buf_set_Ret b x l1) as (l2 & E2 & L2 & F2); [lia|]. rewrite E2.
  exists l2. split; [reflexivity|]. split; [lia|]. intro i. rewrite F2, F1. unfold transpose.
  destruct (Nat.eqb_spec i a) as [->|Ea].
  - destruct (Nat.eqb_spec a b) as [->|]; congruence.
  - destruct (Nat.eqb_spec i b) as [->|Eb]; congruence.
Qed.

Lemma transpose_lt a b i n : (a < n)%nat -> (b < n)%nat -> (i < n)%nat -> (transpose a b i < n)%nat.
Proof. intros. unfold transpose. destruct (Nat.eqb i a), (Nat.eqb i b); lia. Qed.
Lemma transpose_invol a b i : transpose a b (transpose a b i) = i.
Proof.
  unfold transpose. destruct (Nat.eqb_spec i a) as [->|Ea].
  - destruct (Nat.eqb_spec b a) as [->|]; [reflexivity|]. now rewrite Nat.eqb_refl.
  - destruct (Nat.eqb_spec i b) as [->|Eb].
    + now rewrite Nat.eqb_refl.
    + apply Nat.eqb_neq in Ea. apply Nat.eqb_neq in Eb. now rewrite Ea, Eb.
Qed.

Definition tr (T : nat -> nat) (ks : list nat) (i : nat) : nat :=
  fold_right (fun k r => transpose k (T k) r) i ks.

Lemma swaps_ok {A : Type} T n (ks : list nat) : forall l : list A, length l = n ->
  (forall k, In k ks -> (k < n)%nat /\ (T k < n)%nat) ->
  exists l', ofold (fun l k => swap k (T k) l) ks l = Ret l' /\ length l' = n /\
    forall i, nth_error l' i = nth_error l (tr T ks i).
Proof.
  induction ks as [|k ks IH]; intros l L H; cbn.
  - eauto.
  - destruct (H k (or_introl eq_refl)) as [H1 H2].
    destruct (swap_ok k (T k) l) as (l1 & E1 & L1 & F1); [lia..|]. rewrite E1. cbn.
    destruct (IH l1) as (l2 & E2 & L2 & F2); [lia|intros; apply H; now right|]. exists l2. split; [exact E2|].
    split; [exact L2|]. intro i. rewrite F2, F1. reflexivity.
Qed.

Lemma ofold_map {A B C : Type} (f : A -> C -> outcome A) (g : B -> C) l : forall a,
  ofold f (map g l) a = ofold (fun a b => f a (g b)) l a.
Proof.
  induction l as [|b l IH]; intro a; cbn; [reflexivity|].
  destruct (f a (g b)); cbn; auto.
Qed.

Lemma permute_ok {A : Type} T n (l : list A) : length l = n -> (forall k, (k < n)%nat -> (T k < n)%nat) ->
  exists l', ureals_permute T n l = Ret l' /\ length l' = n /\
    forall i, nth_error l' i = nth_error l (tr T (rev (seq 0 n)) i).
Proof.
  intros L H. unfold ureals_permute.
  rewrite <- seq_shift, <- map_rev, ofold_map.
  destruct (swaps_ok T n (rev (seq 0 n)) l L) as (l' & E & L' & F).
  { intros k Hk. apply in_rev, in_seq in Hk. split; [lia|apply H; lia]. }
  exists l'. split; [|auto]. rewrite <- E.
  clear. generalize (rev (seq 0 n)) as ks. intro ks. revert l.
  induction ks as [|k ks IH]; intro l; cbn; [reflexivity|].
  rewrite Nat.sub_0_r. destruct (swap k (T k) l); cbn; auto.
Qed.

Lemma tr_app T ks1 ks2 i : tr T (ks1 ++ ks2) i = tr T ks1 (tr T ks2 i).
Proof. apply fold_right_app. Qed.
Lemma tr_rev T ks : forall i, tr T ks (tr T (rev ks) i) = i.
Proof.
  induction ks as [|k ks IH]; intro i; cbn [rev]; [reflexivity|].
  rewrite tr_app. transitivity (transpose k (T k) (tr T ks (tr T (rev ks) (transpose k (T k) i)))); [reflexivity|].
  rewrite IH. apply transpose_invol.
Qed.
Lemma tr_lt T n ks : (forall k, In k ks -> (k < n)%nat /\ (T k < n)%nat) -> forall i, (i < n)%nat ->
  (tr T ks i < n)%nat.
Proof.
  induction ks as [|k ks IH]; intros H i Hi; cbn; [exact Hi|].
  destruct (H k (or_introl eq_refl)). apply transpose_lt; auto. apply IH; auto.
  intros; apply H; now right.
Qed.

(** ** the independent variables *)

Lemma ureals_x_ok D (m : nat) : forall k last x, (0 <= last)%Z -> (last + Z.of_nat m < maxid)%Z ->
  (forall i, (k <= i < k + m)%nat -> 0 <= D i) ->
  exists x', ureals_x (N := RN) D (seq k m) last x = ((last + Z.of_nat m)%Z, Ret (x ++ x')) /\
    x' = map (fun i => mkU (last + 1 + Z.of_nat (i - k)) (sqrt (D i)) 0 [] : ureal RN) (seq k m).
Proof.
  induction m as [|m IH]; intros k last x Hl Hm HD.
  - exists []. cbn. rewrite Z.add_0_r, app_nil_r. auto.
  - cbn [seq ureals_x nleb RN n0]. destruct (Rleb_spec 0 (D k)) as [_|F]; [|exfalso; apply F, HD; lia].
    unfold u_new. cbn [nltb RN n0 nsqrt usdev].
    destruct (Rltb_spec (sqrt (D k)) 0) as [F|_]; [exfalso; assert (K := sqrt_pos (D k)); lra|].
    assert (W : wrap32 (last + 1) = (last + 1)%Z).
    { unfold wrap32, maxid in *. rewrite Z.mod_small; lia. }
    rewrite W.
    destruct (IH (S k) (last + 1)%Z (x ++ [mkU (last + 1) (sqrt (D k)) 0 []])) as (x' & E & Ex); [lia..| |].
    { intros; apply HD; lia. }
    exists (mkU (last + 1) (sqrt (D k)) 0 [] :: x'). split.
    + etransitivity; [exact E|]. f_equal; [lia|]. now rewrite <- app_assoc.
    + cbn [map]. f_equal.
      * f_equal. lia.
      * rewrite Ex. apply map_ext_in. intros i Hi. apply in_seq in Hi. f_equal. lia.
Qed.

(** coefficient of the k-th new variable for id [i] *)
Definition fresh_coef (last : Z) (D : nat -> R) (k : nat) (i : Z) : R :=
  if Z.eq_dec i (last + 1 + Z.of_nat k) then sqrt (D k) else 0.

Lemma fresh_rep last n D k : (0 <= last)%Z -> (k < n)%nat ->
  rep (last + Z.of_nat n) (mkU (last + 1 + Z.of_nat k) (sqrt (D k)) 0 [] : ureal RN)
      (lin_fresh (last + 1 + Z.of_nat k) 0 (sqrt (D k))).
Proof.
  intros Hl Hk. eapply rep_mono; [|].
  2:{ replace (last + 1 + Z.of_nat k)%Z with ((last + Z.of_nat k) + 1)%Z by lia.
      apply rep_new; [lia|apply sqrt_pos]. }
  lia.
Qed.

Section Row.
  Variables (last : Z) (n : nat) (D : nat -> R) (L : nat -> nat -> R).
  Hypothesis (Hl : (0 <= last)%Z) (Hn : (last + Z.of_nat n < maxid)%Z).
  Let x := map (fun i => mkU (last + 1 + Z.of_nat (i - 0)) (sqrt (D i)) 0 [] : ureal RN) (seq 0 n).

  Lemma x_nth k : (k < n)%nat ->
    nth_error x k = Some (mkU (last + 1 + Z.of_nat k) (sqrt (D k)) 0 []).
  Proof.
    intro Hk. unfold x. erewrite map_nth_error; [|].
    2:{ rewrite (nth_error_nth' _ 0%nat) by now rewrite seq_length. now rewrite seq_nth. }
    cbn. now rewrite Nat.sub_0_r.
  Qed.

  Lemma row_loop i (j : nat) : forall k y a, rep (last + Z.of_nat n) y a -> l_mean a = 0 -> (k + j <= n)%nat ->
    exists y' a', ofold (fun y j => xj <- buf_get j x;;
                                 p <- u_mul (u_const (N := RN) (L i j)) xj;;
                                 Ret (u_add_assign false y p)) (seq k j) y = Ret y' /\
      rep (last + Z.of_nat n) y' a' /\ l_mean a' = 0 /\
      forall id, l_coef a' id = l_coef a id + rsum (seq k j) (fun k => L i k * fresh_coef last D k id).
  Proof.
    induction j as [|j IH]; intros k y a Ry My Hk.
    - exists y, a. cbn. split; [reflexivity|]. split; [exact Ry|]. split; [exact My|]. intro; ring.
    - cbn [seq ofold]. unfold buf_get at 1. rewrite x_nth by lia. cbn [bind].
      destruct (rep_binary (last + Z.of_nat n) (u_const (N := RN) (L i k))
                  (mkU (last + 1 + Z.of_nat k) (sqrt (D k)) 0 []) _ _ (L i k * 0) 0 (L i k) (L i k * 0) 0 (L i k)
                  (rep_const _ _) (fresh_rep last n D k Hl ltac:(lia)) ltac:(lia) eq_refl eq_refl eq_refl)
        as (p & Ep & Rp).
      unfold u_mul. cbn [umu u_const nmul RN]. unfold RN in Ep. fold RN in Ep. rewrite Ep. cbn [bind].
      pose proof (rep_assign_gen (last + Z.of_nat n) false y p _ _ (umu y + umu p) 1 1
                    (l_mean a + (L i k * 0)) 1 1 Ry Rp ltac:(discriminate)) as Ra.
      specialize (Ra ltac:(rewrite (rep_mean _ _ _ Ry), (rep_mean _ _ _ Rp); reflexivity) eq_refl eq_refl).
      destruct (IH (S k) _ _ Ra) as (y' & a' & E' & R' & M' & C').
      + cbn. rewrite My. ring.
      + lia.
      + exists y', a'. split; [exact E'|]. split; [exact R'|]. split; [exact M'|].
        intro id. rewrite C'. cbn [rsum lin_binary l_coef lin_number lin_fresh]. unfold fresh_coef at 2.
        ring.
  Qed.

  Lemma row_ok i : (i < n)%nat ->
    exists y a, ureals_row (N := RN) L x i = Ret y /\ rep (last + Z.of_nat n) y a /\ l_mean a = 0 /\
      forall id, l_coef a id = rsum (seq 0 n) (fun k => unit_lower L i k * fresh_coef last D k id).
  Proof.
    intro Hi. unfold ureals_row.
    destruct (row_loop i i 0 u_default _ (rep_default _) eq_refl) as (y & a & E & Ry & My & C); [lia|].
    rewrite E. cbn [bind]. unfold buf_get. rewrite x_nth by assumption. cbn [bind].
    pose proof (rep_assign_gen (last + Z.of_nat n) false y _ _ _ (umu y + 0) 1 1 (l_mean a + 0) 1 1 Ry
                  (fresh_rep last n D i Hl Hi) ltac:(discriminate)) as Ra.
    specialize (Ra ltac:(rewrite (rep_mean _ _ _ Ry); reflexivity) eq_refl eq_refl).
    eexists _, _. split; [reflexivity|]. split; [exact Ra|]. split; [cbn; rewrite My; ring|].
    intro id. cbn [lin_binary l_coef lin_fresh]. rewrite C. cbn [lin_number l_coef].
    replace n with (i + S (n - S i))%nat by lia. rewrite seq_app, rsum_app. cbn [Nat.add seq rsum].
    rewrite (rsum_zero (seq (S i) _)).
    2:{ intros k Hk. apply in_seq in Hk. unfold unit_lower.
        destruct (Nat.ltb_spec k i); [lia|]. destruct (Nat.eqb_spec k i); [lia|]. ring. }
    rewrite (rsum_ext (seq 0 i) (fun k => unit_lower L i k * fresh_coef last D k id) (fun k => L i k * fresh_coef last D k id)).
    2:{ intros k Hk. apply in_seq in Hk. unfold unit_lower. destruct (Nat.ltb_spec k i); [|lia]. reflexivity. }
    unfold unit_lower. rewrite Nat.ltb_irrefl, Nat.eqb_refl.
    change (if Z.eq_dec id (last + 1 + Z.of_nat i) then sqrt (D i) else 0) with (fresh_coef last D i id). rring.
  Qed.
End Row.

(** covariance of two linear forms over the new variables *)
Lemma fresh_cov last n (D : nat -> R) (u v : nat -> R) a b : (0 <= last)%Z ->
  (forall k, (k < n)%nat -> 0 <= D k) ->
  (forall id, l_coef a id = rsum (seq 0 n) (fun k => u k * fresh_coef last D k id)) ->
  (forall id, l_coef b id = rsum (seq 0 n) (fun k => v k * fresh_coef last D k id)) ->
  lin_cov (last + Z.of_nat n) a b = rsum (seq 0 n) (fun k => u k * D k * v k).
Proof.
  intros Hl HD Ha Hb. unfold lin_cov, sum_ids.
  rewrite (rsum_ext _ _ (fun id => rsum (seq 0 n) (fun k => rsum (seq 0 n)
     (fun k' => (u k * fresh_coef last D k id) * (v k' * fresh_coef last D k' id))))).
  2:{ intros id _. rewrite Ha, Hb. apply rsum_mult. }
  rewrite rsum_swap. apply rsum_ext. intros k Hk. apply in_seq in Hk.
  rewrite rsum_swap. rewrite (rsum_single Nat.eq_dec _ _ k).
  - fold (sum_ids (last + Z.of_nat n) (fun id => u k * fresh_coef last D k id * (v k * fresh_coef last D k id))).
    rewrite (sum_one _ (last + 1 + Z.of_nat k)).
    + unfold fresh_coef. destruct (Z.eq_dec _ _) as [_|F]; [|lia].
      assert (E := sqrt_sqrt (D k) (HD k ltac:(lia))).
      transitivity (u k * (sqrt (D k) * sqrt (D k)) * v k); [ring|]. rewrite E. ring.
    + lia.
    + intros id Hid. unfold fresh_coef. destruct (Z.eq_dec _ _) as [F|_]; [lia|]. ring.
  - apply seq_NoDup.
  - apply in_seq; lia.
  - intros k' Hk' Hne. apply rsum_zero. intros id _. unfold fresh_coef.
    destruct (Z.eq_dec id (last + 1 + Z.of_nat k)), (Z.eq_dec id (last + 1 + Z.of_nat k')); try lia; ring.
Qed.

(** a linear form over older variables is uncorrelated with one over the new ones *)
Lemma fresh_cov_old last n (D : nat -> R) (u : nat -> R) a b : (0 <= last)%Z ->
  (forall id, l_coef a id = rsum (seq 0 n) (fun k => u k * fresh_coef last D k id)) ->
  (forall id, (last < id)%Z -> l_coef b id = 0) ->
  lin_cov (last + Z.of_nat n) a b = 0.
Proof.
  intros Hl Ha Hb. apply rsum_zero. intros id _. destruct (Z_lt_le_dec last id) as [H|H].
  - rewrite Hb by assumption. ring.
  - rewrite Ha. rewrite rsum_zero; [ring|]. intros k Hk. unfold fresh_coef.
    destruct (Z.eq_dec _ _); [lia|]. ring.
Qed.

(** ** shift *)

Lemma shift_ok lst mu n : forall m k (l : list (ureal RN)) (as_ : nat -> lin),
  (k + m = n)%nat -> length l = n -> length mu = n ->
  (forall i, (i < n)%nat -> exists y, nth_error l i = Some y /\ rep lst y (as_ i) /\
      l_mean (as_ i) = if Nat.ltb i k then nth i mu 0 else 0) ->
  exists l', ofold (fun l i => y <- buf_get i l;; m <- buf_get i mu;;
                      buf_set i (u_add_assign false y (u_const m)) l) (seq k m) l = Ret l' /\
    length l' = n /\
    forall i, (i < n)%nat -> exists y a, nth_error l' i = Some y /\ rep lst y a /\
      l_mean a = nth i mu 0 /\ forall id, l_coef a id = l_coef (as_ i) id.
Proof.
  induction m as [|m IH]; intros k l as_ Hk Ll Lm H.
  - exists l. split; [reflexivity|]. split; [exact Ll|]. intros i Hi.
    destruct (H i Hi) as (y & E & Ry & My). exists y, (as_ i).
    destruct (Nat.ltb_spec i k); [|lia]. auto.
  - cbn [seq ofold]. destruct (H k) as (y & E & Ry & My); [lia|].
    rewrite Nat.ltb_irrefl in My. unfold buf_get at 1. rewrite E. cbn [bind].
    unfold buf_get at 1. rewrite (nth_error_nth' mu 0) by lia. cbn [bind].
    pose proof (rep_assign_gen lst false y _ _ _ (umu y + nth k mu 0) 1 1 (nth k mu 0) 1 1 Ry
                  (rep_const lst (nth k mu 0)) ltac:(discriminate)) as Ra.
    specialize (Ra ltac:(rewrite (rep_mean _ _ _ Ry), My; rring) eq_refl eq_refl).
    match goal with |- context [buf_set k ?z l] => destruct (buf_set_Ret k z l) as (l1 & E1 & L1 & F1) end; [lia|].
    rewrite E1. cbn [bind].
    destruct (IH (S k) l1 (fun i => if Nat.eqb i k then lin_binary (as_ k) (lin_number (nth k mu 0)) (nth k mu 0) 1 1 else as_ i))
      as (l2 & E2 & L2 & F2); [lia|lia|exact Lm| |].
    + intros i Hi. rewrite F1. destruct (Nat.eqb_spec i k) as [->|Hne].
      * eexists; split; [reflexivity|]. split; [exact Ra|]. cbn [l_mean lin_binary].
        destruct (Nat.ltb_spec k (S k)); [reflexivity|lia].
      * destruct (H i Hi) as (y' & E' & R' & M'). exists y'. split; [exact E'|]. split; [exact R'|].
        rewrite M'. destruct (Nat.ltb_spec i k), (Nat.ltb_spec i (S k)); try lia; reflexivity.
    + exists l2. split; [exact E2|]. split; [exact L2|]. intros i Hi.
      destruct (F2 i Hi) as (y' & a' & E' & R' & M' & C'). exists y', a'. do 3 (split; [assumption|]).
      intro id. rewrite C'. destruct (Nat.eqb_spec i k) as [->|]; [cbn; ring|reflexivity].
Qed.

Lemma omapM_rows {A : Type} (f : nat -> outcome A) (P : nat -> A -> Prop) m : forall k,
  (forall i, (k <= i < k + m)%nat -> exists y, f i = Ret y /\ P i y) ->
  exists l, omapM f (seq k m) = Ret l /\ length l = m /\
    forall i, (i < m)%nat -> exists y, nth_error l i = Some y /\ P (k + i)%nat y.
Proof.
  induction m as [|m IH]; intros k H.
  - exists []. cbn. repeat split; auto; lia.
  - cbn. destruct (H k) as (y & E & Py); [lia|]. rewrite E. cbn.
    destruct (IH (S k)) as (l & El & Ll & Fl); [intros; apply H; lia|]. rewrite El. cbn.
    exists (y :: l). split; [reflexivity|]. split; [cbn; lia|].
    intros [|i] Hi; cbn.
    + exists y. rewrite Nat.add_0_r. auto.
    + destruct (Fl i) as (z & Ez & Pz); [lia|]. exists z. split; [exact Ez|].
      now replace (k + S i)%nat with (S k + i)%nat by lia.
Qed.

(** ** main lemma *)

Definition mat (n : nat) (cov : list R) (i j : nat) : R := nth (n * i + j) cov 0.

Lemma ureals_main eigen last mu cov :
  let n := length mu in
  (0 <= last)%Z -> (last + Z.of_nat n < maxid)%Z -> (0 < n)%nat ->
  length cov = (n * n)%nat ->
  forall V, ureals_V n cov = Ret V ->
  ld_ok (eigen n V) = true -> ld_pos (eigen n V) = true ->
  decomposes n (mat n cov) (eigen n V) ->
  exists out, ureals eigen last mu cov = ((last + Z.of_nat n)%Z, Ret out) /\ length out = n /\
    exists g, (forall i, (i < n)%nat -> rep (last + Z.of_nat n) (nth i out u_default) (g i) /\
                l_mean (g i) = nth i mu 0) /\
      (forall i j, (i < n)%nat -> (j < n)%nat ->
         lin_cov (last + Z.of_nat n) (g i) (g j) = mat n cov i j) /\
      (forall i b, (i < n)%nat -> (forall id, (last < id)%Z -> l_coef b id = 0) ->
         lin_cov (last + Z.of_nat n) (g i) b = 0).
Proof.
  intros n Hl Hn Hpos HL V EV Hok Hps (HT & HD & HA). unfold ureals. fold n.
  rewrite size_check, HL, Nat.eqb_refl. cbn [negb].
  destruct (Nat.eqb_spec n 0) as [F|_]; [lia|]. rewrite EV, Hok, Hps. cbn [negb].
  destruct (ureals_x_ok (ld_D (eigen n V)) n 0 last []) as (x & Ex & Dx); [lia..| |].
  { intros i Hi. apply HD. lia. }
  rewrite Ex. cbn [app bind]. set (d := eigen n V) in *.
  assert (Hrows := fun i Hi => row_ok last n (ld_D d) (ld_L d) Hl Hn i Hi). cbn zeta in Hrows.
  rewrite <- Dx in Hrows.
  destruct (omapM_rows (ureals_row (ld_L d) x)
     (fun i y => exists a, rep (last + Z.of_nat n) y a /\ l_mean a = 0 /\
        forall id, l_coef a id = rsum (seq 0 n) (fun k => unit_lower (ld_L d) i k * fresh_coef last (ld_D d) k id)) n 0)
    as (l1 & E1 & L1 & F1).
  { intros i Hi. destruct (Hrows i) as (y & a & Ey & Ry & My & Cy); [lia|]. exists y. split; [exact Ey|]. eauto. }
  rewrite E1. cbn [bind].
  destruct (permute_ok (ld_T d) n l1 L1 HT) as (l2 & E2 & L2 & F2). rewrite E2. cbn [bind].
  set (rho := tr (ld_T d) (rev (seq 0 n))) in *.
  assert (Hrho : forall i, (i < n)%nat -> (rho i < n)%nat).
  { apply tr_lt. intros k Hk. apply in_rev, in_seq in Hk. split; [lia|apply HT; lia]. }
  (* choose the linear forms of the rows *)
  assert (Hg : forall i, (i < n)%nat -> exists y, nth_error l2 i = Some y /\
     exists a, rep (last + Z.of_nat n) y a /\ l_mean a = 0 /\
        forall id, l_coef a id = rsum (seq 0 n) (fun k => unit_lower (ld_L d) (rho i) k * fresh_coef last (ld_D d) k id)).
  { intros i Hi. rewrite F2. exact (F1 (rho i) (Hrho i Hi)). }
  set (form := fun i => mkLin 0 (fun id => match nth_error l2 i with Some y => In id (ukeys y) | None => False end)
     (fun id => rsum (seq 0 n) (fun k => unit_lower (ld_L d) (rho i) k * fresh_coef last (ld_D d) k id))).
  destruct (shift_ok (last + Z.of_nat n) mu n n 0 l2 form) as (l3 & E3 & L3 & F3); auto.
  { intros i Hi. destruct (Hg i Hi) as (y & Ey & a & Ra & Ma & Ca). exists y. split; [exact Ey|].
    split; [|reflexivity]. destruct Ra as [R1 R2 R3 R4 R5]. split; auto.
    - cbn. now rewrite R3.
    - intro id. cbn. rewrite R4. apply Ca.
    - intro id. cbn. rewrite Ey. reflexivity. }
  exists l3. split; [f_equal; exact E3|]. split; [exact L3|].
  exists (fun i => mkLin (nth i mu 0) (fun id => In id (ukeys (nth i l3 u_default))) (l_coef (form i))).
  split; [|split].
  - intros i Hi. split; [|reflexivity]. destruct (F3 i Hi) as (y & a & Ey & Ra & Ma & Ca).
    rewrite (nth_error_nth _ _ _ Ey). destruct Ra as [R1 R2 R3 R4 R5]. split; auto.
    + cbn. now rewrite R3.
    + intro id. rewrite R4, Ca. reflexivity.
    + intro id. reflexivity.
  - intros i j Hi Hj.
    rewrite (fresh_cov last n (ld_D d) (unit_lower (ld_L d) (rho i)) (unit_lower (ld_L d) (rho j))); auto; [|reflexivity..].
    rewrite <- HA by auto. unfold row_of. fold (tr (ld_T d) (seq 0 n) (rho i)). fold (tr (ld_T d) (seq 0 n) (rho j)).
    unfold rho. now rewrite !tr_rev.
  - intros i b Hi Hb. eapply fresh_cov_old; eauto; reflexivity.
Qed.

(** ** C19 *)

Lemma C19_ureals_covariance_proof : forall eigen w (mu cov : list RN),
  let n := length mu in
  reachable w -> (w_last w + Z.of_nat n <= 2147483646)%Z -> (0 < n)%nat ->
  length cov = (n * n)%nat ->
  (forall i j, (i < n)%nat -> (j < n)%nat -> nth (n * i + j) cov 0 = nth (n * j + i) cov 0) ->
  (forall V, ureals_V n cov = Ret V ->
     ld_ok (eigen n V) = true /\ ld_pos (eigen n V) = true /\
     decomposes n (fun i j => nth (n * i + j) cov 0) (eigen n V)) ->
  exists out, ureals eigen (w_last w) mu cov = ((w_last w + Z.of_nat n)%Z, Ret out) /\
    nom_vector out = mu /\ cov_matrix out = Ret cov /\
    forall x t, In x out -> u_cov x (w_var w t) = 0.
Proof.
  intros eigen w mu cov n Rw Hn Hpos HL Hsym Hd.
  destruct (reachable_wrep w Rw) as (sw & (E & P & H) & B).
  rewrite ureals_V_ok in Hd by exact HL. destruct (Hd _ eq_refl) as (H1 & H2 & H3).
  destruct (ureals_main eigen (w_last w) mu cov) with (V := map (fun ij => (ij, nth (fst ij + n * snd ij) cov 0)) (lower_indices n))
    as (out & Eo & Lo & g & Hg & Hc & Ho); auto.
  { unfold maxid. fold n. lia. }
  { apply (ureals_V_ok RN); exact HL. }
  exists out. split; [exact Eo|]. split; [|split].
  - rewrite C17_nom_vector_proof. apply nth_ext with (d := u_n u_default) (d' := 0%R).
    + rewrite map_length. exact Lo.
    + rewrite map_length, Lo. intros i Hi. rewrite (map_nth u_n). destruct (Hg i Hi) as [Ri Mi].
      rewrite (rep_n _ _ _ Ri). exact Mi.
  - destruct (C17_cov_matrix_layout_proof RN out) as (V & EV & LV & FV). rewrite EV. f_equal.
    rewrite Lo in *. fold n in LV, FV.
    apply nth_ext with (d := 0) (d' := 0); [congruence|]. intros k Hk. rewrite LV in Hk.
    assert (Hn0 : n <> 0%nat) by lia.
    assert (Ek : k = (n * (k / n) + k mod n)%nat) by (apply Nat.div_mod; exact Hn0).
    assert (Lj : (k mod n < n)%nat) by (apply Nat.mod_upper_bound; exact Hn0).
    assert (Li : (k / n < n)%nat) by (apply Nat.div_lt_upper_bound; lia).
    rewrite Ek. generalize dependent (k / n)%nat. generalize dependent (k mod n)%nat.
    intros j Hj i _ Hi.
    assert (N1 : nth_error out i = Some (nth i out u_default)) by (apply nth_error_nth'; rewrite Lo; exact Hi).
    assert (N2 : nth_error out j = Some (nth j out u_default)) by (apply nth_error_nth'; rewrite Lo; exact Hj).
    etransitivity; [exact (nth_error_nth _ _ 0 (FV i j _ _ N1 N2))|].
    rewrite (rep_cov _ _ _ _ _ (proj1 (Hg i Hi)) (proj1 (Hg j Hj))). apply Hc; assumption.
  - intros x t Hx. apply (In_nth _ _ u_default) in Hx as (i & Hi & <-). rewrite Lo in Hi.
    rewrite (rep_cov (w_last w + Z.of_nat n) _ _ _ (s_var sw t) (proj1 (Hg i Hi))).
    2:{ eapply rep_mono; [|apply H]. lia. }
    apply Ho; [exact Hi|]. intros id Hid. rewrite <- (rep_coef _ _ _ (H t)).
    apply (coef_notin (w_last w)); [apply H|]. intro F.
    apply (wf_bound _ _ (rep_wf _ _ _ (H t))) in F. lia.
Qed.

(** ** C20 *)

Definition no_throw {A : Type} (o : outcome A) : Prop := forall e, o <> Throw e.

Lemma nt_bind {A B : Type} (o : outcome A) (f : A -> outcome B) :
  no_throw o -> (forall a, no_throw (f a)) -> no_throw (bind o f).
Proof. intros Ho Hf e. destruct o; cbn; try discriminate; [apply Hf|intro E; now apply (Ho e0)]. Qed.
Lemma nt_ret {A : Type} (a : A) : no_throw (Ret a).
Proof. intros e E. discriminate. Qed.
Lemma nt_get {A : Type} k (l : list A) : no_throw (buf_get k l).
Proof. unfold buf_get. intro e. destruct (nth_error l k); discriminate. Qed.
Lemma nt_set {A : Type} k (a : A) : forall l, no_throw (buf_set k a l).
Proof.
  induction k as [|k IH]; intros [|b l] e; cbn; try discriminate.
  apply nt_bind; [apply IH|intros; apply nt_ret].
Qed.
Lemma nt_ofold {A B : Type} (f : A -> B -> outcome A) l : (forall a b, no_throw (f a b)) ->
  forall a, no_throw (ofold f l a).
Proof.
  intro H. induction l as [|b l IH]; intro a; cbn; [apply nt_ret|]. apply nt_bind; auto.
Qed.
Lemma nt_omapM {A B : Type} (f : A -> outcome B) l : (forall a, no_throw (f a)) -> no_throw (omapM f l).
Proof.
  intro H. induction l as [|a l IH]; cbn; [apply nt_ret|]. apply nt_bind; [apply H|]. intro b.
  apply nt_bind; [apply IH|]. intro; apply nt_ret.
Qed.

Lemma nt_merge {N : Num} dx dy (xs : list (Z * N)) : forall ys z, no_throw (u_merge dx dy xs ys z).
Proof.
  induction xs as [|[xk xv] xs IHx]; intro ys; induction ys as [|[yk yv] ys IHy]; intros z.
  - apply nt_ret.
  - cbn. destruct (maxid <=? yk)%Z; [intros e E; discriminate|]. apply IHy.
  - cbn. destruct (xk <=? maxid)%Z; [|intros e E; discriminate].
    destruct (maxid <=? xk)%Z; [intros e E; discriminate|]. apply IHx.
  - cbn. destruct (xk <=? yk)%Z; [|apply IHy]. destruct (yk <=? xk)%Z; apply IHx.
Qed.
Lemma nt_binary {N : Num} (x y : ureal N) mu dx dy : no_throw (u_binary x y mu dx dy).
Proof.
  unfold u_binary. apply nt_bind; [|intro; apply nt_ret].
  destruct ((uid x <? 0)%Z && (uid y <? 0)%Z)%bool; [apply nt_merge|apply nt_ret].
Qed.
Lemma nt_row {N : Num} L (x : list (ureal N)) i : no_throw (ureals_row L x i).
Proof.
  unfold ureals_row. apply nt_bind.
  - apply nt_ofold. intros y j. apply nt_bind; [apply nt_get|]. intro. apply nt_bind; [apply nt_binary|].
    intro; apply nt_ret.
  - intro. apply nt_bind; [apply nt_get|]. intro; apply nt_ret.
Qed.
Lemma nt_permute {A : Type} T n (l : list A) : no_throw (ureals_permute T n l).
Proof.
  apply nt_ofold. intros a b. unfold swap.
  repeat (apply nt_bind; [apply nt_get|intro]). apply nt_bind; [apply nt_set|]. intro. apply nt_set.
Qed.
Lemma nt_shift {N : Num} (mu : list N) n l : no_throw (ureals_shift mu n l).
Proof.
  apply nt_ofold. intros a b. repeat (apply nt_bind; [apply nt_get|intro]). apply nt_set.
Qed.

Lemma nt_x D m : forall k last x, no_throw (snd (ureals_x (N := RN) D (seq k m) last x)).
Proof.
  induction m as [|m IH]; intros k last x; [apply nt_ret|].
  cbn [seq ureals_x nleb RN n0]. destruct (Rleb 0 (D k)); [|intros e E; discriminate].
  unfold u_new. cbn [nltb RN n0 nsqrt usdev].
  destruct (Rltb_spec (sqrt (D k)) 0) as [F|_]; [exfalso; assert (K := sqrt_pos (D k)); lra|]. apply IH.
Qed.

Lemma x_count D m : forall k last x x', (0 <= last)%Z -> (last + Z.of_nat m < maxid)%Z ->
  snd (ureals_x (N := RN) D (seq k m) last x) = Ret x' ->
  fst (ureals_x (N := RN) D (seq k m) last x) = (last + Z.of_nat m)%Z.
Proof.
  induction m as [|m IH]; intros k last x x' Hl Hm E; [cbn; lia|].
  revert E. cbn [seq ureals_x nleb RN n0]. destruct (Rleb 0 (D k)); [|discriminate].
  unfold u_new. cbn [nltb RN n0 nsqrt usdev].
  destruct (Rltb_spec (sqrt (D k)) 0) as [F|_]; [exfalso; assert (K := sqrt_pos (D k)); lra|].
  assert (W : wrap32 (last + 1) = (last + 1)%Z).
  { unfold wrap32, maxid in *. rewrite Z.mod_small; lia. }
  rewrite W. intro E. erewrite IH; [|lia|lia|exact E]. lia.
Qed.

Lemma C20_ureals_validates_proof : forall eigen last (mu cov : list RN),
  let n := length mu in
  let result := ureals eigen last mu cov in
  (snd result = Throw InvalidArgument <-> length cov <> (n * n)%nat) /\
  (snd result = Throw RuntimeError <->
     length cov = (n * n)%nat /\ (0 < n)%nat /\
     exists V, ureals_V n cov = Ret V /\ (ld_ok (eigen n V) = false \/ ld_pos (eigen n V) = false)) /\
  ((exists e, snd result = Throw e) -> fst result = last) /\
  (n = 0%nat -> cov = [] -> result = (last, Ret [])).
Proof.
  intros eigen last mu cov n result. unfold result, ureals. fold n. rewrite size_check.
  destruct (Nat.eqb_spec (length cov) (n * n)) as [HL|HL]; cbn [negb].
  - destruct (Nat.eqb_spec n 0) as [Hn|Hn].
    + cbn [snd fst]. split; [split; [discriminate|congruence]|].
      split; [split; [discriminate|lia]|]. split; [intros [e E]; reflexivity|reflexivity].
    + rewrite ureals_V_ok by exact HL.
      set (V := map _ _). destruct (ld_ok (eigen n V)) eqn:Ok; cbn [negb].
      * destruct (ld_pos (eigen n V)) eqn:Ps; cbn [negb].
        -- destruct (ureals_x (ld_D (eigen n V)) (seq 0 n) last []) as [last' ox] eqn:Ex. cbn [snd fst].
           assert (NT : no_throw (x <- ox;; out <- omapM (ureals_row (ld_L (eigen n V)) x) (seq 0 n);;
                          out <- ureals_permute (ld_T (eigen n V)) n out;; ureals_shift mu n out)).
           { apply nt_bind.
             - assert (K := nt_x (ld_D (eigen n V)) n 0 last []). rewrite Ex in K. exact K.
             - intro x. apply nt_bind; [apply nt_omapM; intro; apply nt_row|]. intro.
               apply nt_bind; [apply nt_permute|]. intro. apply nt_shift. }
           split; [split; [intro E; now apply NT in E|congruence]|].
           split.
           { split; [intro E; now apply NT in E|]. intros (_ & _ & V' & EV & [F|F]); injection EV as <-; congruence. }
           split; [intros [e E]; now apply NT in E|lia].
        -- cbn [snd fst]. split; [split; [discriminate|congruence]|].
           split; [split; [intros _|reflexivity]|split; [reflexivity|lia]].
           split; [exact HL|]. split; [lia|]. exists V. auto.
      * cbn [snd fst]. split; [split; [discriminate|congruence]|].
        split; [split; [intros _|reflexivity]|split; [reflexivity|lia]].
        split; [exact HL|]. split; [lia|]. exists V. auto.
  - cbn [snd fst]. split; [tauto|]. split; [split; [discriminate|tauto]|].
    split; [reflexivity|]. intros E ->. exfalso. apply HL. rewrite E. reflexivity.
Qed.

Lemma C20_ureals_ids_proof : forall eigen last (mu cov : list RN) out,
  (0 <= last)%Z -> (last + Z.of_nat (length mu) <= 2147483646)%Z ->
  snd (ureals eigen last mu cov) = Ret out ->
  fst (ureals eigen last mu cov) = (last + Z.of_nat (length mu))%Z.
Proof.
  intros eigen last mu cov out Hl Hn. unfold ureals. set (n := length mu) in *. rewrite size_check.
  destruct (negb _); [discriminate|].
  destruct (Nat.eqb_spec n 0) as [->|Hne]; [cbn; lia|].
  destruct (ureals_V n cov) as [V| | |]; try discriminate.
  destruct (negb (ld_ok _)); [discriminate|]. destruct (negb (ld_pos _)); [discriminate|].
  assert (K := x_count (ld_D (eigen n V)) n 0 last []).
  destruct (ureals_x (ld_D (eigen n V)) (seq 0 n) last []) as [last' ox]. cbn [fst snd] in *.
  intro E. destruct ox as [x| | |]; try discriminate. apply (K x); auto. unfold maxid. lia.
Qed.

Lemma C20_ureals_one_triangle_proof : forall (N : Num) eigen last (mu cov cov' : list N),
  length cov = length cov' ->
  (forall i j, (j <= i < length mu)%nat ->
     nth_error cov (i + length mu * j) = nth_error cov' (i + length mu * j)) ->
  ureals eigen last mu cov = ureals eigen last mu cov'.
Proof.
  intros N eigen last mu cov cov' HL H. unfold ureals. rewrite HL.
  replace (ureals_V (length mu) cov') with (ureals_V (length mu) cov); [reflexivity|].
  apply omapM_ext. intros [i j] Hin. apply lower_indices_spec in Hin. cbn [fst snd] in *.
  unfold buf_get. now rewrite H.
Qed.
