(** * URealR: the model of UReal in real arithmetic refines SpecLin *)

From Coq Require Import List ZArith Bool Reals Lra Lia Sorted.
From Verif Require Import Base Num Map UReal World Sums SpecLin URealFacts.
Import ListNotations.
Local Open Scope R_scope.

(** [ring] on terms whose type is displayed as the carrier of [RN]. *)
Ltac rring :=
  cbn; change (T RN) with R in *;
  match goal with |- @eq _ ?a ?b => change (@eq R a b) end; ring.

Ltac nR := change (T RN) with R in *.

Ltac dopt := match goal with
  |- context [match ?e with Some _ => _ | None => _ end] => destruct e eqn:? end.

Definition coef (x : ureal RN) (i : Z) : R :=
  match ufind i x with Some v => v | None => 0 end.

(** The invariant of the cached standard deviation. *)
Definition cache_ok (x : ureal RN) : Prop :=
  (uid x < 0)%Z -> 0 <= usdev x -> usdev x * usdev x = u_s2 x.

Lemma s2_acc s : forall c,
  fold_left (fun acc (kv : Z * R) => acc + snd kv * snd kv) s c
  = c + fold_left (fun acc kv => acc + snd kv * snd kv) s 0.
Proof.
  induction s as [|[k v] s IH]; cbn; intro c; [ring|].
  rewrite IH, (IH (0 + v * v)). ring.
Qed.

Lemma klt_Z (a b : Z) : klt a b <-> (a < b)%Z.
Proof. unfold klt; cbn. apply Z.compare_lt_iff. Qed.

Lemma mget_head k v (s : list (Z * R)) : mget 0 k ((k, v) :: s) = v.
Proof. unfold mget; cbn. rewrite Z.compare_refl. reflexivity. Qed.

Lemma mget_tail k v (s : list (Z * R)) j : msorted ((k, v) :: s) -> In j (map fst s) ->
  mget 0 j ((k, v) :: s) = mget 0 j s.
Proof.
  intros S H. apply msorted_inv in S as [S L]. apply L in H. unfold klt in H.
  unfold mget; cbn [mfind]. rewrite (proj2 (kcmp_gt j k) H). reflexivity.
Qed.

Lemma mget_notin k (s : list (Z * R)) : msorted s -> ~ In k (map fst s) -> mget 0 k s = 0.
Proof. intros S H. unfold mget. now rewrite (proj2 (mfind_None_iff k s S) H). Qed.

Lemma s2_rsum_list (s : list (Z * R)) : msorted s ->
  fold_left (fun acc (kv : Z * R) => acc + snd kv * snd kv) s 0
  = rsum (map fst s) (fun k => mget 0 k s * mget 0 k s).
Proof.
  induction s as [|[k v] s IH]; cbn [fold_left map fst snd rsum]; intro S; [reflexivity|].
  rewrite s2_acc, IH by now apply msorted_inv in S.
  rewrite mget_head. f_equal; [ring|].
  apply rsum_ext. intros j Hj. now rewrite !(mget_tail k v s j S Hj).
Qed.

Lemma s2_mmap_list (s : list (Z * R)) (d : R) :
  fold_left (fun acc (kv : Z * R) => acc + snd kv * snd kv) (mmap (fun v => v * d) s) 0
  = d * d * fold_left (fun acc (kv : Z * R) => acc + snd kv * snd kv) s 0.
Proof.
  induction s as [|[k v] s IH]; cbn [fold_left mmap map fst snd]; [ring|].
  rewrite s2_acc, (s2_acc s (0 + v * v)). unfold mmap in IH. rewrite IH. ring.
Qed.

Lemma s2_rsum (x : ureal RN) : msorted (usigma x) ->
  u_s2 x = rsum (map fst (usigma x)) (fun k => mget 0 k (usigma x) * mget 0 k (usigma x)).
Proof. exact (s2_rsum_list (usigma x)). Qed.

Lemma cov_loop_nil_r xs c : u_cov_loop (N := RN) xs [] c = c.
Proof. destruct xs as [|[? ?] ?]; reflexivity. Qed.

Lemma cov_loop_rsum (xs : list (Z * R)) : forall (ys : list (Z * R)) (c : R), msorted xs -> msorted ys ->
  u_cov_loop (N := RN) xs ys c
  = c + rsum (map fst xs) (fun k => mget 0 k xs * mget 0 k ys).
Proof.
  induction xs as [|[xk xv] xs IHx]; intro ys; induction ys as [|[yk yv] ys IHy]; intros c Sx Sy.
  - rring.
  - rring.
  - rewrite cov_loop_nil_r.
    rewrite rsum_zero; [rring|]. intros k _. unfold mget at 2; rring.
  - destruct (msorted_inv _ _ _ Sx) as [Sx' Lx]. destruct (msorted_inv _ _ _ Sy) as [Sy' Ly].
    cbn -[mget map rsum].
    destruct (Z.leb_spec xk yk) as [Hle|Hgt].
    + destruct (Z.leb_spec yk xk) as [Hle2|Hlt].
      * assert (yk = xk) by lia; subst yk. rewrite Z.eqb_refl.
        rewrite IHx by assumption. cbn [map fst rsum]. rewrite !mget_head.
        rewrite <- Rplus_assoc. f_equal. apply rsum_ext. intros j Hj.
        rewrite (mget_tail xk xv xs j Sx Hj). f_equal.
        destruct (in_dec Z.eq_dec j (map fst ys)) as [Hy|Hy].
        { now rewrite (mget_tail xk yv ys j Sy Hy). }
        { rewrite !mget_notin; auto. cbn. intros [E|?]; [|contradiction].
          subst j. apply Lx in Hj. now apply klt_irrefl in Hj. }
      * destruct (Z.eqb_spec xk yk); [lia|].
        rewrite IHx by assumption. cbn [map fst rsum]. rewrite !mget_head.
        rewrite (mget_notin xk ((yk, yv) :: ys)) by
          (solve [assumption | cbn; intros [E|E]; [lia|apply Ly in E; rewrite klt_Z in E; lia]]).
        rewrite Rmult_0_r, Rplus_0_l. f_equal. apply rsum_ext. intros j Hj.
        now rewrite (mget_tail xk xv xs j Sx Hj).
    + destruct (Z.eqb_spec xk yk); [lia|].
      change ((fix inner (yit : list (Z * R)) (cov : R) {struct yit} : R :=
       match yit with
       | [] => cov
       | (yid, yv0) :: yit' =>
           if (xk <=? yid)%Z
           then
            if (yid <=? xk)%Z
            then u_cov_loop (N := RN) xs yit' (if (xk =? yid)%Z then cov + xv * yv0 else cov)
            else u_cov_loop (N := RN) xs yit (if (xk =? yid)%Z then cov + xv * yv0 else cov)
           else inner yit' (if (xk =? yid)%Z then cov + xv * yv0 else cov)
       end) ys c) with (u_cov_loop (N := RN) ((xk, xv) :: xs) ys c).
      rewrite IHy by assumption. f_equal. apply rsum_ext. intros j Hj.
      f_equal.
      assert (yk < j)%Z.
      { cbn in Hj. destruct Hj as [<-|Hj]; [lia|].
        apply Lx in Hj. rewrite klt_Z in Hj. lia. }
      unfold mget; cbn [mfind].
      assert (E : kcmp j yk = Gt) by (cbn; apply Z.compare_gt_iff; lia).
      now rewrite E.
Qed.

(** coefficients vanish outside the stored ids *)
Lemma coef_notin last (x : ureal RN) i : wf last x -> ~ In i (ukeys x) -> coef x i = 0.
Proof.
  intros W H. unfold coef. apply (ufind_None_keys i x last W) in H. now rewrite H.
Qed.

Lemma coef_pos (x : ureal RN) i : (0 < uid x)%Z -> coef x i = if (i =? uid x)%Z then usdev x else 0.
Proof.
  intro H. unfold coef, ufind. destruct (Z.ltb_spec 0 (uid x)); [|lia].
  destruct (i =? uid x)%Z; reflexivity.
Qed.
Lemma coef_neg x i : (uid x < 0)%Z -> coef x i = mget 0 i (usigma x).
Proof.
  intro H. unfold coef, ufind. destruct (Z.ltb_spec 0 (uid x)); [lia|].
  destruct (Z.ltb_spec (uid x) 0); [|lia]. reflexivity.
Qed.
Lemma coef_zero x i : uid x = 0%Z -> coef x i = 0.
Proof. intro H. unfold coef, ufind. rewrite H. reflexivity. Qed.

Lemma ids_In last i : In i (ids last) <-> (1 <= i <= last)%Z.
Proof.
  unfold ids. rewrite in_map_iff. split.
  - intros (n & <- & H). apply in_seq in H. lia.
  - intro H. exists (Z.to_nat i). rewrite in_seq. split; lia.
Qed.
Lemma ids_NoDup last : NoDup (ids last).
Proof. apply FinFun.Injective_map_NoDup; [intros ? ?; lia|apply seq_NoDup]. Qed.

(** A sum over the ids of [x] of something that vanishes elsewhere. *)
Lemma sum_keys last x f : wf last x -> (forall i, coef x i = 0 -> f i = 0) ->
  rsum (ukeys x) f = sum_ids last f.
Proof.
  intros W H. apply (rsum_support Z.eq_dec).
  - eapply wf_NoDup; eauto.
  - apply ids_NoDup.
  - intros i Hi Hn. apply (wf_bound _ _ W) in Hi. apply ids_In in Hi. contradiction.
  - intros i Hi Hn. apply H. eapply coef_notin; eauto.
Qed.

Lemma cov_sum last x y : wf last x -> wf last y ->
  u_cov x y = sum_ids last (fun i => coef x i * coef y i).
Proof.
  intros Wx Wy.
  rewrite <- (sum_keys last x) by (auto; intros i ->; ring).
  unfold u_cov. cbn [n0 RN].
  destruct (Z.ltb_spec 0 (uid x)); destruct (Z.ltb_spec (uid x) 0); try lia;
  destruct (Z.ltb_spec 0 (uid y)); destruct (Z.ltb_spec (uid y) 0); try lia; cbn [andb].
  - rewrite ukeys_pos by lia. cbn [rsum]. rewrite !coef_pos by lia. rewrite Z.eqb_refl.
    destruct (uid x =? uid y)%Z; rring.
  - rewrite ukeys_pos by lia. cbn [rsum]. rewrite coef_pos, coef_neg by lia. rewrite Z.eqb_refl.
    nR. unfold mget. dopt; rring.
  - rewrite ukeys_pos by lia. cbn [rsum]. rewrite (coef_zero y) by lia. rring.
  - nR. rewrite ukeys_neg by lia.
    rewrite (rsum_ext _ _ (fun i => if (i =? uid y)%Z then mget 0 i (usigma x) * usdev y else 0)).
    2:{ intros i _. rewrite coef_neg, coef_pos by lia. destruct (i =? uid y)%Z; [reflexivity|ring]. }
    match goal with |- (match ?e with _ => _ end) = _ => destruct e as [v|] eqn:E end.
    + rewrite (rsum_single Z.eq_dec _ _ (uid y)).
      * rewrite Z.eqb_refl. unfold mget; rewrite E; rring.
      * apply msorted_NoDup, Wx.
      * apply mfind_In in E. apply (in_map fst) in E. exact E.
      * intros b _ Hb. destruct (Z.eqb_spec b (uid y)); [contradiction|reflexivity].
    + rewrite rsum_zero; [rring|]. intros i _. destruct (Z.eqb_spec i (uid y)); [|reflexivity].
      subst. unfold mget; rewrite E. ring.
  - rewrite cov_loop_rsum by (apply Wx || apply Wy). rewrite ukeys_neg by lia.
    rewrite Rplus_0_l. apply rsum_ext. intros i _. now rewrite !coef_neg by lia.
  - rewrite rsum_zero; [reflexivity|]. intros; rewrite (coef_zero y) by lia; ring.
  - rewrite ukeys_zero by lia. reflexivity.
  - rewrite ukeys_zero by lia. reflexivity.
  - rewrite ukeys_zero by lia. reflexivity.
Qed.

Lemma s2_sum last (x : ureal RN) : wf last x -> (uid x < 0)%Z ->
  u_s2 x = sum_ids last (fun i => coef x i * coef x i).
Proof.
  intros W H. rewrite s2_rsum by apply W. rewrite <- ukeys_neg by assumption.
  rewrite <- (sum_keys last x) by (auto; intros i ->; ring).
  apply rsum_ext. intros i _. now rewrite coef_neg.
Qed.

Lemma sdev_sq last (x : ureal RN) : wf last x -> (0 <= uid x)%Z ->
  usdev x * usdev x = sum_ids last (fun i => coef x i * coef x i).
Proof.
  intros W H. rewrite <- (sum_keys last x) by (auto; intros i ->; ring).
  destruct (Z.eq_dec (uid x) 0) as [E|E].
  - rewrite ukeys_zero by assumption. rewrite (wf_zero _ _ W E). rring.
  - rewrite ukeys_pos by lia. cbn [rsum]. rewrite coef_pos by lia. rewrite Z.eqb_refl. ring.
Qed.

Lemma var_sum last x : wf last x -> cache_ok x ->
  u_var x = sum_ids last (fun i => coef x i * coef x i).
Proof.
  intros W C. unfold u_var. cbn [nleb n0 nmul RN].
  destruct (Z.leb_spec 0 (uid x)) as [H|H]; cbn [orb].
  - now apply sdev_sq.
  - destruct (Rleb_spec 0 (usdev x)) as [Hs|Hs].
    + rewrite C by assumption. now apply s2_sum.
    + now apply s2_sum.
Qed.

Lemma sum_sq_nonneg last (f : Z -> R) : 0 <= sum_ids last (fun i => f i * f i).
Proof. apply rsum_nonneg; intros; apply Rle_0_sqr. Qed.

Lemma s_sum last x : wf last x -> cache_ok x ->
  u_s x = sqrt (sum_ids last (fun i => coef x i * coef x i)).
Proof.
  intros W C. unfold u_s. cbn [nleb n0 nabs nsqrt RN].
  destruct (Z.leb_spec 0 (uid x)) as [H|H].
  - rewrite <- sdev_sq by assumption. symmetry. apply sqrt_Rsqr_abs.
  - destruct (Rleb_spec 0 (usdev x)) as [Hs|Hs].
    + rewrite <- s2_sum, <- C by assumption. symmetry. now apply sqrt_square.
    + f_equal. now apply s2_sum.
Qed.

(** ** The caching queries return the same values and keep the invariants *)

Lemma s_caching_fst x : fst (u_s_caching (N := RN) x) = u_s x.
Proof.
  unfold u_s_caching, u_s. cbn [nleb nltb n0 nabs nsqrt RN].
  destruct (Z.leb_spec 0 (uid x)); [reflexivity|]. cbn [fst].
  destruct (Rltb_spec (usdev x) 0); destruct (Rleb_spec 0 (usdev x)); try lra; reflexivity.
Qed.

Lemma cache_ok_caching last x : wf last x -> cache_ok x -> cache_ok (snd (u_s_caching x)).
Proof.
  intros W C. unfold u_s_caching. cbn [nltb n0 nsqrt RN].
  destruct (Z.leb_spec 0 (uid x)); [exact C|]. cbn [snd].
  destruct (Rltb_spec (usdev x) 0); [|exact C].
  unfold cache_ok; cbn. intros _ _. transitivity (u_s2 x); [|reflexivity].
  apply sqrt_sqrt. rewrite (s2_sum last) by assumption. apply sum_sq_nonneg.
Qed.

Lemma var_caching_fst last x : wf last x -> cache_ok x ->
  fst (u_var_caching (N := RN) x) = u_var x.
Proof.
  intros W C. unfold u_var_caching, u_var. cbn [nleb nltb n0 nmul nsqrt RN].
  destruct (Z.leb_spec 0 (uid x)); [reflexivity|]. cbn [fst orb].
  destruct (Rltb_spec (usdev x) 0); destruct (Rleb_spec 0 (usdev x)); try lra; cbn.
  apply sqrt_sqrt. rewrite (s2_sum last) by assumption. apply sum_sq_nonneg.
Qed.

(** ** The representation relation *)

Record rep (last : Z) (x : ureal RN) (a : lin) : Prop := {
  rep_wf : wf last x;
  rep_cache : cache_ok x;
  rep_mean : umu x = l_mean a;
  rep_coef : forall i, coef x i = l_coef a i;
  rep_dep : forall i, In i (ukeys x) <-> l_dep a i
}.

Lemma rep_mono l1 l2 x a : (l1 <= l2)%Z -> rep l1 x a -> rep l2 x a.
Proof. intros H []; split; eauto using wf_mono. Qed.

Lemma rep_of_find last x a :
  wf last x -> cache_ok x -> umu x = l_mean a ->
  (forall i, coef x i = l_coef a i) ->
  (forall i, ufind i x <> None <-> l_dep a i) -> rep last x a.
Proof.
  intros W C M F D; split; auto. intro i. rewrite <- D. symmetry. eapply ufind_keys; eauto.
Qed.

Lemma cache_neg (x : ureal RN) : usdev x = -1 -> cache_ok x.
Proof. intros E _ H. rewrite E in H. lra. Qed.

Lemma rep_find last x a i : rep last x a -> (ufind i x <> None <-> l_dep a i).
Proof. intros HR. rewrite <- (rep_dep _ _ _ HR). apply (ufind_keys i x last), HR. Qed.

Lemma rep_unary last x a mu dx m d : rep last x a -> mu = m -> dx = d ->
  rep last (u_unary x mu dx) (lin_unary a m d).
Proof.
  intros HR -> ->. destruct (unary_wf last x m d (rep_wf _ _ _ HR)) as (W & F & M).
  apply rep_of_find; auto.
  - intros Hid Hs. exfalso. revert Hid Hs. unfold u_unary.
    destruct (Z.ltb_spec 0 (uid x)); cbn; [lia|].
    destruct (Z.ltb_spec (uid x) 0); cbn; [intros; lra|lia].
  - intro i. unfold coef. rewrite F. cbn. rewrite <- (rep_coef _ _ _ HR). unfold coef.
    destruct (ufind i x); rring.
  - intro i. rewrite F. cbn. rewrite <- (rep_find last x a i HR). destruct (ufind i x); cbn; intuition congruence.
Qed.

Lemma rep_binary last x y a b mu dx dy m ex ey :
  rep last x a -> rep last y b -> (last < maxid)%Z ->
  mu = m -> dx = ex -> dy = ey ->
  exists z, u_binary x y mu dx dy = Ret z /\ rep last z (lin_binary a b m ex ey).
Proof.
  intros Rx Ry B -> -> ->.
  destruct (binary_wf last x y m ex ey (rep_wf _ _ _ Rx) (rep_wf _ _ _ Ry) B)
    as (z & E & W & M & F & I & S).
  exists z. split; [exact E|]. apply rep_of_find; auto.
  - apply cache_neg. rewrite S. cbn. ring.
  - intro i. unfold coef. rewrite F. cbn. rewrite <- (rep_coef _ _ _ Rx), <- (rep_coef _ _ _ Ry).
    unfold coef. destruct (ufind i x), (ufind i y); rring.
  - intro i. rewrite F, comb2_keys. cbn.
    now rewrite <- (rep_find last x a i Rx), <- (rep_find last y b i Ry).
Qed.

Lemma rep_assign last x y a b mu dx dy m ex ey :
  rep last x a -> rep last y b -> mu = m -> dx = ex -> dy = ey ->
  rep last (u_binary_assign x y mu dx dy) (lin_binary a b m ex ey).
Proof.
  intros Rx Ry -> -> ->.
  destruct (binary_assign_wf last x y m ex ey (rep_wf _ _ _ Rx) (rep_wf _ _ _ Ry)) as (W & F & M).
  apply rep_of_find; auto.
  - apply cache_neg. cbn. ring.
  - intro i. unfold coef. rewrite F. cbn. rewrite <- (rep_coef _ _ _ Rx), <- (rep_coef _ _ _ Ry).
    unfold coef, comb2a, scale_own. cbn.
    destruct (Reqb_spec ex 1) as [->|]; destruct (ufind i x), (ufind i y); rring.
  - intro i. rewrite F. cbn.
    rewrite <- (rep_find last x a i Rx), <- (rep_find last y b i Ry).
    destruct (ufind i x), (ufind i y); cbn; intuition congruence.
Qed.

Lemma rep_assign_self last x a mu dx dy m ex ey :
  rep last x a -> mu = m -> dx = ex -> dy = ey ->
  rep last (u_binary_assign_self x mu dx dy) (lin_binary a a m ex ey).
Proof.
  intros HR -> -> ->.
  assert (W := rep_wf _ _ _ HR).
  destruct (binary_assign_self_wf last x m ex ey W) as (W' & F & M).
  { intros _. cbn. destruct (Rltb_spec 0 0); [lra|reflexivity]. }
  apply rep_of_find; auto.
  - unfold cache_ok, u_binary_assign_self. cbn [uid usdev].
    intros Hid. destruct (Z.ltb_spec 0 (uid x)); [lia|]. rewrite orb_false_r.
    cbn [nltb n0 RN nmul nadd].
    intro Hs. unfold u_s2. cbn [usigma]. transitivity ((ex + ey) * (ex + ey) * u_s2 x);
      [|symmetry; apply (s2_mmap_list (usigma x) (ex + ey))].
    assert (C := rep_cache _ _ _ HR Hid).
    change (T RN) with R in *.
    destruct (Rltb_spec 0 (usdev x)) as [Hp|Hp].
    + rewrite <- C by lra. rring.
    + assert (Hz : usdev x = 0) by lra. rewrite <- C by lra. rewrite Hz. rring.
  - intro i. unfold coef. rewrite F. cbn. rewrite <- (rep_coef _ _ _ HR). unfold coef.
    destruct (ufind i x); rring.
  - intro i. rewrite F. cbn. rewrite <- (rep_find last x a i HR).
    destruct (ufind i x); cbn; intuition congruence.
Qed.

Lemma rep_assign_gen last (alias : bool) x y a b mu dx dy m ex ey :
  rep last x a -> rep last y b -> (alias = true -> b = a) ->
  mu = m -> dx = ex -> dy = ey ->
  rep last (u_assign_gen alias x y mu dx dy) (lin_binary a b m ex ey).
Proof.
  intros Rx Ry A E1 E2 E3. unfold u_assign_gen. destruct alias.
  - rewrite (A eq_refl). now apply rep_assign_self.
  - now apply rep_assign.
Qed.

Lemma nary_coef k xds : forall acc : option R,
  match fold_left (fun acc (xd : ureal RN * R) =>
            match ufind k (fst xd) with
            | Some v => Some (match acc with Some p => p | None => 0 end + snd xd * v)
            | None => acc
            end) xds acc with Some v => v | None => 0 end
  = match acc with Some v => v | None => 0 end + rsum xds (fun xd => snd xd * coef (fst xd) k).
Proof.
  induction xds as [|[x d] xds IH]; intro acc; cbn [fold_left rsum fst snd].
  - ring.
  - rewrite IH. unfold coef at 2. destruct (ufind k x); [|ring]. ring.
Qed.

Lemma nary_some k xds : forall acc : option R,
  fold_left (fun acc (xd : ureal RN * R) =>
            match ufind k (fst xd) with
            | Some v => Some (match acc with Some p => p | None => 0 end + snd xd * v)
            | None => acc
            end) xds acc <> None
  <-> acc <> None \/ exists xd, In xd xds /\ ufind k (fst xd) <> None.
Proof.
  induction xds as [|[x d] xds IH]; intro acc; cbn [fold_left fst snd].
  - split; [auto|]. intros [?|(? & [] & _)]; assumption.
  - rewrite IH. split.
    + intros [H|(xd & Hin & H)].
      * destruct (ufind k x) eqn:E.
        -- right. exists (x, d). split; [now left|]. cbn. congruence.
        -- now left.
      * right. exists xd. split; [now right|assumption].
    + intros [H|(xd & [<-|Hin] & H)].
      * left. destruct (ufind k x); congruence.
      * left. cbn [fst] in H. destruct (ufind k x); congruence.
      * right; eauto.
Qed.

Lemma Forall2_combine_ex {A B C : Type} (P : A -> B -> Prop) (xs : list A) (ys : list B) :
  Forall2 P xs ys -> forall (ds : list C) xd, In xd (combine xs ds) ->
  exists yd, In yd (combine ys ds) /\ P (fst xd) (fst yd) /\ snd xd = snd yd.
Proof.
  induction 1 as [|x y xs ys Hxy H IH]; intros [|d ds] xd Hin; cbn in *; try tauto.
  destruct Hin as [<-|Hin].
  - exists (y, d); cbn; auto.
  - destruct (IH ds xd Hin) as (yd & ? & ? & ?). exists yd; auto.
Qed.
Lemma Forall2_flip {A B : Type} (P : A -> B -> Prop) xs ys :
  Forall2 P xs ys -> Forall2 (fun y x => P x y) ys xs.
Proof. induction 1; constructor; auto. Qed.

Lemma rep_nary last xs as_ dxs m :
  Forall2 (rep last) xs as_ -> (length xs <= length dxs)%nat ->
  exists z, u_nary xs m dxs = Ret z /\ rep last z (lin_nary (combine as_ dxs) m).
Proof.
  intros HR L.
  assert (Wxs : Forall (wf last) xs).
  { clear L. induction HR; constructor; auto. apply H. }
  destruct (nary_loop_wf last xs dxs [] Wxs L msorted_nil) as (z & E & S & F).
  unfold u_nary. rewrite E. cbn [bind].
  eexists; split; [reflexivity|].
  assert (D : forall i, mfind i z <> None <->
             exists xd, In xd (combine as_ dxs) /\ l_dep (fst xd) i).
  { intro i. rewrite F. cbn [mfind]. cbn -[combine]. rewrite (nary_some i (combine xs dxs) None). split.
    - intros [H|(xd & Hin & H)]; [congruence|].
      destruct (Forall2_combine_ex _ _ _ HR dxs xd Hin) as (yd & Hy & P & _).
      exists yd; split; [assumption|]. now apply (rep_find _ _ _ _ P).
    - intros (yd & Hin & H). right.
      destruct (Forall2_combine_ex _ _ _ (Forall2_flip _ _ _ HR) dxs yd Hin) as (xd & Hx & P & _).
      exists xd; split; [assumption|]. now apply (rep_find _ _ _ _ P). }
  apply rep_of_find.
  - apply wf_dep; [exact S|]. intros k Hk. rewrite F in Hk. cbn -[combine] in Hk.
    apply (nary_some k (combine xs dxs) None) in Hk as [Hk|(xd & Hin & Hk)]; [cbn in Hk; congruence|].
    destruct (Forall2_combine_ex _ _ _ HR dxs xd Hin) as (yd & Hy & P & _).
    eapply ufind_bound; [apply P|exact Hk].
  - apply cache_neg. rring.
  - reflexivity.
  - intro i. unfold coef. rewrite ufind_dep, F.
    etransitivity; [exact (nary_coef i (combine xs dxs) None)|]. rewrite Rplus_0_l.
    clear -HR. revert dxs. induction HR as [|x a xs as_ Hx HR IH]; intros [|d dxs]; cbn; try reflexivity.
    rewrite IH. now rewrite (rep_coef _ _ _ Hx).
  - exact D.
Qed.

(** ** Observations *)

Lemma rep_n last x a : rep last x a -> u_n x = l_mean a.
Proof. apply rep_mean. Qed.
Lemma rep_cov last x y a b : rep last x a -> rep last y b -> u_cov x y = lin_cov last a b.
Proof.
  intros Rx Ry. rewrite (cov_sum last) by (apply Rx || apply Ry).
  apply rsum_ext. intros i _. now rewrite (rep_coef _ _ _ Rx), (rep_coef _ _ _ Ry).
Qed.
Lemma rep_var last x a : rep last x a -> u_var x = lin_var last a.
Proof.
  intros HR. rewrite (var_sum last) by apply HR.
  apply rsum_ext. intros i _. now rewrite (rep_coef _ _ _ HR).
Qed.
Lemma rep_s last x a : rep last x a -> u_s x = lin_sdev last a.
Proof.
  intros HR. rewrite (s_sum last) by apply HR. unfold lin_sdev. f_equal.
  apply rsum_ext. intros i _. now rewrite (rep_coef _ _ _ HR).
Qed.
Lemma rep_corr last x y a b : rep last x a -> rep last y b ->
  u_corr x y = lin_cov last a b / (lin_sdev last a * lin_sdev last b).
Proof.
  intros Rx Ry. unfold u_corr. now rewrite (rep_cov last x y a b), (rep_s last x a), (rep_s last y b).
Qed.

Lemma rep_isindep last x a : rep last x a ->
  exists b, u_isindep x = Ret b /\ (b = true <-> lin_indep a).
Proof.
  intros HR. assert (W := rep_wf _ _ _ HR).
  unfold u_isindep.
  assert (A : ((uid x <? 0)%Z || (length (usigma x) =? 0)%nat) = true).
  { destruct (Z.ltb_spec (uid x) 0); [reflexivity|]. now rewrite (wf_nonneg _ _ W). }
  rewrite A. cbn [assert_ bind]. eexists; split; [reflexivity|].
  unfold lin_indep. assert (ND := wf_NoDup _ _ W). assert (D := rep_dep _ _ _ HR).
  destruct (Z_lt_le_dec (uid x) 0) as [Hid|Hid].
  - rewrite ukeys_neg in * by assumption.
    rewrite Nat.leb_le. rewrite <- (map_length fst). split.
    + intros L i j Hi Hj. apply D in Hi, Hj.
      destruct (map fst (usigma x)) as [|k [|k' l]]; [destruct Hi| |cbn in L; lia].
      destruct Hi as [<-|[]], Hj as [<-|[]]; reflexivity.
    + intro H. destruct (map fst (usigma x)) as [|k [|k' l]]; cbn; try lia. exfalso.
      assert (k = k') by (apply H; apply D; cbn; auto). subst k'.
      inversion ND; subst. cbn in *; tauto.
  - rewrite (wf_nonneg _ _ W) by assumption. cbn. split; [|reflexivity]. intros _ i j Hi Hj.
    apply D in Hi, Hj. unfold ukeys in *.
    destruct (Z.ltb_spec 0 (uid x)); [cbn in *; intuition congruence|].
    destruct (Z.ltb_spec (uid x) 0); [lia|]. destruct Hi.
Qed.

Lemma rep_indepid last x a : rep last x a ->
  exists i, u_indepid x = Ret i /\
    ((i = 0%Z /\ forall j, ~ l_dep a j)
     \/ ((0 < i)%Z /\ l_dep a i /\ forall j, l_dep a j -> j = i)
     \/ (i = invalid_id /\ ~ lin_indep a)).
Proof.
  intros HR. assert (W := rep_wf _ _ _ HR).
  unfold u_indepid.
  assert (A : ((uid x <? 0)%Z || (length (usigma x) =? 0)%nat) = true).
  { destruct (Z.ltb_spec (uid x) 0); [reflexivity|]. now rewrite (wf_nonneg _ _ W). }
  rewrite A. cbn [assert_ bind].
  assert (ND := wf_NoDup _ _ W). assert (D := rep_dep _ _ _ HR). assert (B := wf_bound _ _ W).
  destruct (Z.leb_spec 0 (uid x)) as [Hid|Hid].
  - eexists; split; [reflexivity|].
    destruct (Z.eq_dec (uid x) 0) as [E|E].
    + left. split; [assumption|]. intros j Hj. apply D in Hj. rewrite ukeys_zero in Hj by assumption.
      destruct Hj.
    + right; left. rewrite ukeys_pos in * by lia. split; [lia|]. split.
      * apply D; cbn; auto.
      * intros j Hj. apply D in Hj. cbn in Hj. intuition.
  - rewrite ukeys_neg in * by assumption.
    destruct (usigma x) as [|[k v] [|[k' v'] l]] eqn:Es; cbn [length Nat.eqb].
    + eexists; split; [reflexivity|]. left; split; [reflexivity|]. intros j Hj. apply D in Hj. destruct Hj.
    + eexists; split; [reflexivity|]. right; left. cbn in *.
      repeat split.
      * specialize (B k (or_introl eq_refl)). lia.
      * apply D; auto.
      * intros j Hj. apply D in Hj. intuition.
    + eexists; split; [reflexivity|]. right; right. split; [reflexivity|].
      intro H. cbn in *. assert (k = k') by (apply H; apply D; auto). subst k'.
      inversion ND; subst. cbn in *; tauto.
Qed.

(** ** Simulation *)

Definition wrep (w : world RN) (sw : sworld) : Prop :=
  w_last w = s_last sw /\ (0 <= w_last w)%Z /\ forall v, rep (w_last w) (w_var w v) (s_var sw v).

Lemma wrep_init : wrep w_init s_init.
Proof.
  split; [reflexivity|]. split; [cbn; lia|]. intro v. cbn.
  apply rep_of_find; cbn; auto using default_wf.
  - intros H; cbn in H; lia.
  - intro i; split; [congruence|tauto].
Qed.

Lemma wrep_set w sw v x a : wrep w sw -> rep (w_last w) x a -> wrep (w_set w v x) (s_set sw v a).
Proof.
  intros (E & P & H) HR. split; [exact E|]. split; [exact P|]. intro u. cbn.
  unfold upd. destruct (Nat.eqb u v); auto.
Qed.

Lemma rep_const last n : rep last (u_const n) (lin_number n).
Proof.
  apply rep_of_find; cbn; auto using const_wf.
  - intros H; cbn in H; lia.
  - intro i; split; [congruence|tauto].
Qed.
Lemma rep_default last : rep last u_default (lin_number 0).
Proof. exact (rep_const last 0). Qed.

Lemma rep_change_nom last x a n : rep last x a ->
  rep last (u_change_nom x n) (mkLin n (l_dep a) (l_coef a)).
Proof. intros [[] ? ? ? ?]; split; auto. split; auto. Qed.

Lemma rep_new last (n s : RN) : (0 <= last)%Z -> 0 <= s ->
  rep (last + 1) (mkU (last + 1) s n [] : ureal RN) (lin_fresh (last + 1) n s).
Proof.
  intros Hl Hs.
  assert (K : ukeys (mkU (last + 1) s n [] : ureal RN) = [last + 1]%Z) by (apply ukeys_pos; cbn; lia).
  split; cbn [l_mean l_coef l_dep lin_fresh umu]; auto.
  - split; cbn [uid usigma usdev]; auto; try lia; try apply msorted_nil.
    rewrite K. intros k [<-|[]]; lia.
  - intros H; cbn in H; lia.
  - intro i. rewrite coef_pos by (cbn; lia). cbn [uid usdev].
    destruct (Z.eqb_spec i (last + 1)); destruct (Z.eq_dec i (last + 1)); congruence.
  - intro i. rewrite K. cbn. intuition.
Qed.

Lemma rep_caching last x a : rep last x a -> rep last (snd (u_s_caching x)) a.
Proof.
  intros HR. destruct (s_caching_wf last x (rep_wf _ _ _ HR)) as (W & F & M & I).
  apply rep_of_find; auto.
  - eapply cache_ok_caching; apply HR.
  - rewrite M. apply HR.
  - intro i. unfold coef. rewrite F. apply HR.
  - intro i. rewrite F. now apply (rep_find last).
Qed.

Lemma exec_sim w sw c : wrep w sw -> nary_ok c ->
  (is_new c = true -> w_last w + 1 < maxid)%Z -> (w_last w < maxid)%Z ->
  exists w', fst (exec w c) = w' /\ wrep w' (spec_exec sw c) /\
    w_last w' = (w_last w + (if is_new c then 1 else 0))%Z /\
    match snd (exec w c) with
    | Ret _ => True
    | Throw e => e = InvalidArgument /\ (exists v n s, c = CNew v n s /\ s < 0)
    | UB | Assert => False
    end.
Proof.
  intros HW HN HB HB2. destruct HW as (E & P & H) eqn:EW. pose proof (conj E (conj P H)) as HW'. clear EW HW.
  assert (M : forall v, umu (w_var w v) = l_mean (s_var sw v)) by (intro; apply H).
  assert (Bin : forall v x y mu dx dy m ex ey, mu = m -> dx = ex -> dy = ey ->
    wrep (fst (assign_result w v (u_binary (w_var w x) (w_var w y) mu dx dy)))
         (s_set sw v (lin_binary (s_var sw x) (s_var sw y) m ex ey)) /\
    w_last (fst (assign_result w v (u_binary (w_var w x) (w_var w y) mu dx dy))) = (w_last w + 0)%Z /\
    snd (assign_result w v (u_binary (w_var w x) (w_var w y) mu dx dy)) = Ret tt).
  { intros v x y mu dx dy m ex ey E1 E2 E3.
    destruct (rep_binary (w_last w) (w_var w x) (w_var w y) _ _ mu dx dy m ex ey (H x) (H y) HB2 E1 E2 E3)
      as (z & -> & Rz). cbn. split; [|split; [lia|reflexivity]]. now apply wrep_set. }
  assert (Set_ : forall v x a, rep (w_last w) x a ->
    exists w', w_set w v x = w' /\ wrep w' (s_set sw v a) /\ w_last w' = (w_last w + 0)%Z /\ True).
  { intros v x a HR. eexists; split; [reflexivity|]. split; [now apply wrep_set|]. split; [cbn; lia|exact I]. }
  assert (Asg : forall v x mu dx dy m ex ey, mu = m -> dx = ex -> dy = ey ->
    rep (w_last w) (u_assign_gen (Nat.eqb v x) (w_var w v) (w_var w x) mu dx dy)
        (lin_binary (s_var sw v) (s_var sw x) m ex ey)).
  { intros v x mu dx dy m ex ey E1 E2 E3. apply rep_assign_gen; auto.
    intro Hb. apply Nat.eqb_eq in Hb. now subst. }
  destruct c; cbn [exec spec_exec is_new fst snd].
  - (* new *)
    destruct (new_wf (N := RN) (w_last w) n s) as (E1 & W & E2).
    { specialize (HB eq_refl). lia. }
    destruct (u_new (w_last w) n s) as [l o]. cbn in E1, E2. subst l o.
    destruct (Rltb_spec s 0) as [Hs|Hs]; cbn.
    + destruct (Rlt_dec s 0); [|lra].
      eexists; split; [reflexivity|].
      split; [split; [cbn; lia|split; [cbn; lia|]]|split; [cbn; lia|split; [reflexivity|eauto]]].
      intro v0. cbn. eapply rep_mono; [|apply H]. lia.
    + destruct (Rlt_dec s 0); [lra|].
      eexists; split; [reflexivity|].
      split; [split; [cbn; lia|split; [cbn; lia|]]|split; [cbn; lia|exact I]].
      intro v0. cbn. unfold upd. destruct (Nat.eqb v0 v).
      * rewrite <- E. apply rep_new; [lia|lra].
      * eapply rep_mono; [|apply H]. lia.
  - apply Set_, rep_const.
  - apply Set_, rep_default.
  - apply Set_, H.
  - apply Set_, rep_change_nom, H.
  - apply Set_. apply rep_unary; [apply H| |]; unfold u_n; rewrite M; reflexivity.
  - edestruct Bin as (B1 & B2 & B3);
      [| | |eexists; split; [reflexivity|]; split; [exact B1|]; split; [exact B2|]; now rewrite B3];
      unfold u_n; rewrite !M; reflexivity.
  - (* nary *)
    destruct (rep_nary (w_last w) (map (w_var w) xs) (map (s_var sw) xs)
                (dfs (map (fun x => u_n (w_var w x)) xs)) (f (map (fun x => u_n (w_var w x)) xs)))
      as (z & Ez & Rz).
    + clear HN. induction xs; cbn; constructor; auto.
    + rewrite map_length. apply HN. now rewrite map_length.
    + rewrite Ez. cbn. eexists; split; [reflexivity|]. split; [|split; [cbn; lia|exact I]].
      apply wrep_set; [exact HW'|].
      assert (Em : map (fun x => u_n (w_var w x)) xs = map (fun v0 => l_mean (s_var sw v0)) xs)
        by (apply map_ext; intro; apply M).
      rewrite Em in Rz. rewrite <- Em at 1. rewrite Em. exact Rz.
  - apply Set_. apply Asg; unfold u_n; rewrite !M; reflexivity.
  - apply Set_. apply rep_unary; [apply H| |]; cbn; rewrite ?M; ring.
  - edestruct Bin as (B1 & B2 & B3);
      [| | |eexists; split; [reflexivity|]; split; [exact B1|]; split; [exact B2|]; unfold u_add; rewrite B3; exact I];
      cbn; rewrite ?M; ring.
  - edestruct Bin as (B1 & B2 & B3);
      [| | |eexists; split; [reflexivity|]; split; [exact B1|]; split; [exact B2|]; unfold u_sub; rewrite B3; exact I];
      cbn; rewrite ?M; ring.
  - edestruct Bin as (B1 & B2 & B3);
      [| | |eexists; split; [reflexivity|]; split; [exact B1|]; split; [exact B2|]; unfold u_mul; rewrite B3; exact I];
      cbn; rewrite ?M; ring.
  - edestruct Bin as (B1 & B2 & B3);
      [| | |eexists; split; [reflexivity|]; split; [exact B1|]; split; [exact B2|]; unfold u_div; rewrite B3; exact I];
      cbn; rewrite ?M; unfold Rdiv; rewrite ?Rinv_mult; ring.
  - apply Set_. apply Asg; cbn; rewrite ?M; ring.
  - apply Set_. apply Asg; cbn; rewrite ?M; ring.
  - apply Set_. apply Asg; cbn; rewrite ?M; ring.
  - apply Set_. apply Asg; cbn; rewrite ?M; unfold Rdiv; rewrite ?Rinv_mult; ring.
  - eexists; split; [reflexivity|].
    split; [split; [cbn; lia|split; [cbn; lia|]]|split; [cbn; lia|exact I]].
    intro u. cbn [w_set w_var w_last]. unfold upd. destruct (Nat.eqb_spec u v); [|apply H]. subst. apply rep_caching, H.
  - eexists; split; [reflexivity|].
    split; [split; [cbn; lia|split; [cbn; lia|]]|split; [cbn; lia|exact I]].
    intro u. cbn [w_set w_var w_last]. unfold upd. destruct (Nat.eqb_spec u v); [|apply H]. subst.
    rewrite var_caching_snd. apply rep_caching, H.
Qed.

Lemma run_sim cs : forall w sw, wrep w sw -> Forall nary_ok cs ->
  (w_last w + Z.of_nat (count_new cs) < maxid)%Z ->
  exists w', run w cs = Ret w' /\ wrep w' (spec_run sw cs) /\
             w_last w' = (w_last w + Z.of_nat (count_new cs))%Z.
Proof.
  induction cs as [|c cs IH]; intros w sw W F B.
  - exists w. split; [reflexivity|]. split; [exact W|]. cbn; lia.
  - inversion F as [|? ? Fc Fcs]; subst.
    assert (C : Z.of_nat (count_new (c :: cs))
                = ((if is_new c then 1 else 0) + Z.of_nat (count_new cs))%Z).
    { unfold count_new. cbn [filter]. destruct (is_new c); cbn [length]; lia. }
    rewrite C in *.
    destruct (exec_sim w sw c) as (w1 & E1 & W1 & L1 & O); auto.
    { intro Hn. rewrite Hn in B. lia. } { destruct (is_new c); lia. }
    destruct (IH w1 (spec_exec sw c) W1 Fcs) as (w' & Er & W' & L'); [lia|].
    exists w'. cbn [run spec_run fold_left].
    destruct (exec w c) as [w1' o]. cbn in E1, O. subst w1'.
    split; [|split; [exact W'|lia]].
    destruct o; try exact Er; destruct O.
Qed.
