(** * URealProofs2: constants, exceptions, conversions, grad, identities, UB *)

From Coq Require Import List ZArith Bool Reals Lra Lia Permutation.
From Verif Require Import Base Num Map UReal World Sums SpecLin SpecObs URealFacts URealR URealProofs.
Import ListNotations.
Local Open Scope R_scope.

Ltac rg := match goal with |- @eq _ ?a ?b => change (@eq R a b) end; ring.

(** ** C12 *)

Lemma sum_ids_zero last f : (forall i, f i = 0) -> sum_ids last f = 0.
Proof. intros H. apply rsum_zero. auto. Qed.

Lemma C12_number_contributes_nothing_proof : forall w, reachable w -> forall (n mu dx dy : R) u,
  let k := u_const n in
  u_n k = n /\ u_s k = 0 /\ u_var k = 0 /\
  u_cov k (w_var w u) = 0 /\ u_cov (w_var w u) k = 0 /\
  (forall v, w_last (fst (exec w (CConst v n))) = w_last w /\
             w_last (fst (exec w (CDefault v))) = w_last w) /\
  exists z z', u_binary (w_var w u) k mu dx dy = Ret z /\ u_binary k (w_var w u) mu dy dx = Ret z' /\
    same_value w z (u_unary (w_var w u) mu dx) /\ same_value w z' (u_unary (w_var w u) mu dx).
Proof.
  intros w Rw n mu dx dy u k. destruct (reachable_rep w Rw) as (last & g & B & H).
  assert (Rk : rep last k (lin_number n)) by apply rep_const.
  assert (Hu := H u).
  split; [reflexivity|].
  split; [rewrite (rep_s _ _ _ Rk); unfold lin_sdev, lin_var, lin_cov;
          rewrite sum_ids_zero by (intro; cbn; ring); apply sqrt_0|].
  split; [rewrite (rep_var _ _ _ Rk); apply sum_ids_zero; intro; cbn; ring|].
  split; [rewrite (rep_cov _ _ _ _ _ Rk Hu); apply sum_ids_zero; intro; cbn; ring|].
  split; [rewrite (rep_cov _ _ _ _ _ Hu Rk); apply sum_ids_zero; intro; cbn; ring|].
  split; [intro; split; reflexivity|].
  destruct (rep_binary last _ _ _ _ mu dx dy mu dx dy Hu Rk) as (z & E & Rz); auto; try lia.
  destruct (rep_binary last _ _ _ _ mu dy dx mu dy dx Rk Hu) as (z' & E' & Rz'); auto; try lia.
  assert (R1 := rep_unary last _ _ mu dx mu dx Hu eq_refl eq_refl).
  exists z, z'. split; [exact E|]. split; [exact E'|].
  split; (eapply same_value_of_rep; [exact H|eassumption|exact R1|]).
  - split; [reflexivity|]. split; intro i; cbn; [ring|tauto].
  - split; [reflexivity|]. split; intro i; cbn; [ring|tauto].
Qed.

Lemma C12_zero_deviation_proof : forall cs v (n : RN) w, legal cs ->
  (count_new (cs ++ [CNew v n 0%R]) <= max_new)%nat ->
  run w_init (cs ++ [CNew v n 0%R]) = Ret w -> forall u,
  u_n (w_var w v) = n /\ u_s (w_var w v) = 0 /\ u_cov (w_var w v) (w_var w u) = 0.
Proof.
  intros cs v n w L C E u. destruct (legal_sim cs L) as (w0 & E0 & _).
  destruct (snoc_sim cs (CNew v n 0%R) w0 L E0 I C) as (w' & E' & _ & (EL & P & H) & _).
  rewrite E in E'; injection E' as <-.
  assert (Hv := H v). assert (Hu := H u). unfold spec_exec in Hv.
  destruct (Rlt_dec 0 0) as [F|_]; [lra|]. cbn [s_set s_var] in Hv. rewrite Nat.eqb_refl in Hv.
  assert (Z0 : forall i, l_coef (lin_fresh (s_last (spec_run s_init cs) + 1) n 0) i = 0).
  { intro i. cbn. destruct (Z.eq_dec _ _); reflexivity. }
  split; [apply (rep_n _ _ _ Hv)|]. split.
  - rewrite (rep_s _ _ _ Hv). unfold lin_sdev, lin_var, lin_cov.
    rewrite sum_ids_zero by (intro; rewrite Z0; ring). apply sqrt_0.
  - rewrite (rep_cov _ _ _ _ _ Hv Hu). apply sum_ids_zero. intro; rewrite Z0; ring.
Qed.

(** ** C13 *)

Lemma C13_invalid_construction_proof : forall (w : world RN) v n s,
  (snd (exec w (CNew v n s)) = Throw InvalidArgument <-> s < 0) /\
  (snd (exec w (CNew v n s)) = Ret tt <-> 0 <= s) /\
  (s < 0 -> forall u, w_var (fst (exec w (CNew v n s))) u = w_var w u) /\
  (0 <= s -> forall u, u <> v -> w_var (fst (exec w (CNew v n s))) u = w_var w u).
Proof.
  intros w v n s. cbn. destruct (Rltb_spec s 0) as [Hs|Hs]; cbn.
  - split; [split; auto|]. split; [split; [discriminate|nR; lra]|]. split; [auto|nR; lra].
  - split; [split; [discriminate|nR; lra]|]. split; [split; auto; nR; lra|]. split; [nR; lra|].
    intros _ u Hu. unfold upd. destruct (Nat.eqb_spec u v); congruence.
Qed.

(** ** C14 *)

Lemma C14_change_nom_proof : forall w, reachable w -> forall u n,
  let y := u_change_nom (w_var w u) n in
  u_n y = n /\ u_s y = u_s (w_var w u) /\ u_var y = u_var (w_var w u) /\
  u_isindep y = u_isindep (w_var w u) /\ u_indepid y = u_indepid (w_var w u) /\
  (forall t, u_cov y (w_var w t) = u_cov (w_var w u) (w_var w t)) /\
  (forall t, u_cov (w_var w t) y = u_cov (w_var w t) (w_var w u)) /\
  u_cov y y = u_cov (w_var w u) (w_var w u).
Proof. intros w _ u n y. repeat split. Qed.

Section Convert.
  Context {N M : Num}.
  Lemma convert_fold (c : N -> M) s : forall z : list (Z * M),
    msorted s -> msorted z -> forall k,
    mfind k (fold_left (fun z kv => mset (fst kv) (c (snd kv)) z) s z)
    = match mfind k s with Some v => Some (c v) | None => mfind k z end.
  Proof.
    induction s as [|[i v] s IH]; intros z Ss Sz k; [reflexivity|].
    destruct (msorted_inv _ _ _ Ss) as [S1 L1]. cbn [fold_left fst snd].
    rewrite IH by (try apply msorted_mset; assumption).
    cbn [mfind]. rewrite mfind_mset by assumption.
    destruct (kcmp k i) eqn:K.
    - apply kcmp_eq in K. subst.
      destruct (mfind i s) eqn:E.
      + exfalso. assert (Hi : In i (map fst s)) by (apply mfind_In in E; apply (in_map fst) in E; exact E).
        apply L1 in Hi. now apply klt_irrefl in Hi.
      + destruct (keq_dec i i); congruence.
    - rewrite (mfind_None_lt k s); auto.
      + destruct (keq_dec k i) as [->|]; [rewrite kcmp_refl in K; discriminate|reflexivity].
      + intros k' Hk'. eapply klt_trans; eauto.
    - destruct (mfind k s); [reflexivity|].
      destruct (keq_dec k i) as [->|]; [rewrite kcmp_refl in K; discriminate|reflexivity].
  Qed.

  Lemma convert_sorted (c : N -> M) s : forall z : list (Z * M), msorted z ->
    msorted (fold_left (fun z kv => mset (fst kv) (c (snd kv)) z) s z).
  Proof. induction s as [|kv s IH]; intros z S; cbn; auto. apply IH. now apply msorted_mset. Qed.

  Lemma convert_sigma (c : N -> M) x : msorted (usigma x) ->
    usigma (u_convert c x) = mmap c (usigma x).
  Proof.
    intro S. cbn. apply msorted_ext.
    - apply convert_sorted, msorted_nil.
    - now apply msorted_mmap.
    - intro k. rewrite convert_fold by (auto; apply msorted_nil). rewrite mfind_mmap.
      now destruct (mfind k (usigma x)).
  Qed.
End Convert.

(** ** All histories, in any arithmetic *)

Section GenRun.
  Context {N : Num}.
  Hypothesis zero_not_neg : nltb (n0 : N) n0 = false.

  Definition wwf (w : world N) : Prop :=
    (0 <= w_last w)%Z /\ forall v, wf (w_last w) (w_var w v).

  Lemma wwf_set w v x : wwf w -> wf (w_last w) x -> wwf (w_set w v x).
  Proof. intros [P H] Hx. split; [exact P|]. intro u. cbn. unfold upd. destruct (Nat.eqb u v); auto. Qed.

  Lemma assign_gen_wf last al x y mu dt dx : wf last x -> wf last y ->
    wf last (u_assign_gen (N := N) al x y mu dt dx).
  Proof.
    intros Wx Wy. unfold u_assign_gen. destruct al.
    - apply binary_assign_self_wf; auto.
    - apply binary_assign_wf; auto.
  Qed.

  Lemma nary_wf last xs mu dxs : Forall (wf last) xs -> (length xs <= length dxs)%nat ->
    exists z, u_nary (N := N) xs mu dxs = Ret z /\ wf last z.
  Proof.
    intros W L. destruct (nary_loop_wf last xs dxs [] W L (msorted_nil)) as (z & E & S & F).
    unfold u_nary. rewrite E. cbn [bind]. eexists; split; [reflexivity|].
    apply wf_dep; [exact S|]. intros k Hk. rewrite F in Hk. clear -W Hk.
    assert (K : forall xs (dxs : list N) acc, Forall (wf last) xs ->
      (acc <> None -> (1 <= k <= last)%Z) ->
      fold_left (fun acc (xd : ureal N * N) =>
            match ufind k (fst xd) with
            | Some v => Some (nadd match acc with Some p => p | None => n0 end (nmul (snd xd) v))
            | None => acc
            end) (combine xs dxs) acc <> None -> (1 <= k <= last)%Z).
    { clear. induction xs as [|x xs IH]; intros dxs acc W A H; [auto|].
      destruct dxs as [|d dxs]; [auto|]. inversion W; subst. cbn [combine fold_left fst snd] in H.
      eapply IH; [eassumption| |exact H].
      destruct (ufind k x) eqn:E; [|exact A]. intros _. eapply ufind_bound; eauto. congruence. }
    eapply K; [exact W| |exact Hk]. cbn. congruence.
  Qed.

  Lemma gen_exec w c : wwf w -> nary_ok c ->
    (w_last w + (if is_new c then 1 else 0) < maxid)%Z ->
    wwf (fst (exec w c)) /\ w_last (fst (exec w c)) = (w_last w + (if is_new c then 1 else 0))%Z /\
    (snd (exec w c) = Ret tt \/ snd (exec w c) = Throw InvalidArgument).
  Proof.
    intros HW HN HB. assert (HW' := HW). destruct HW' as [P H].
    assert (B2 : (w_last w < maxid)%Z) by (destruct (is_new c); lia).
    assert (Set_ : forall v x, wf (w_last w) x ->
      wwf (w_set w v x) /\ w_last (w_set w v x) = (w_last w + 0)%Z /\
      (@Ret unit tt = Ret tt \/ @Ret unit tt = Throw InvalidArgument)).
    { intros v x Wx. split; [now apply wwf_set|]. split; [cbn; lia|auto]. }
    assert (Bin : forall v x y mu dx dy,
      let r := assign_result w v (u_binary (w_var w x) (w_var w y) mu dx dy) in
      wwf (fst r) /\ w_last (fst r) = (w_last w + 0)%Z /\
      (snd r = Ret tt \/ snd r = Throw InvalidArgument)).
    { intros v x y mu dx dy.
      destruct (binary_wf (w_last w) (w_var w x) (w_var w y) mu dx dy (H x) (H y) B2) as (z & E & Wz & _).
      rewrite E. now apply Set_. }
    destruct c; cbn [exec is_new fst snd];
      try (apply Bin); try (apply Set_, assign_gen_wf; auto); try (apply Set_).
    - destruct (new_wf (w_last w) n s) as (E1 & W & E2); [cbn in HB; lia|].
      destruct (u_new (w_last w) n s) as [l o]. cbn [fst snd] in E1, E2. subst l o.
      destruct (nltb s n0); cbn [assign_result fst snd].
      + split; [|split; [reflexivity|auto]]. split; [cbn; lia|]. intro u. cbn.
        eapply wf_mono; [|apply H]. lia.
      + split; [|split; [reflexivity|auto]]. apply wwf_set; [|exact W]. split; [cbn; lia|]. intro u.
        cbn. eapply wf_mono; [|apply H]. lia.
    - apply const_wf.
    - apply default_wf.
    - apply H.
    - destruct (H x); split; auto.
    - apply unary_wf, H.
    - destruct (nary_wf (w_last w) (map (w_var w) xs) (f (map (fun x => u_n (w_var w x)) xs))
                  (dfs (map (fun x => u_n (w_var w x)) xs))) as (z & E & Wz).
      + apply Forall_forall. intros y Hy. apply in_map_iff in Hy as (k & <- & _). apply H.
      + rewrite map_length. apply HN. now rewrite map_length.
      + rewrite E. now apply Set_.
    - apply unary_wf, H.
    - apply s_caching_wf, H.
    - rewrite var_caching_snd. apply s_caching_wf, H.
  Qed.

  Lemma gen_run cs : forall w : world N, wwf w -> Forall nary_ok cs ->
    (w_last w + Z.of_nat (count_new cs) < maxid)%Z ->
    exists w', run w cs = Ret w' /\ wwf w' /\ w_last w' = (w_last w + Z.of_nat (count_new cs))%Z.
  Proof.
    induction cs as [|c cs IH]; intros w W F B.
    - exists w. split; [reflexivity|]. split; [exact W|]. cbn; lia.
    - inversion F as [|? ? Fc Fcs]; subst.
      assert (C : Z.of_nat (count_new (c :: cs))
                  = ((if is_new c then 1 else 0) + Z.of_nat (count_new cs))%Z).
      { unfold count_new. cbn [filter]. destruct (is_new c); cbn [length]; lia. }
      rewrite C in *.
      destruct (gen_exec w c W Fc) as (W1 & L1 & O); [destruct (is_new c); lia|].
      destruct (IH (fst (exec w c)) W1 Fcs) as (w' & Er & W' & L'); [lia|].
      exists w'. cbn [run]. destruct (exec w c) as [w1 o]. cbn [fst snd] in *.
      split; [|split; [exact W'|lia]]. destruct O as [-> | ->]; exact Er.
  Qed.

  Lemma gen_run_init cs : Forall nary_ok cs -> (count_new cs <= max_new)%nat ->
    exists w', run (w_init : world N) cs = Ret w' /\ wwf w' /\ w_last w' = Z.of_nat (count_new cs) /\
               (w_last w' < maxid)%Z.
  Proof.
    intros F C. apply max_new_lt in C.
    destruct (gen_run cs w_init) as (w' & E & W & L).
    - split; [cbn; lia|]. intro v. apply default_wf.
    - exact F.
    - cbn; lia.
    - exists w'. split; [exact E|]. split; [exact W|]. cbn in L. split; lia.
  Qed.

  Lemma isindep_ok last x : wf last x -> exists b, u_isindep (N := N) x = Ret b.
  Proof.
    intro W. unfold u_isindep. destruct (Z.ltb_spec (uid x) 0); cbn; eauto.
    rewrite (wf_nonneg _ _ W) by lia. cbn. eauto.
  Qed.
  Lemma indepid_ok last x : wf last x -> exists i, u_indepid (N := N) x = Ret i.
  Proof.
    intro W. unfold u_indepid.
    destruct (Z.ltb_spec (uid x) 0); cbn [orb].
    - cbn [assert_ bind]. destruct (Z.leb_spec 0 (uid x)); [lia|].
      destruct (usigma x) as [|[k v] [|]]; cbn; eauto.
    - rewrite (wf_nonneg _ _ W) by lia. cbn. destruct (Z.leb_spec 0 (uid x)); eauto.
  Qed.
  Lemma grad_ok (y x : ureal N) : (exists r, u_grad y x = Ret r) \/ u_grad y x = Throw InvalidArgument.
  Proof.
    unfold u_grad. destruct (Z.ltb_spec 0 (uid x)); cbn [orb negb bind].
    - left. destruct (mfind _ _); eauto.
    - destruct (usigma x) as [|[k v] [|]]; cbn; eauto. left. dopt; eauto.
  Qed.
End GenRun.

(** ** C46 *)

Lemma C46_no_undefined_behaviour_proof : forall (N : Num), nltb (n0 : N) n0 = false ->
  forall cs : list (call N), Forall nary_ok cs -> (count_new cs <= max_new)%nat ->
  exists w, run w_init cs = Ret w /\
    (forall v, exists b, u_isindep (w_var w v) = Ret b) /\
    (forall v, exists i, u_indepid (w_var w v) = Ret i) /\
    (forall u v, (exists r, u_grad (w_var w u) (w_var w v) = Ret r) \/
                 u_grad (w_var w u) (w_var w v) = Throw InvalidArgument) /\
    (forall u v mu dx dy, exists z, u_binary (w_var w u) (w_var w v) mu dx dy = Ret z).
Proof.
  intros N Hz cs F C. destruct (gen_run_init Hz cs F C) as (w & E & (P & W) & L & B).
  exists w. split; [exact E|].
  split; [intro v; eapply isindep_ok; eauto|].
  split; [intro v; eapply indepid_ok; eauto|].
  split; [intros u v; apply grad_ok|].
  intros u v mu dx dy.
  destruct (binary_wf (w_last w) (w_var w u) (w_var w v) mu dx dy) as (z & Ez & _); eauto.
Qed.

(** ** C14, conversions *)

Lemma C14_convert_roundtrip_proof : forall (M : Num) (c : RN -> M) (d : M -> RN),
  (forall a, d (c a) = a) ->
  forall w, reachable w -> forall v, u_convert d (u_convert c (w_var w v)) = w_var w v.
Proof.
  intros M c d Hcd w Rw v. destruct (reachable_rep w Rw) as (last & g & _ & H).
  assert (S := wf_sorted _ _ (rep_wf _ _ _ (H v))). destruct (w_var w v) as [i sd mu sg].
  cbn [usigma] in S. unfold u_convert at 1. rewrite (convert_sigma c) by assumption.
  cbn [uid usdev umu u_convert usigma]. rewrite !Hcd. f_equal.
  assert (E := convert_sigma d (mkU i (c sd) (c mu) (mmap c sg)) (proj2 (msorted_mmap c sg) S)).
  cbn [u_convert usigma] in E. rewrite E. unfold mmap. rewrite map_map. cbn [fst snd].
  rewrite <- (map_id sg) at 2. apply map_ext. intros [k a]. cbn. now rewrite Hcd.
Qed.

Lemma convert_cov_loop {N : Num} (c : N -> R) : hom c -> forall xs ys a,
  u_cov_loop (N := RN) (mmap c xs) (mmap c ys) (c a) = c (u_cov_loop xs ys a).
Proof.
  intros (H0 & Ha & Hm). induction xs as [|[xk xv] xs IHx]; intro ys.
  - intro a. destruct ys as [|[? ?] ?]; reflexivity.
  - induction ys as [|[yk yv] ys IHy]; intro a; [reflexivity|].
    assert (E : (if (xk =? yk)%Z then c a + c xv * c yv else c a)
                = c (if (xk =? yk)%Z then nadd a (nmul xv yv) else a)).
    { destruct (xk =? yk)%Z; [now rewrite Ha, Hm|reflexivity]. }
    cbn [mmap map fst snd] in *. cbn [u_cov_loop]. cbn [nadd nmul RN].
    destruct (Z.leb_spec xk yk) as [Hle|Hgt].
    + destruct (Z.leb_spec yk xk) as [Hle2|Hlt].
      * rewrite <- IHx. f_equal. exact E.
      * change ((yk, c yv) :: map (fun kv => (fst kv, c (snd kv))) ys) with (mmap c ((yk, yv) :: ys)).
        rewrite <- IHx. f_equal. exact E.
    + destruct (Z.eqb_spec xk yk); [lia|]. apply IHy.
Qed.

Lemma C14_convert_keeps_covariance_proof : forall (N : Num) (c : N -> RN), hom c ->
  nltb (n0 : N) n0 = false ->
  forall cs : list (call N), Forall nary_ok cs -> (count_new cs <= max_new)%nat ->
  forall w, run w_init cs = Ret w -> forall u v,
  let x := w_var w u in let y := w_var w v in
  u_n (u_convert c x) = c (u_n x) /\
  u_isindep (u_convert c x) = u_isindep x /\ u_indepid (u_convert c x) = u_indepid x /\
  u_cov (u_convert c x) (u_convert c y) = c (u_cov x y).
Proof.
  intros N c Hc Hz cs F C w E u v x y.
  destruct (gen_run_init Hz cs F C) as (w' & E' & (P & W) & _ & _).
  rewrite E in E'; injection E' as <-.
  assert (Sx := wf_sorted _ _ (W u)). assert (Sy := wf_sorted _ _ (W v)).
  fold x in Sx. fold y in Sy. clearbody x y. clear - Hc Sx Sy.
  assert (Ex := convert_sigma c x Sx). assert (Ey := convert_sigma c y Sy).
  assert (Lx : length (usigma (u_convert c x)) = length (usigma x))
    by (rewrite Ex; unfold mmap; apply map_length).
  split; [reflexivity|]. split; [|split].
  - unfold u_isindep. cbn [uid u_convert] in *. rewrite Lx. reflexivity.
  - unfold u_indepid. rewrite Lx, Ex. cbn [uid u_convert].
    destruct (usigma x) as [|[k a] s]; reflexivity.
  - unfold u_cov. rewrite Ex, Ey. cbn [uid usdev u_convert].
    destruct Hc as (H0 & Ha & Hm).
    rewrite !mfind_mmap.
    repeat match goal with |- context [if ?b then _ else _] =>
      lazymatch b with context [if _ then _ else _] => fail | _ => destruct b end end;
    try (symmetry; exact H0).
    + cbn. now rewrite Ha, Hm, H0.
    + destruct (mfind (uid y) (usigma x)); cbn; [|now rewrite H0]. now rewrite Ha, Hm, H0.
    + destruct (mfind (uid x) (usigma y)); cbn; [|now rewrite H0]. now rewrite Ha, Hm, H0.
    + change (@n0 RN) with (0 : R). rewrite <- H0. now apply convert_cov_loop.
Qed.

(** ** C15 *)

Lemma rep_grad_throw last x a y : rep last x a ->
  (u_grad y x = Throw InvalidArgument <-> ~ (exists i, l_dep a i /\ forall j, l_dep a j -> j = i)).
Proof.
  intros Rx. assert (D := rep_dep _ _ _ Rx). unfold u_grad.
  assert (W := rep_wf _ _ _ Rx).
  destruct (Z.ltb_spec 0 (uid x)) as [Hp|Hp]; cbn [orb negb bind].
  - split.
    + destruct (mfind _ _); discriminate.
    + intro Hn. exfalso. apply Hn. exists (uid x). rewrite <- D, ukeys_pos by lia. split; [now left|].
      intros j Hj. apply D in Hj. rewrite ukeys_pos in Hj by lia. destruct Hj as [<-|[]]; reflexivity.
  - destruct (Z.eq_dec (uid x) 0) as [Hz|Hz].
    + rewrite (wf_nonneg _ _ W) by lia. cbn. split; [|reflexivity]. intros _ (i & Hi & _).
      apply D in Hi. rewrite ukeys_zero in Hi by assumption. destruct Hi.
    + assert (Hk : ukeys x = map fst (usigma x)) by (apply ukeys_neg; lia).
      assert (ND := msorted_NoDup _ (wf_sorted _ _ W)).
      destruct (usigma x) as [|[k v] [|[k2 v2] s]]; cbn [length Nat.eqb negb].
      * split; [|reflexivity]. intros _ (i & Hi & _). apply D in Hi. rewrite Hk in Hi. destruct Hi.
      * cbn [bind]. split.
        -- dopt; discriminate.
        -- intro Hn. exfalso. apply Hn. exists k. rewrite <- D, Hk. split; [now left|].
           intros j Hj. apply D in Hj. rewrite Hk in Hj. destruct Hj as [<-|[]]; reflexivity.
      * split; [|reflexivity]. intros _ (i & Hi & Hu).
        assert (k = i) by (apply Hu, D; rewrite Hk; now left).
        assert (k2 = i) by (apply Hu, D; rewrite Hk; right; now left).
        subst. cbn in ND. inversion ND as [|? ? Nin _]; subst. apply Nin. now left.
Qed.

Lemma rep_grad_value last x a y b i : rep last x a -> rep last y b -> (uid y < 0)%Z ->
  l_dep a i -> (forall j, l_dep a j -> j = i) ->
  exists r, u_grad y x = Ret r /\ (l_coef a i <> 0 -> r * l_coef a i = l_coef b i).
Proof.
  intros Rx Ry Hy Hi Hu. assert (D := rep_dep _ _ _ Rx). assert (W := rep_wf _ _ _ Rx).
  assert (Cx := rep_coef _ _ _ Rx i). assert (Cy := rep_coef _ _ _ Ry i).
  rewrite coef_neg in Cy by assumption. unfold mget in Cy. unfold u_grad.
  destruct (Z.ltb_spec 0 (uid x)) as [Hp|Hp]; cbn [orb negb bind].
  - assert (uid x = i) by (apply Hu, D; rewrite ukeys_pos by lia; now left). subst i.
    rewrite coef_pos, Z.eqb_refl in Cx by assumption. nR.
    revert Cy; dopt; intro Cy; eexists; (split; [reflexivity|]); intro Hn.
    + rewrite <- Cy, <- Cx. cbn. rewrite <- Cx in Hn. rfield. assumption.
    + rewrite <- Cy. rring.
  - destruct (Z.eq_dec (uid x) 0) as [Hz|Hz].
    + apply D in Hi. rewrite ukeys_zero in Hi by assumption. destruct Hi.
    + assert (Hk : ukeys x = map fst (usigma x)) by (apply ukeys_neg; lia).
      assert (ND := msorted_NoDup _ (wf_sorted _ _ W)).
      rewrite coef_neg in Cx by lia. unfold mget in Cx.
      destruct (usigma x) as [|[k v] [|[k2 v2] s]]; cbn [length Nat.eqb negb].
      * apply D in Hi. rewrite Hk in Hi. destruct Hi.
      * assert (k = i) by (apply Hu, D; rewrite Hk; now left). subst k.
        cbn [mfind] in Cx. rewrite kcmp_refl in Cx. cbn [bind]. nR.
        revert Cy; dopt; intro Cy; eexists; (split; [reflexivity|]); intro Hn.
        -- rewrite <- Cy, <- Cx. cbn. rewrite <- Cx in Hn. rfield. assumption.
        -- rewrite <- Cy. rring.
      * exfalso. assert (k = i) by (apply Hu, D; rewrite Hk; now left).
        assert (k2 = i) by (apply Hu, D; rewrite Hk; right; now left).
        subst. cbn in ND. inversion ND as [|? ? Nin _]; subst. apply Nin. now left.
Qed.

Lemma C15_grad_throws_iff_proof : forall cs w, legal cs -> run w_init cs = Ret w -> forall u v,
  u_grad (w_var w v) (w_var w u) = Throw InvalidArgument <->
  ~ (exists i, l_dep (s_var (spec_run s_init cs) u) i /\
               forall j, l_dep (s_var (spec_run s_init cs) u) j -> j = i).
Proof.
  intros cs w L E u v. destruct (legal_sim cs L) as (w' & E' & (EL & P & H) & _).
  rewrite E in E'; injection E' as <-. eapply rep_grad_throw, H.
Qed.

Lemma C15_grad_partial_proof : forall cs c v w, legal cs -> nary_ok c ->
  match c with CBinary t _ _ _ _ _ | CNary t _ _ _ | CAdd t _ _ | CSub t _ _ | CMul t _ _
             | CDiv t _ _ => t = v
             | CAssign t x _ _ _ | CAddA t x | CSubA t x | CMulA t x | CDivA t x => t = v /\ x <> v
             | _ => False end ->
  run w_init (cs ++ [c]) = Ret w ->
  let sw := spec_run s_init (cs ++ [c]) in
  forall u i, l_dep (s_var sw u) i -> (forall j, l_dep (s_var sw u) j -> j = i) ->
    l_coef (s_var sw u) i <> 0 ->
    u_grad (w_var w v) (w_var w u) = Ret (l_coef (s_var sw v) i / l_coef (s_var sw u) i).
Proof.
  intros cs c v w L Nc Hc E sw u i Hi Hu Hn. unfold sw in *. clear sw.
  rewrite spec_run_app in *. cbn [spec_run fold_left] in *.
  assert (Ic : is_new c = false) by (destruct c; try reflexivity; destruct Hc).
  destruct (legal_sim cs L) as (w0 & E0 & W0 & _).
  destruct (snoc_sim cs c w0 L E0 Nc) as (w' & E' & Ew & (EL & P & H) & _).
  { rewrite count_new_app. unfold count_new at 2. cbn [filter]. rewrite Ic. cbn [length].
    rewrite Nat.add_0_r. apply L. }
  rewrite E in E'; injection E' as <-.
  assert (Hid : (uid (w_var w v) < 0)%Z).
  { assert (Hr : run w0 [c] = Ret w).
    { rewrite run_app, E0 in E. exact E. }
    assert (Bin : forall x y mu dx dy, fst (assign_result w0 v (u_binary (w_var w0 x) (w_var w0 y) mu dx dy)) = w ->
       (uid (w_var w v) < 0)%Z).
    { intros x y mu dx dy. destruct W0 as (_ & P0 & H0).
      destruct (rep_binary (w_last w0) _ _ _ _ mu dx dy mu dx dy (H0 x) (H0 y)) as (z & Ez & _); auto.
      { destruct (legal_sim cs L) as (w1 & E1 & _ & L1). rewrite E0 in E1; injection E1 as <-.
        destruct L as (_ & _ & C). apply max_new_lt in C. lia. }
      rewrite Ez. intros <-. cbn. unfold upd. rewrite Nat.eqb_refl.
      unfold u_binary in Ez. match type of Ez with bind ?e _ = _ => destruct e; try discriminate Ez end.
      injection Ez as <-. cbn. unfold invalid_id; lia. }
    clear H Hi Hu Hn EL P.
    destruct c; try (exfalso; exact Hc); cbn [exec] in Ew; try (destruct Hc; exact (Bin _ _ _ _ _ Ew));
    try (destruct Hc as [-> Hx]; subst w; cbn -[u_binary_assign]; unfold upd; rewrite Nat.eqb_refl;
         unfold u_add_assign, u_sub_assign, u_mul_assign, u_div_assign, u_assign_gen;
         destruct (Nat.eqb_spec v x); [congruence|]; cbn; unfold invalid_id; lia).
    subst v0. destruct W0 as (_ & P0 & H0).
    destruct (nary_wf (w_last w0) (map (w_var w0) xs) (f (map (fun x => u_n (w_var w0 x)) xs))
                (dfs (map (fun x => u_n (w_var w0 x)) xs))) as (z & Ez & _).
    - apply Forall_forall. intros y Hy. apply in_map_iff in Hy as (k & <- & _). apply (H0 k).
    - rewrite map_length. apply Nc. now rewrite map_length.
    - rewrite Ez in Ew. subst w. cbn. unfold upd. rewrite Nat.eqb_refl.
      unfold u_nary in Ez. destruct (u_nary_loop (map (w_var w0) xs)); try discriminate.
      injection Ez as <-. cbn. unfold invalid_id; lia. }
  destruct (rep_grad_value _ _ _ _ _ i (H u) (H v) Hid Hi Hu) as (r & Er & Hr).
  rewrite Er. f_equal. rewrite <- (Hr Hn). nR. field. assumption.
Qed.

(** x.grad(x) is 0 for an independent variable x, although x has derivative 1 with
    respect to itself. *)
Lemma C15_grad_refuted_proof : exists cs w u i, legal cs /\ run w_init cs = Ret w /\
  (let a := s_var (spec_run s_init cs) u in
   l_dep a i /\ (forall j, l_dep a j -> j = i) /\ l_coef a i <> 0 /\
   l_coef a i / l_coef a i = 1) /\
  u_grad (w_var w u) (w_var w u) = Ret 0.
Proof.
  assert (L : legal [CNew 0 5 1 : call RN]).
  { split; [repeat constructor|]. split; [repeat constructor|]. apply max_new_Z. cbn. lia. }
  exists [CNew 0%nat 5 1]. destruct (legal_sim _ L) as (w & E & _). exists w, 0%nat, 1%Z.
  split; [exact L|]. split; [exact E|].
  assert (H : ~ (1 < 0)) by lra.
  split.
  - cbn. destruct (Rlt_dec 1 0) as [F|_]; [contradiction|]. cbn.
    repeat split; try lra. intros j ->. reflexivity.
  - revert E. cbn. destruct (Rltb_spec 1 0) as [F|_]; [contradiction|]. cbn. intro E.
    injection E as <-. reflexivity.
Qed.

(** ** C16 *)

Lemma sv_exists last w g op x y a b m dx dy :
  (0 <= last < maxid)%Z -> (forall v, rep last (w_var w v) (g v)) ->
  rep last x a -> rep last y b ->
  op x y = u_binary x y m dx dy ->
  exists z : ureal RN, op x y = Ret z /\ rep last z (lin_binary a b m dx dy).
Proof.
  intros B H Rx Ry ->. destruct (rep_binary last x y a b m dx dy m dx dy) as (z & E & Rz); auto; try lia.
  eauto.
Qed.

Section Identities.
  Context (last : Z) (w : world RN) (g : nat -> lin).
  Hypothesis (B : (0 <= last < maxid)%Z) (H : forall v, rep last (w_var w v) (g v)).

  Lemma r_add x y a b : rep last x a -> rep last y b ->
    exists z, u_add x y = Ret z /\ rep last z (lin_binary a b (l_mean a + l_mean b) 1 1).
  Proof.
    intros Rx Ry. destruct (rep_binary last x y a b (umu x + umu y) 1 1 (l_mean a + l_mean b) 1 1)
      as (z & E & Rz); auto; try lia.
    - now rewrite (rep_mean _ _ _ Rx), (rep_mean _ _ _ Ry).
    - exists z. split; [exact E|exact Rz].
  Qed.
  Lemma r_sub x y a b : rep last x a -> rep last y b ->
    exists z, u_sub x y = Ret z /\ rep last z (lin_binary a b (l_mean a - l_mean b) 1 (-1)).
  Proof.
    intros Rx Ry. destruct (rep_binary last x y a b (umu x - umu y) 1 (-1) (l_mean a - l_mean b) 1 (-1))
      as (z & E & Rz); auto; try lia.
    - now rewrite (rep_mean _ _ _ Rx), (rep_mean _ _ _ Ry).
    - exists z. split; [exact E|exact Rz].
  Qed.
  Lemma r_mul x y a b : rep last x a -> rep last y b ->
    exists z, u_mul x y = Ret z /\ rep last z (lin_binary a b (l_mean a * l_mean b) (l_mean b) (l_mean a)).
  Proof.
    intros Rx Ry. destruct (rep_binary last x y a b (umu x * umu y) (umu y) (umu x)
        (l_mean a * l_mean b) (l_mean b) (l_mean a)) as (z & E & Rz); auto; try lia.
    - now rewrite (rep_mean _ _ _ Rx), (rep_mean _ _ _ Ry).
    - apply Ry.
    - apply Rx.
    - exists z. split; [exact E|exact Rz].
  Qed.
  Lemma r_div x y a b : rep last x a -> rep last y b ->
    exists z, u_div x y = Ret z /\
      rep last z (lin_binary a b (l_mean a / l_mean b) (/ l_mean b) (- l_mean a / (l_mean b * l_mean b))).
  Proof.
    intros Rx Ry. destruct (rep_binary last x y a b (umu x * (1 / umu y)) (1 / umu y)
       (- (umu x * (1 / umu y)) * (1 / umu y))
       (l_mean a / l_mean b) (/ l_mean b) (- l_mean a / (l_mean b * l_mean b)) Rx Ry) as (z & E & Rz).
    - lia.
    - rewrite (rep_mean _ _ _ Rx), (rep_mean _ _ _ Ry). unfold Rdiv. rg.
    - rewrite (rep_mean _ _ _ Ry). unfold Rdiv. rg.
    - rewrite (rep_mean _ _ _ Rx), (rep_mean _ _ _ Ry). unfold Rdiv. rewrite Rinv_mult. rg.
    - exists z. split; [exact E|exact Rz].
  Qed.
  Lemma r_neg x a : rep last x a -> rep last (u_neg x) (lin_unary a (- l_mean a) (-1)).
  Proof.
    intros Rx. apply rep_unary; auto. cbn. now rewrite (rep_mean _ _ _ Rx).
  Qed.
  Lemma same x y a b : rep last x a -> rep last y b -> lin_eq a b -> same_value w x y.
  Proof. intros. eapply same_value_of_rep; eauto. Qed.
End Identities.

Ltac lineq := split; [cbn; try ring|split; intro; cbn; [try ring|try tauto]].

Lemma C16_sub_self_proof : forall w, reachable w -> forall u,
  exists z, u_sub (w_var w u) (w_var w u) = Ret z /\ u_n z = 0 /\ u_s z = 0 /\
            forall t, u_cov z (w_var w t) = 0.
Proof.
  intros w Rw u. destruct (reachable_rep w Rw) as (last & g & B & H).
  destruct (r_sub last B _ _ _ _ (H u) (H u)) as (z & E & Rz).
  exists z. split; [exact E|].
  assert (Z0 : forall i, l_coef (lin_binary (g u) (g u) (l_mean (g u) - l_mean (g u)) 1 (-1)) i = 0)
    by (intro; cbn; ring).
  split; [rewrite (rep_n _ _ _ Rz); cbn; ring|]. split.
  - rewrite (rep_s _ _ _ Rz). unfold lin_sdev, lin_var, lin_cov.
    rewrite sum_ids_zero by (intro; rewrite Z0; ring). apply sqrt_0.
  - intro t. rewrite (rep_cov _ _ _ _ _ Rz (H t)). apply sum_ids_zero. intro; rewrite Z0; ring.
Qed.
Lemma C16_div_self_proof : forall w, reachable w -> forall u, u_n (w_var w u) <> 0 ->
  exists z, u_div (w_var w u) (w_var w u) = Ret z /\ u_n z = 1 /\ u_s z = 0 /\
            forall t, u_cov z (w_var w t) = 0.
Proof.
  intros w Rw u Hn. destruct (reachable_rep w Rw) as (last & g & B & H).
  rewrite (rep_n _ _ _ (H u)) in Hn.
  destruct (r_div last B _ _ _ _ (H u) (H u)) as (z & E & Rz).
  exists z. split; [exact E|].
  match type of Rz with rep _ _ ?b =>
    assert (Z0 : forall i, l_coef b i = 0) by (intro; cbn; field; assumption) end.
  split; [rewrite (rep_n _ _ _ Rz); cbn; field; assumption|]. split.
  - rewrite (rep_s _ _ _ Rz). unfold lin_sdev, lin_var, lin_cov.
    rewrite sum_ids_zero by (intro; rewrite Z0; ring). apply sqrt_0.
  - intro t. rewrite (rep_cov _ _ _ _ _ Rz (H t)). apply sum_ids_zero. intro; rewrite Z0; ring.
Qed.
Lemma C16_commutative_proof : forall w, reachable w -> forall u v,
  let x := w_var w u in let y := w_var w v in
  (exists a b, u_add x y = Ret a /\ u_add y x = Ret b /\ same_value w a b) /\
  (exists a b, u_mul x y = Ret a /\ u_mul y x = Ret b /\ same_value w a b).
Proof.
  intros w Rw u v x y. destruct (reachable_rep w Rw) as (last & g & B & H). split.
  - destruct (r_add last B _ _ _ _ (H u) (H v)) as (a & Ea & Ra).
    destruct (r_add last B _ _ _ _ (H v) (H u)) as (b & Eb & Rb).
    exists a, b. split; [exact Ea|]. split; [exact Eb|]. eapply same; eauto. lineq.
  - destruct (r_mul last B _ _ _ _ (H u) (H v)) as (a & Ea & Ra).
    destruct (r_mul last B _ _ _ _ (H v) (H u)) as (b & Eb & Rb).
    exists a, b. split; [exact Ea|]. split; [exact Eb|]. eapply same; eauto. lineq.
Qed.
Lemma C16_associative_distributive_proof : forall w, reachable w -> forall t u v,
  let x := w_var w t in let y := w_var w u in let z := w_var w v in
  (exists xy yz a b, u_add x y = Ret xy /\ u_add xy z = Ret a /\
                     u_add y z = Ret yz /\ u_add x yz = Ret b /\ same_value w a b) /\
  (exists xy yz a b, u_mul x y = Ret xy /\ u_mul xy z = Ret a /\
                     u_mul y z = Ret yz /\ u_mul x yz = Ret b /\ same_value w a b) /\
  (exists yz a xy xz b, u_add y z = Ret yz /\ u_mul x yz = Ret a /\
                     u_mul x y = Ret xy /\ u_mul x z = Ret xz /\ u_add xy xz = Ret b /\
                     same_value w a b).
Proof.
  intros w Rw t u v x y z. destruct (reachable_rep w Rw) as (last & g & B & H).
  assert (Hx := H t). assert (Hy := H u). assert (Hz := H v). split; [|split].
  - destruct (r_add last B _ _ _ _ Hx Hy) as (xy & E1 & R1).
    destruct (r_add last B _ _ _ _ R1 Hz) as (a & E2 & R2).
    destruct (r_add last B _ _ _ _ Hy Hz) as (yz & E3 & R3).
    destruct (r_add last B _ _ _ _ Hx R3) as (b & E4 & R4).
    exists xy, yz, a, b. do 4 (split; [assumption|]). eapply same; eauto. lineq.
  - destruct (r_mul last B _ _ _ _ Hx Hy) as (xy & E1 & R1).
    destruct (r_mul last B _ _ _ _ R1 Hz) as (a & E2 & R2).
    destruct (r_mul last B _ _ _ _ Hy Hz) as (yz & E3 & R3).
    destruct (r_mul last B _ _ _ _ Hx R3) as (b & E4 & R4).
    exists xy, yz, a, b. do 4 (split; [assumption|]). eapply same; eauto. lineq.
  - destruct (r_add last B _ _ _ _ Hy Hz) as (yz & E1 & R1).
    destruct (r_mul last B _ _ _ _ Hx R1) as (a & E2 & R2).
    destruct (r_mul last B _ _ _ _ Hx Hy) as (xy & E3 & R3).
    destruct (r_mul last B _ _ _ _ Hx Hz) as (xz & E4 & R4).
    destruct (r_add last B _ _ _ _ R3 R4) as (b & E5 & R5).
    exists yz, a, xy, xz, b. do 5 (split; [assumption|]). eapply same; eauto. lineq.
Qed.
Lemma C16_inverse_operations_proof : forall w, reachable w -> forall u v,
  let x := w_var w u in let y := w_var w v in
  same_value w (u_neg (u_neg x)) x /\
  (exists a b, u_add x x = Ret a /\ u_mul (u_const 2) x = Ret b /\ same_value w a b) /\
  (exists a b, u_sub x y = Ret a /\ u_add x (u_neg y) = Ret b /\ same_value w a b) /\
  (u_n y <> 0 ->
   exists q p, u_div x y = Ret q /\ u_mul q y = Ret p /\
     u_n p = u_n x /\ u_s p = u_s x /\ u_var p = u_var x /\
     forall t, u_cov p (w_var w t) = u_cov x (w_var w t)).
Proof.
  intros w Rw u v x y. destruct (reachable_rep w Rw) as (last & g & B & H).
  assert (Hx := H u). assert (Hy := H v). unfold x, y. split; [|split; [|split]].
  - eapply same; [exact H| |exact Hx|].
    + apply r_neg, r_neg, Hx.
    + lineq.
  - destruct (r_add last B _ _ _ _ Hx Hx) as (a & E1 & R1).
    destruct (r_mul last B _ _ _ _ (rep_const last 2) Hx) as (b & E2 & R2).
    exists a, b. do 2 (split; [assumption|]). eapply same; eauto. lineq.
  - destruct (r_sub last B _ _ _ _ Hx Hy) as (a & E1 & R1).
    destruct (r_add last B _ _ _ _ Hx (r_neg last _ _ Hy)) as (b & E2 & R2).
    exists a, b. do 2 (split; [assumption|]). eapply same; eauto. lineq.
  - intros Hn. rewrite (rep_n _ _ _ Hy) in Hn.
    destruct (r_div last B _ _ _ _ Hx Hy) as (q & E1 & R1).
    destruct (r_mul last B _ _ _ _ R1 Hy) as (p & E2 & R2).
    exists q, p. do 2 (split; [assumption|]).
    match type of R2 with rep _ _ ?b =>
      assert (C0 : forall i, l_coef b i = l_coef (g u) i) by (intro; cbn; field; assumption) end.
    split; [rewrite (rep_n _ _ _ R2), (rep_n _ _ _ Hx); cbn; field; assumption|].
    split; [rewrite (rep_s _ _ _ R2), (rep_s _ _ _ Hx); unfold lin_sdev, lin_var, lin_cov;
            f_equal; apply rsum_ext; intros; now rewrite !C0|].
    split; [rewrite (rep_var _ _ _ R2), (rep_var _ _ _ Hx); unfold lin_var, lin_cov;
            apply rsum_ext; intros; now rewrite !C0|].
    intro t. rewrite (rep_cov _ _ _ _ _ R2 (H t)), (rep_cov _ _ _ _ _ Hx (H t)).
    apply rsum_ext; intros; now rewrite !C0.
Qed.

(** ** C47 *)

Lemma run_news n : (Z.of_nat n < maxid)%Z ->
  exists w, run (w_init : world RN) (repeat (CNew 0%nat 0 1) n) = Ret w /\
    w_last w = Z.of_nat n /\ (n <> 0%nat -> w_var w 0%nat = mkU (Z.of_nat n) 1 0 []).
Proof.
  intro B. assert (K : forall n (w : world RN), (0 <= w_last w)%Z -> (w_last w + Z.of_nat n < maxid)%Z ->
    exists w', run w (repeat (CNew 0%nat 0 1) n) = Ret w' /\ w_last w' = (w_last w + Z.of_nat n)%Z /\
      (n <> 0%nat -> w_var w' 0%nat = mkU (w_last w')%Z 1 0 [])).
  { clear. induction n as [|n IH]; intros w P B.
    - exists w. split; [reflexivity|]. split; [lia|congruence].
    - destruct (new_wf (N := RN) (w_last w) 0 1) as (E1 & _ & E2); [lia|].
      cbn [repeat run exec].
      destruct (u_new (w_last w) (0 : RN) (1 : RN)) as [l o]. cbn [fst snd] in E1, E2. subst l o.
      cbn [nltb RN n0]. destruct (Rltb_spec 1 0) as [F|_]; [lra|]. cbn [assign_result].
      destruct (IH (w_set (mkW (w_last w + 1) (w_var w)) 0%nat (mkU (w_last w + 1) 1 0 [])))
        as (w' & E & L & V); [cbn; lia|cbn; lia|].
      exists w'. split; [exact E|]. cbn [w_last w_set] in L. split; [lia|].
      intros _. destruct n as [|n]; [|apply V; lia]. cbn in E. injection E as <-. reflexivity. }
  destruct (K n w_init) as (w & E & L & V); [cbn; lia|cbn; lia|].
  exists w. cbn in L. split; [exact E|]. split; [exact L|]. intro Hn. rewrite (V Hn), L. reflexivity.
Qed.

Lemma Z_max_new : Z.of_nat max_new = 2147483646%Z.
Proof.
  assert (A := proj1 (max_new_Z max_new) (le_n _)).
  assert (B := proj2 (max_new_Z (Z.to_nat 2147483646))).
  assert (Z.of_nat (Z.to_nat 2147483646) <= Z.of_nat max_new)%Z; [|lia].
  apply inj_le, B. lia.
Qed.

Lemma count_repeat n (v : nat) (a b : RN) : count_new (repeat (CNew v a b) n) = n.
Proof. unfold count_new. induction n; cbn; congruence. Qed.

Lemma after_max : exists w, run (w_init : world RN) (repeat (CNew 0%nat 0 1) max_new) = Ret w /\
  w_last w = 2147483646%Z /\ w_var w 0%nat = mkU 2147483646 1 0 [].
Proof.
  destruct (run_news max_new) as (w & E & L & V).
  - rewrite Z_max_new. reflexivity.
  - exists w. rewrite Z_max_new in *. split; [exact E|]. split; [exact L|]. apply V.
    intro H0. assert (Z.of_nat max_new = 0%Z) by now rewrite H0. rewrite Z_max_new in H. discriminate.
Qed.

(** One construction more than the limit, then two sums and the sum of these: the merge
    of the two dependent variables reads through an end iterator. *)
Definition exhausting_history : list (call RN) :=
  repeat (CNew 0%nat 0 1) max_new ++
  [CAdd 1%nat 0%nat 0%nat; CNew 2%nat 0 1; CAdd 3%nat 2%nat 2%nat; CAdd 4%nat 3%nat 1%nat].

Lemma C47_exhaustion_ub : Forall nary_ok exhausting_history /\
  count_new exhausting_history = S max_new /\ run w_init exhausting_history = UB.
Proof.
  unfold exhausting_history. split; [|split].
  - apply Forall_app. split; [|repeat constructor]. apply Forall_forall.
    intros c Hc. apply repeat_spec in Hc. subst. exact I.
  - rewrite count_new_app, count_repeat. cbn. lia.
  - destruct after_max as (w & E & L & V). rewrite run_app, E. cbn [bind].
    destruct w as [l g]. cbn [w_last w_var] in L, V. subst l.
    unfold run, exec. cbn [w_var w_last]. rewrite V. unfold u_new.
    change (wrap32 (2147483646 + 1)) with 2147483647%Z. cbn [usdev].
    unfold u_add, u_binary. cbn [uid usigma andb Z.ltb Z.compare Pos.compare Pos.compare_cont umu usdev].
    cbn [mset mupd mget mfind kcmp ZKey Z.compare Pos.compare Pos.compare_cont bind assign_result].
    cbn [nltb RN n0]. destruct (Rltb_spec 1 0) as [F|_]; [lra|].
    cbn [assign_result w_set w_var w_last]. unfold upd. cbn [Nat.eqb].
    cbn [uid usigma andb Z.ltb Z.compare Pos.compare Pos.compare_cont umu usdev w_var w_last invalid_id].
    cbn. reflexivity.
Qed.

(** One construction more again: the constructor succeeds but the new variable reports
    no id, and its covariance with itself is not its variance. *)
Lemma C47_exhaustion_id : exists w : world RN,
  run w_init (repeat (CNew 0%nat 0 1) max_new ++ [CNew 2%nat 0 1; CNew 3%nat 0 1]) = Ret w /\
  u_indepid (w_var w 3%nat) = Ret 0%Z /\ u_var (w_var w 3%nat) = 1 /\
  u_cov (w_var w 3%nat) (w_var w 3%nat) = 0.
Proof.
  destruct after_max as (w & E & L & V). destruct w as [l g]. cbn [w_last w_var] in L, V. subst l.
  eexists. split.
  - rewrite run_app, E. cbn [bind]. unfold run, exec. cbn [w_var w_last]. unfold u_new.
    change (wrap32 (2147483646 + 1)) with 2147483647%Z. cbn [usdev].
    cbn [nltb RN n0]. destruct (Rltb_spec 1 0) as [F|_]; [lra|].
    cbn [assign_result w_set w_var w_last].
    change (wrap32 (2147483647 + 1)) with (-2147483648)%Z. reflexivity.
  - cbn. split; [reflexivity|]. split; [|reflexivity]. unfold u_var. cbn.
    destruct (Rleb_spec 0 1); cbn; lra.
Qed.

Lemma C47_id_exhaustion_refuted_proof :
  (exists cs : list (call RN), Forall nary_ok cs /\ count_new cs = S max_new /\ run w_init cs = UB) /\
  (exists (cs : list (call RN)) w v n s,
     count_new cs = S max_new /\ 0 <= s /\ run w_init (cs ++ [CNew v n s]) = Ret w /\
     u_indepid (w_var w v) = Ret 0%Z /\ u_var (w_var w v) = 1 /\ u_cov (w_var w v) (w_var w v) = 0).
Proof.
  split.
  - exists exhausting_history. exact C47_exhaustion_ub.
  - destruct C47_exhaustion_id as (w & E & H1 & H2 & H3).
    exists (repeat (CNew 0%nat 0 1) max_new ++ [CNew 2%nat 0 1]), w, 3%nat, 0, 1.
    split; [rewrite count_new_app, count_repeat; cbn; lia|]. split; [lra|].
    split; [|auto]. rewrite <- app_assoc. exact E.
Qed.
