(** * UPoly5: the runs on sizes, the exact runs and their specifications (C83) *)

From Coq Require Import List ZArith Bool Reals Lra Lia Psatz.
From Flocq Require Import Core BinarySingleNaN.
From Verif Require Import Base Num Map UReal World URealFacts Sums SpecLin SpecObs URealR URealProofs URealProofs2 SpecCast ConvProofs.
From Verif Require Import Ieee IeeeFacts SpecIeee IeeeProofs IeeeProofs2 IeeeProofs3 IeeeProofs4 IeeeCov IoAcc1 SpecAcc2 Track AccMom2 SpecAcc3 PolyAcc3 SpecAcc4 SpecAcc5 UPoly UPoly2 UPoly3.
Import ListNotations.
Local Open Scope R_scope.

Ltac rg := match goal with |- @eq _ ?a ?b => change (@eq R a b); ring end.
Section Sizes.
  Variable eta : R.
  Lemma times_mul (a b : R) : nmul (n := sizes eta) a b = times eta a b. Proof. reflexivity. Qed.
  Lemma times_comm a b : times eta a b = times eta b a.
  Proof. unfold times. rewrite (Rmult_comm b a). reflexivity. Qed.
  Lemma times_0_l a : times eta 0 a = 0. Proof. unfold times. destruct (Req_EM_T (0 * a) 0); [reflexivity|exfalso; lra]. Qed.
  Lemma times_0_r a : times eta a 0 = 0. Proof. rewrite times_comm. apply times_0_l. Qed.

  Definition zrep (x : ureal (sizes eta)) (a : lin) : Prop := umu x = l_mean a /\ forall i, coef_on x i = l_coef a i.
  Lemma zcomb dx dy (x y z : ureal (sizes eta)) i : ufind i z = comb2 dx dy (ufind i x) (ufind i y) ->
    coef_on z i = times eta dx (coef_on x i) + times eta dy (coef_on y i).
  Proof.
    intro E. rewrite !coef_ufind, E. destruct (ufind i x) as [p|], (ufind i y) as [q|]; cbn [comb2]; change (n0 (n := sizes eta)) with 0; rewrite ?times_mul, ?times_0_r.
    - reflexivity.
    - change (times eta dx p = times eta dx p + 0). rg.
    - reflexivity.
    - rg.
  Qed.
  Lemma zcomba dx dy (x y z : ureal (sizes eta)) i : ufind i z = comb2a dx dy (ufind i x) (ufind i y) ->
    coef_on z i = times eta dx (coef_on x i) + times eta dy (coef_on y i).
  Proof.
    assert (O : forall u : sizes eta, scale_own dx u = times eta u dx) by reflexivity.
    intro E. rewrite !coef_ufind, E. destruct (ufind i x) as [p|], (ufind i y) as [q|]; cbn [comb2a]; change (n0 (n := sizes eta)) with 0; rewrite ?O, ?times_mul, ?times_0_r.
    - rewrite (times_comm dx p). reflexivity.
    - rewrite (times_comm dx p). rg.
    - reflexivity.
    - rg.
  Qed.
  Lemma zmap d (x z : ureal (sizes eta)) i : ufind i z = option_map (fun v => nmul v d) (ufind i x) -> coef_on z i = times eta (coef_on x i) d.
  Proof.
    intro E. rewrite !coef_ufind, E. destruct (ufind i x) as [p|]; cbn [option_map]; [reflexivity|]. change (n0 (n := sizes eta)) with 0. now rewrite times_0_l.
  Qed.
  Lemma zrep_set (w : world (sizes eta)) sw v x a : (forall u, zrep (w_var w u) (s_var sw u)) -> zrep x a -> forall u, zrep (w_var (w_set w v x) u) (s_var (s_set sw v a) u).
  Proof. intros H Hx u. cbn. unfold upd. destruct (Nat.eqb u v); auto. Qed.
  Lemma zassign l al x y mu dt dx a b : wf l x -> wf l y -> zrep x a -> zrep y b -> zrep (u_assign_gen al x y mu dt dx) (size_assign eta al a b mu dt dx).
  Proof.
    intros Wx Wy [Mx Cx] [My Cy]. destruct al; cbn [u_assign_gen size_assign].
    - destruct (binary_assign_self_wf l x mu dt dx Wx (fun _ => zz_s eta)) as (_ & F & Mm). split; [exact Mm|]. intro i. rewrite (zmap _ x _ i (F i)), Cx. reflexivity.
    - destruct (binary_assign_wf l x y mu dt dx Wx Wy) as (_ & F & Mm). split; [exact Mm|]. intro i. rewrite (zcomba _ _ x y _ i (F i)), Cx, Cy. reflexivity.
  Qed.
  Lemma zcaching l x a : wf l x -> zrep x a -> zrep (snd (u_s_caching x)) a.
  Proof.
    intros W [M C]. destruct (s_caching_wf l x W) as (_ & F & Ms & _). split; [now rewrite Ms|]. intro i. rewrite <- C, !coef_ufind, F. reflexivity.
  Qed.
  Lemma zexec (w : world (sizes eta)) sw k : upoly k -> wwf w -> (w_last w + (if is_new k then 1 else 0) < maxid)%Z -> w_last w = s_last sw ->
    (forall v, zrep (w_var w v) (s_var sw v)) ->
    let w' := fst (exec w (sized_ucall eta k)) in let sw' := size_exec eta sw k in w_last w' = s_last sw' /\ forall v, zrep (w_var w' v) (s_var sw' v).
  Proof.
    intros P [Lw W] B El H. assert (L : (w_last w < maxid)%Z) by (destruct (is_new k); lia).
    assert (Bin : forall v x y mu dx dy, let r := fst (assign_result w v (u_binary (w_var w x) (w_var w y) mu dx dy)) in
      let s := s_set sw v (size_binary eta (s_var sw x) (s_var sw y) mu dx dy) in w_last r = s_last s /\ forall u, zrep (w_var r u) (s_var s u)).
    { intros v x y mu dx dy. destruct (binary_wf (w_last w) (w_var w x) (w_var w y) mu dx dy (W x) (W y) L) as (z & E & _ & Mz & Fz & _). rewrite E. cbn [assign_result fst].
      split; [exact El|]. apply zrep_set; [exact H|]. split; [exact Mz|]. intro i. rewrite (zcomb _ _ (w_var w x) (w_var w y) _ i (Fz i)), (proj2 (H x)), (proj2 (H y)). reflexivity. }
    assert (Set_ : forall v x a, zrep x a -> w_last (w_set w v x) = s_last (s_set sw v a) /\ forall u, zrep (w_var (w_set w v x) u) (s_var (s_set sw v a) u)).
    { intros v x a Z. split; [exact El|]. now apply zrep_set. }
    assert (Mu : forall x, umu (w_var w x) = l_mean (s_var sw x)) by (intro x; apply H).
    destruct k; cbn in P; try contradiction; cbn [sized_ucall ucall_on exec is_new fst snd size_exec] in *; cbv zeta.
    - destruct (new_wf (N := sizes eta) (w_last w) (Rabs (real_of n)) (Rabs (real_of s))) as (E1 & _ & E2); [lia|].
      destruct (u_new (N := sizes eta) (w_last w) (Rabs (real_of n)) (Rabs (real_of s))) as [l o]. cbn [fst snd] in E1, E2. subst l o.
      change (nltb (n := sizes eta) (Rabs (real_of s)) n0) with (nltb (n := mag eta) (Rabs (real_of s)) n0). rewrite (pos_mag eta s). cbn [assign_result fst]. split; [cbn; now rewrite El|]. apply zrep_set; [exact H|]. split; [reflexivity|]. intro i.
      cbn [lin_fresh l_coef]. rewrite <- El. rewrite coef_ufind. unfold ufind. cbn [uid usdev]. destruct (Z.ltb_spec 0 (w_last w + 1)); [|lia].
      destruct (Z.eqb_spec i (w_last w + 1)), (Z.eq_dec i (w_last w + 1)); try contradiction; reflexivity.
    - apply Set_. split; reflexivity.
    - apply Set_. split; reflexivity.
    - apply Set_. apply H.
    - apply Set_. split; [reflexivity|]. exact (proj2 (H x)).
    - apply Set_. unfold u_neg. destruct (unary_wf (w_last w) (w_var w x) (nopp (umu (w_var w x))) (nopp n1) (W x)) as (_ & F & Mm).
      split; [rewrite Mm; exact (Mu x)|]. intro i. rewrite (zmap _ (w_var w x) _ i (F i)), (proj2 (H x)). reflexivity.
    - unfold u_add. rewrite !Mu. apply Bin.
    - unfold u_sub. rewrite !Mu. apply Bin.
    - unfold u_mul. rewrite !Mu. apply Bin.
    - apply Set_. unfold u_add_assign. rewrite !Mu. eapply zassign; [apply W|apply W|apply H|apply H].
    - apply Set_. unfold u_sub_assign. rewrite !Mu. eapply zassign; [apply W|apply W|apply H|apply H].
    - apply Set_. unfold u_mul_assign. rewrite !Mu. eapply zassign; [apply W|apply W|apply H|apply H].
    - split; [exact El|]. intro u. cbn. unfold upd. destruct (Nat.eqb_spec u v) as [->|]; [|apply H]. eapply zcaching; [apply W|apply H].
    - rewrite var_caching_snd. split; [exact El|]. intro u. cbn. unfold upd. destruct (Nat.eqb_spec u v) as [->|]; [|apply H]. eapply zcaching; [apply W|apply H].
  Qed.
  Lemma zrun cs : List.Forall upoly cs -> forall (w w1 : world (sizes eta)) sw, wwf w -> (w_last w + Z.of_nat (count_new cs) < maxid)%Z -> w_last w = s_last sw ->
    (forall v, zrep (w_var w v) (s_var sw v)) -> run w (map (sized_ucall eta) cs) = Ret w1 ->
    w_last w1 = s_last (fold_left (size_exec eta) cs sw) /\ forall v, zrep (w_var w1 v) (s_var (fold_left (size_exec eta) cs sw) v).
  Proof.
    induction 1 as [|k cs P Ps IH]; intros w w1 sw W B El H E; [injection E as <-; auto|].
    assert (C : Z.of_nat (count_new (k :: cs)) = ((if is_new k then 1 else 0) + Z.of_nat (count_new cs))%Z).
    { unfold count_new. cbn [filter]. destruct (is_new k); cbn [length]; lia. }
    rewrite C in B. assert (Lk : (w_last w + (if is_new k then 1 else 0) < maxid)%Z) by lia.
    destruct (gen_exec (zz_s eta) w (sized_ucall eta k) W (nary_ucall _ _ _)) as (W1 & L1 & O); [unfold sized_ucall; rewrite new_ucall by exact P; exact Lk|].
    unfold sized_ucall in L1 at 2. rewrite new_ucall in L1 by exact P.
    destruct (zexec w sw k P W Lk El H) as [El1 H1]. cbn [fold_left]. apply (IH (fst (exec w (sized_ucall eta k)))); [exact W1|lia|exact El1|exact H1|].
    cbn [map run] in E. destruct (exec w (sized_ucall eta k)) as [a o]. cbn [fst snd] in *. destruct O as [-> | ->]; exact E.
  Qed.

  (** ** cov on sizes *)
  Lemma zloop (xs : list (Z * R)) : forall (ys : list (Z * R)) (c : R), msorted xs -> msorted ys ->
    u_cov_loop (N := sizes eta) xs ys c = c + rsum (map fst xs) (fun k => times eta (mget 0 k xs) (mget 0 k ys)).
  Proof.
    induction xs as [|[xk xv] xs IHx]; intro ys; induction ys as [|[yk yv] ys IHy]; intros c Sx Sy.
    - cbn. rg.
    - cbn. rg.
    - rewrite rsum_zero; [cbn; ring|]. intros k _. unfold mget at 2. cbn [mfind]. apply times_0_r.
    - destruct (msorted_inv _ _ _ Sx) as [Sx' Lx]. destruct (msorted_inv _ _ _ Sy) as [Sy' Ly]. cbn [u_cov_loop].
      destruct (Z.leb_spec xk yk) as [Hle|Hgt].
      + destruct (Z.leb_spec yk xk) as [Hle2|Hlt].
        * assert (yk = xk) by lia; subst yk. rewrite Z.eqb_refl. rewrite IHx by assumption. cbn [map fst rsum]. rewrite !mget_head.
          change (nadd (n := sizes eta) c (nmul xv yv)) with (c + times eta xv yv). rewrite <- Rplus_assoc. f_equal. apply rsum_ext. intros j Hj.
          rewrite (mget_tail xk xv xs j Sx Hj). f_equal. destruct (in_dec Z.eq_dec j (map fst ys)) as [Hy|Hy].
          { now rewrite (mget_tail xk yv ys j Sy Hy). }
          { rewrite !mget_notin; auto. cbn. intros [E|?]; [|contradiction]. subst j. apply Lx in Hj. now apply klt_irrefl in Hj. }
        * destruct (Z.eqb_spec xk yk); [lia|]. rewrite IHx by assumption. cbn [map fst rsum]. rewrite !mget_head.
          rewrite (mget_notin xk ((yk, yv) :: ys)) by (first [exact Sy | cbn; intros [E|E]; [lia|apply Ly in E; change (yk < xk)%Z in E || apply klt_lt in E; lia]]).
          rewrite times_0_r, Rplus_0_l. f_equal. apply rsum_ext. intros j Hj. now rewrite (mget_tail xk xv xs j Sx Hj).
      + destruct (Z.eqb_spec xk yk); [lia|]. specialize (IHy c Sx Sy'). cbn [u_cov_loop] in IHy. rewrite IHy. f_equal. apply rsum_ext. intros j Hj. f_equal.
        assert (yk < j)%Z by (cbn in Hj; destruct Hj as [<-|Hj]; [lia|apply Lx in Hj; apply klt_lt in Hj; lia]).
        unfold mget; cbn [mfind]. assert (E : kcmp j yk = Gt) by (cbn; apply Z.compare_gt_iff; lia). now rewrite E.
  Qed.
  Lemma zkeys last (x : ureal (sizes eta)) (f : Z -> R) : wf last x -> (forall i, coef_on x i = 0 -> f i = 0) -> rsum (ukeys x) f = sum_ids last f.
  Proof.
    intros W H. apply (rsum_support Z.eq_dec).
    - eapply wf_NoDup; eauto.
    - apply ids_NoDup.
    - intros i Hi Hn. apply (wf_bound _ _ W) in Hi. apply ids_In in Hi. contradiction.
    - intros i Hi Hn. apply H. rewrite coef_ufind. apply (ufind_None_keys i x last W) in Hn. now rewrite Hn.
  Qed.
  Lemma zcov last (x y : ureal (sizes eta)) : wf last x -> wf last y -> u_cov x y = sum_ids last (fun i => times eta (coef_on x i) (coef_on y i)).
  Proof.
    intros Wx Wy. rewrite <- (zkeys last x) by (auto; intros i ->; apply times_0_l). unfold u_cov, coef_on. change (n0 (n := sizes eta)) with 0.
    change (nadd (n := sizes eta)) with Rplus. change (nmul (n := sizes eta)) with (times eta).
    destruct (Z.ltb_spec 0 (uid x)); destruct (Z.ltb_spec (uid x) 0); try lia;
    destruct (Z.ltb_spec 0 (uid y)); destruct (Z.ltb_spec (uid y) 0); try lia; cbn [andb].
    - rewrite ukeys_pos by lia. cbn [rsum]. rewrite Z.eqb_refl. destruct (uid x =? uid y)%Z; rewrite ?times_0_r; rg.
    - rewrite ukeys_pos by lia. cbn [rsum]. rewrite Z.eqb_refl. unfold mget. destruct (mfind (uid x) (usigma y)); rewrite ?times_0_r; rg.
    - rewrite ukeys_pos by lia. cbn [rsum]. rewrite times_0_r. rg.
    - rewrite ukeys_neg by lia. assert (Sx := wf_sorted _ _ Wx). revert Sx. generalize (usigma x). intros s Sx. change (list (Z * R)) in s.
      rewrite (rsum_ext _ _ (fun i => if (i =? uid y)%Z then times eta (mget 0 i s) (usdev y) else 0)).
      2:{ intros i _. destruct (i =? uid y)%Z; [reflexivity|apply times_0_r]. }
      change (match mfind (V := R) (uid y) s with Some a => 0 + times eta a (usdev y) | None => 0 end = rsum (map fst s) (fun i : Z => if (i =? uid y)%Z then times eta (mget 0 i s) (usdev y) else 0)). destruct (mfind (V := R) (uid y) s) as [v|] eqn:E.
      + rewrite (rsum_single Z.eq_dec _ _ (uid y)).
        * rewrite Z.eqb_refl. unfold mget. rewrite E. rg.
        * apply msorted_NoDup, Sx.
        * apply mfind_In in E. apply (in_map fst) in E. exact E.
        * intros b _ Hb. destruct (Z.eqb_spec b (uid y)); [contradiction|reflexivity].
      + rewrite rsum_zero; [reflexivity|]. intros i _. destruct (Z.eqb_spec i (uid y)); [|reflexivity]. subst i. unfold mget. rewrite E. apply times_0_l.
    - rewrite ukeys_neg by lia. etransitivity; [apply zloop; [apply Wx|apply Wy]|]. rewrite Rplus_0_l. reflexivity.
    - rewrite rsum_zero; [reflexivity|]. intros; apply times_0_r.
    - rewrite ukeys_zero by lia. reflexivity.
    - rewrite ukeys_zero by lia. reflexivity.
    - rewrite ukeys_zero by lia. reflexivity.
  Qed.
End Sizes.
