(** * IeeeProofs2: deviations and covariances of doubles (C54), caching (C55) *)

From Coq Require Import List ZArith Reals Bool Lra Lia.
From Flocq Require Import Core BinarySingleNaN.
From Verif Require Import Base Num Map UReal World URealFacts SpecObs URealProofs URealProofs2 Ieee IeeeFacts SpecIeee IeeeProofs.
Import ListNotations.

(** ** C54 *)
Lemma s2_nonneg l : forall acc : double, nonneg acc ->
  nonneg (fold_left (fun (acc : double) (kv : Z * double) => dadd acc (dmul (snd kv) (snd kv))) l acc).
Proof. induction l as [|[k v] l IH]; intros acc H; [exact H|]. apply IH, nonneg_add; [exact H|]. apply nonneg_square. Qed.
Lemma u_s2_nonneg (x : ureal DN) : nonneg (u_s2 x).
Proof. apply (s2_nonneg (usigma x) dzero). reflexivity. Qed.
Lemma C54_never_negative_proof : forall x : ureal DN,
  not_negative (u_s x) /\ not_negative (u_var x) /\
  not_negative (fst (u_s_caching x)) /\ not_negative (fst (u_var_caching x)).
Proof.
  intro x. assert (Sq : forall a : DN, not_negative (nmul a a)) by (intro a; apply nonneg_square).
  split; [|split; [|split]].
  - unfold u_s. destruct (0 <=? uid x)%Z; [apply nonneg_abs|]. destruct (nleb n0 (usdev x)) eqn:L; [now apply nonneg_leb|apply nonneg_sqrt].
  - unfold u_var. destruct (_ || _); [apply Sq|apply u_s2_nonneg].
  - unfold u_s_caching. destruct (0 <=? uid x)%Z; [apply nonneg_abs|]. cbn [fst].
    destruct (nltb (usdev x) n0) eqn:L; [apply nonneg_sqrt|exact L].
  - unfold u_var_caching. destruct (0 <=? uid x)%Z; [apply Sq|]. cbn [fst]. destruct (nltb (usdev x) n0); apply Sq.
Qed.

Lemma cov_loop_sym l : forall m (acc : double), u_cov_loop (N := DN) l m acc = u_cov_loop (N := DN) m l acc.
Proof.
  induction l as [|[i a] l IH]; intros m acc.
  - destruct m as [|[j b] m]; reflexivity.
  - revert acc. induction m as [|[j b] m IHm]; intro acc; [reflexivity|]. cbn [u_cov_loop].
    destruct (Z.leb_spec i j), (Z.leb_spec j i), (Z.eqb_spec i j), (Z.eqb_spec j i); try lia.
    + rewrite IH. cbn [nmul nadd DN]. now rewrite (dmul_comm a b).
    + apply IH.
    + apply IHm.
Qed.
Lemma C54_symmetric_proof : forall x y : ureal DN, u_cov x y = u_cov y x /\ u_corr x y = u_corr y x.
Proof.
  intros x y. assert (E : u_cov x y = u_cov y x).
  { unfold u_cov. rewrite (andb_comm (0 <? uid y)%Z), (Z.eqb_sym (uid y)).
    assert (Cm : forall a b : DN, nmul a b = nmul b a) by exact dmul_comm. rewrite (Cm (usdev y)).
    destruct (Z.ltb_spec 0 (uid x)), (Z.ltb_spec 0 (uid y)), (Z.ltb_spec (uid x) 0), (Z.ltb_spec (uid y) 0); try lia; cbn [andb]; try reflexivity.
    - destruct (mfind _ _); [|reflexivity]. now rewrite Cm.
    - destruct (mfind _ _); [|reflexivity]. now rewrite Cm.
    - apply cov_loop_sym. }
  split; [exact E|]. unfold u_corr. rewrite E. f_equal. apply dmul_comm.
Qed.

(** finite sums of squares have finite terms *)
Lemma dadd_finite a b : nonneg a -> nonneg b -> is_finite (dadd a b) = true -> is_finite a = true /\ is_finite b = true.
Proof.
  destruct a as [s|[|]| |s m e H], b as [s'|[|]| |s' m' e' H']; cbn; intros A B F; try discriminate; auto.
Qed.
Lemma s2_finite l : forall acc : double, nonneg acc ->
  is_finite (fold_left (fun (acc : double) (kv : Z * double) => dadd acc (dmul (snd kv) (snd kv))) l acc) = true ->
  is_finite acc = true /\ forall k v, In (k, v) l -> is_finite v = true.
Proof.
  induction l as [|[k v] l IH]; intros acc H F; [split; [exact F|intros ? ? []]|]. cbn [fold_left snd] in F.
  destruct (IH _ (nonneg_add _ _ H (nonneg_square v)) F) as [F1 F2].
  destruct (dadd_finite _ _ H (nonneg_square v) F1) as [F3 F4]. split; [exact F3|].
  intros k' v' [E|I]; [|eauto]. injection E as <- <-. destruct v as [s|[|]| |s m e Hm]; try reflexivity; discriminate F4.
Qed.
Lemma sqrt_finite a : is_finite (dsqrt a) = true -> is_finite a = true.
Proof. destruct a as [s|[|]| |[|] m e H]; cbn; auto. Qed.
Lemma abs_finite a : is_finite (dabs a) = true -> is_finite a = true.
Proof. unfold dabs. now rewrite is_finite_Babs. Qed.
Lemma opp_finite a : is_finite (dopp a) = true -> is_finite a = true.
Proof. unfold dopp. now rewrite is_finite_Bopp. Qed.
Lemma mfind_In_map (k : Z) (v : double) l : mfind k l = Some v -> In (k, v) l.
Proof. apply mfind_In. Qed.
Lemma neg_finite last (x : ureal DN) : wf last x -> is_finite (u_s (u_neg x) : double) = true ->
  forall k (v : double), ufind k x = Some v -> is_finite v = true.
Proof.
  intros W F k v E. unfold u_neg, u_unary, ufind in *.
  assert (M : forall a : double, dmul a (dopp (dofZ 1)) = dopp a) by (intro a; rewrite dmul_comm; apply dmul_m1_l).
  destruct (Z.ltb_spec 0 (uid x)) as [P|P].
  - destruct (k =? uid x)%Z; [|discriminate]. injection E as <-. unfold u_s in F. cbn [uid usdev] in F.
    destruct (Z.leb_spec 0 (uid x)); [|lia]. apply abs_finite in F. cbn [nmul nopp n1 DN] in F. rewrite M in F. now apply opp_finite.
  - destruct (Z.ltb_spec (uid x) 0) as [Q|Q]; [|discriminate]. unfold u_s in F. cbn [uid usdev] in F.
    destruct (Z.leb_spec 0 (uid x)); [lia|]. change (nleb (n0 : DN) (nopp n1)) with false in F. cbv iota in F.
    apply sqrt_finite in F. apply (s2_finite _ dzero eq_refl) in F as [_ F]. cbn [usigma] in F.
    apply opp_finite. rewrite <- M. apply (F k). apply (in_map (fun kv : Z * double => (fst kv, dmul (snd kv) (dopp (dofZ 1)))) _ (k, v)).
    now apply mfind_In_map.
Qed.

Lemma zeros_s2 l : (forall k v, In (k, v) l -> v = dzero) ->
  fold_left (fun (acc : double) (kv : Z * double) => dadd acc (dmul (snd kv) (snd kv))) l dzero = dzero.
Proof.
  induction l as [|[k v] l IH]; intro H; [reflexivity|]. cbn [fold_left snd]. rewrite (H k v) by now left.
  apply IH. intros k' v' I. apply (H k'). now right.
Qed.
Lemma zeros_cov_loop l : (forall k v, In (k, v) l -> v = dzero) -> forall m, (forall k v, In (k, v) m -> is_finite v = true) ->
  u_cov_loop (N := DN) l m dzero = dzero.
Proof.
  induction l as [|[i a] l IH]; intros H m F.
  - destruct m as [|[j b] m]; reflexivity.
  - assert (H' : forall k v, In (k, v) l -> v = dzero) by (intros k v I; apply (H k); now right).
    induction m as [|[j b] m IHm]; [reflexivity|]. cbn [u_cov_loop].
    assert (F' : forall k v, In (k, v) m -> is_finite v = true) by (intros k v I; apply (F k); now right).
    assert (E : (if (i =? j)%Z then nadd (n := DN) dzero (nmul (a : DN) b) else dzero) = dzero).
    { destruct (i =? j)%Z; [|reflexivity]. rewrite (H i a) by now left. cbn [nadd nmul DN].
      assert (Fb : is_finite b = true) by (apply (F j); now left). destruct b as [s|s| |s m0 e Hm]; try discriminate Fb; destruct s; reflexivity. }
    rewrite E. destruct (i <=? j)%Z; [destruct (j <=? i)%Z|].
    + apply IH; auto.
    + apply IH; auto.
    + apply IHm. exact F'.
Qed.
Lemma C54_difference_proof : forall w, dreachable w -> forall v,
  finite (u_n (w_var w v)) -> finite (u_s (u_neg (w_var w v))) ->
  exists z, u_sub (w_var w v) (w_var w v) = Ret z /\
    u_n z = n0 /\ u_s z = n0 /\ u_var z = n0 /\
    forall t, finite (u_s (u_neg (w_var w t))) -> u_cov z (w_var w t) = n0.
Proof.
  intros w Rw v Fn Fs. destruct (dreach_wwf w Rw) as [[_ W] B]. set (x := w_var w v) in *.
  destruct (binary_wf (w_last w) x x (nsub (umu x) (umu x)) n1 (nopp n1) (W v) (W v) B) as (z & E & Wz & M & F & U & Sd).
  exists z. split; [exact E|].
  assert (Zz : forall k (a : double), In (k, a) (usigma z) -> a = dzero).
  { intros k a I. assert (I' : mfind k (usigma z) = Some (a : DN)) by exact (In_mfind k a _ (wf_sorted _ _ Wz) I). assert (Fk := F k). unfold ufind in Fk at 1. rewrite U in Fk. cbn [Z.ltb invalid_id Z.compare] in Fk.
    rewrite I' in Fk. assert (Fv := neg_finite (w_last w) x (W v) Fs k). unfold comb2 in Fk. destruct (ufind k x) as [b|]; [|discriminate].
    injection Fk as ->. specialize (Fv b eq_refl). change (dadd (dmul (dofZ 1) b) (dmul (dopp (dofZ 1)) b) = dzero). rewrite dmul_1_l, dmul_m1_l. now apply dadd_opp. }
  assert (S2 : u_s2 z = dzero) by (apply zeros_s2; exact Zz).
  assert (NL : nleb (n0 : DN) (usdev z) = false) by (rewrite Sd; reflexivity).
  split; [unfold u_n; rewrite M; apply dsub_self, Fn|].
  split; [unfold u_s; rewrite U, NL, S2; reflexivity|].
  split; [unfold u_var; rewrite U, NL, S2; reflexivity|].
  intros t Ft. assert (Fv := neg_finite (w_last w) (w_var w t) (W t) Ft). set (y := w_var w t) in *.
  unfold u_cov. rewrite U. change ((0 <? invalid_id)%Z) with false. change ((invalid_id <? 0)%Z) with true. cbn [andb].
  unfold ufind in Fv. destruct (Z.ltb_spec 0 (uid y)).
  - destruct (mfind (uid y) (usigma z)) as [a|] eqn:Ea; [|reflexivity]. apply mfind_In in Ea. rewrite (Zz _ _ Ea).
    specialize (Fv (uid y) (usdev y)). rewrite Z.eqb_refl in Fv. specialize (Fv eq_refl). cbn [nadd nmul DN n0].
    destruct (usdev y : double) as [s|s| |s m e Hm]; try discriminate Fv; destruct s; reflexivity.
  - destruct (Z.ltb_spec (uid y) 0); [|reflexivity]. apply zeros_cov_loop; [exact Zz|].
    intros k b I. apply (Fv k). apply In_mfind; [|exact I]. exact (wf_sorted _ _ (W t)).
Qed.

(** ** C55: caching *)
Section Cache.
Definition fresh_cache (x : ureal DN) : Prop :=
  (uid x < 0)%Z -> usdev x = nopp n1 \/ usdev x = nsqrt (u_s2 x).
Lemma fresh_s x : fresh_cache x -> u_s x = if (0 <=? uid x)%Z then nabs (usdev x) else nsqrt (u_s2 x).
Proof.
  intro H. unfold u_s. destruct (Z.leb_spec 0 (uid x)); [reflexivity|]. destruct (H H0) as [E|E]; rewrite E.
  - reflexivity.
  - destruct (nleb n0 _); reflexivity.
Qed.
Lemma fresh_unary (x : ureal DN) mu d : fresh_cache (u_unary x mu d).
Proof. unfold u_unary. destruct (Z.ltb_spec 0 (uid x)); [intro H'; cbn in H'; lia|]. destruct (Z.ltb_spec (uid x) 0); intro H'; [now left|cbn in H'; lia]. Qed.
Lemma fresh_binary x y mu dx dy z : u_binary (N := DN) x y mu dx dy = Ret z -> fresh_cache z.
Proof. unfold u_binary. cbv zeta. match goal with |- bind ?o _ = _ -> _ => destruct o end; cbn [bind]; try discriminate. intro E. injection E as <-. now left. Qed.
Lemma fresh_nary xs mu dxs z : u_nary (N := DN) xs mu dxs = Ret z -> fresh_cache z.
Proof. unfold u_nary. destruct (u_nary_loop _ _ _); cbn [bind]; try discriminate. intro E. injection E as <-. now left. Qed.
Lemma fresh_caching x : fresh_cache x -> fresh_cache (snd (u_s_caching x)).
Proof.
  intro H. unfold u_s_caching. destruct (0 <=? uid x)%Z; [exact H|]. cbn [snd]. destruct (nltb _ _); [|exact H].
  intros _. right. reflexivity.
Qed.
Definition wfresh (w : world DN) : Prop := forall v, fresh_cache (w_var w v).
Lemma wfresh_set w v (x : ureal DN) : wfresh w -> fresh_cache x -> wfresh (w_set w v x).
Proof. intros H Hx u. cbn. unfold upd. destruct (Nat.eqb u v); auto. Qed.
Lemma wfresh_result w v o : wfresh w -> (forall z, o = Ret z -> fresh_cache z) -> wfresh (fst (assign_result w v o)).
Proof. intros H Ho. destruct o; cbn; auto. apply wfresh_set; auto. Qed.
Lemma wfresh_exec w c : wwf w -> (w_last w + (if is_new c then 1 else 0) < maxid)%Z -> wfresh w -> self_assign c = false -> wfresh (fst (exec w c)).
Proof.
  intros (L & _) B H NS. assert (G : forall v x y mu dt dx, wfresh (w_set w v (u_binary_assign x y mu dt dx))) by (intros; apply wfresh_set; [exact H|now left]).
  destruct c; cbn [self_assign] in NS; cbn [exec]; unfold u_add, u_sub, u_mul, u_div, u_add_assign, u_sub_assign, u_mul_assign, u_div_assign, u_neg;
    rewrite ?NS; cbn [u_assign_gen fst]; try apply G;
    try (apply wfresh_result; [exact H|intros z E; eapply fresh_binary; exact E]);
    try (apply wfresh_set; [exact H|apply fresh_unary]).
  - destruct (new_wf (w_last w) n s) as (E1 & _ & E2); [cbn in B; lia|]. destruct (u_new (w_last w) n s) as [l o]. cbn [fst snd] in E1, E2.
    apply wfresh_result; [exact H|]. intros z Ez. rewrite E2 in Ez. destruct (nltb _ _); [discriminate|]. injection Ez as <-. intro U. cbn [uid] in U. lia.
  - apply wfresh_set; [exact H|]. intro U. cbn in U. lia.
  - apply wfresh_set; [exact H|]. intro U. cbn in U. lia.
  - apply wfresh_set; [exact H|apply H].
  - apply wfresh_set; [exact H|]. intro U. exact (H x U).
  - apply wfresh_result; [exact H|]. intros z E. eapply fresh_nary; exact E.
  - apply wfresh_set; [exact H|]. apply fresh_caching, H.
  - apply wfresh_set; [exact H|]. rewrite var_caching_snd. apply fresh_caching, H.
Qed.
Lemma wfresh_run cs : forall w a, wwf w -> List.Forall nary_ok cs -> (w_last w + Z.of_nat (count_new cs) < maxid)%Z -> wfresh w ->
  List.Forall (fun c => self_assign c = false) cs -> run w cs = Ret a -> wfresh a.
Proof.
  induction cs as [|c cs IH]; intros w a W F B H NS E; [injection E as <-; exact H|].
  inversion F as [|? ? Fc Fcs]; subst. inversion NS as [|? ? Nc Ncs]; subst.
  assert (C : Z.of_nat (count_new (c :: cs)) = ((if is_new c then 1 else 0) + Z.of_nat (count_new cs))%Z).
  { unfold count_new. cbn [filter]. destruct (is_new c); cbn [List.length]; lia. }
  destruct (gen_exec DN_lt00 w c W Fc) as (W' & L & O); [destruct (is_new c); lia|].
  assert (H' := wfresh_exec w c W ltac:(destruct (is_new c); lia) H Nc).
  cbn [run] in E. destruct (exec w c) as [w' o]. cbn [fst snd] in *.
  apply (IH w' a); auto; [lia|]. destruct O as [-> | ->]; exact E.
Qed.
Lemma wfresh_init cs w : dlegal cs -> List.Forall (fun c => self_assign c = false) cs -> run w_init cs = Ret w -> wfresh w.
Proof.
  intros (F & C) NS E. apply max_new_lt in C. apply (wfresh_run cs w_init w); auto.
  - split; [cbn; lia|]. intro v. apply default_wf.
  - intros v U. cbn in U. lia.
Qed.
End Cache.

Lemma eqc_cov (x x' y y' : ureal DN) : eqc x x' -> eqc y y' -> u_cov x y = u_cov x' y'.
Proof.
  intros (A1 & A2 & A3 & A4) (B1 & B2 & B3 & B4). unfold u_cov. rewrite <- A1, <- A3, <- B1, <- B3.
  destruct (Z.ltb_spec 0 (uid x)), (Z.ltb_spec 0 (uid y)), (Z.ltb_spec (uid x) 0), (Z.ltb_spec (uid y) 0); try lia; cbn [andb]; try reflexivity;
    rewrite ?A4 by lia; rewrite ?B4 by lia; reflexivity.
Qed.
Lemma eqc_fresh_s (x y : ureal DN) : eqc x y -> fresh_cache x -> fresh_cache y -> u_s x = u_s y.
Proof.
  intros (A1 & A2 & A3 & A4) Fx Fy. rewrite (fresh_s x Fx), (fresh_s y Fy). unfold u_s2. rewrite <- A1, <- A3.
  destruct (Z.leb_spec 0 (uid x)); [|reflexivity]. now rewrite A4.
Qed.
Lemma dlegal_without cs : dlegal cs -> dlegal (without_queries cs).
Proof.
  intros (F & C). split; [|now rewrite count_without]. unfold without_queries. apply List.Forall_forall. intros c Hc.
  apply filter_In in Hc as [Hc _]. rewrite List.Forall_forall in F. auto.
Qed.
Lemma C55_caching_partial_proof : forall cs, dlegal cs -> List.Forall (fun c => self_assign c = false) cs ->
  exists w w', run w_init cs = Ret w /\ run w_init (without_queries cs) = Ret w' /\
  forall u v,
    u_n (w_var w u) = u_n (w_var w' u) /\ u_s (w_var w u) = u_s (w_var w' u) /\
    u_isindep (w_var w u) = u_isindep (w_var w' u) /\ u_indepid (w_var w u) = u_indepid (w_var w' u) /\
    u_cov (w_var w u) (w_var w v) = u_cov (w_var w' u) (w_var w' v) /\
    u_corr (w_var w u) (w_var w v) = u_corr (w_var w' u) (w_var w' v) /\
    u_grad (w_var w u) (w_var w v) = u_grad (w_var w' u) (w_var w' v) /\
    fst (u_s_caching (w_var w u)) = u_s (w_var w u).
Proof.
  intros cs L NS. assert (L' := dlegal_without cs L).
  destruct (gen_run_init DN_lt00 cs (proj1 L) (proj2 L)) as (w & E & W & _).
  destruct (gen_run_init DN_lt00 _ (proj1 L') (proj2 L')) as (w' & E' & W' & _).
  exists w, w'. split; [exact E|]. split; [exact E'|].
  assert (Fw := wfresh_init cs w L NS E).
  assert (Fw' : wfresh w').
  { apply (wfresh_init (without_queries cs) w' L'); [|exact E']. unfold without_queries. apply List.Forall_forall. intros c Hc.
    apply filter_In in Hc as [Hc _]. rewrite List.Forall_forall in NS. auto. }
  assert (H := run_without cs w_init w_init (conj eq_refl (fun v => eqc_refl _))). rewrite E, E' in H. destruct H as (_ & H).
  intros u v. assert (Hu := H u). assert (Hv := H v).
  assert (Su := eqc_fresh_s _ _ Hu (Fw u) (Fw' u)). assert (Sv := eqc_fresh_s _ _ Hv (Fw v) (Fw' v)).
  assert (Cv := eqc_cov _ _ _ _ Hu Hv).
  split; [apply Hu|]. split; [exact Su|]. split; [|split; [|split; [exact Cv|split; [|split]]]].
  - unfold u_isindep. destruct Hu as (A1 & A2 & A3 & A4). now rewrite A1, A3.
  - unfold u_indepid. destruct Hu as (A1 & A2 & A3 & A4). now rewrite A1, A3.
  - unfold u_corr. now rewrite Cv, Su, Sv.
  - now apply eqc_grad.
  - rewrite (fresh_s _ (Fw u)). unfold u_s_caching. assert (Fu := Fw u). destruct (Z.leb_spec 0 (uid (w_var w u))); [reflexivity|]. cbn [fst].
    destruct (Fu H0) as [K|K]; [rewrite K; reflexivity|]. destruct (nltb _ _); [reflexivity|exact K].
Qed.
