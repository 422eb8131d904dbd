(** * IeeeCov2: cov(x, x), var(x) and s() * s() on doubles (C62), correlations above 1 (C63) *)

From Coq Require Import List ZArith Reals Bool Lra Lia Psatz SpecFloat.
From Flocq Require Import Core BinarySingleNaN.
From Verif Require Import Base Num Map UReal World URealFacts SpecObs Stat URealProofs URealProofs2 Ieee IeeeFacts SpecIeee SpecIeee2
  IeeeProofs IeeeProofs2 IeeeProofs5 IeeeCov.
Import ListNotations.
Local Open Scope R_scope.

(** ** Histories without caching queries *)
Definition empty_cache (x : ureal DN) : Prop := (uid x < 0)%Z -> usdev x = nopp n1.
Lemma empty_unary (x : ureal DN) mu d : empty_cache (u_unary x mu d).
Proof. unfold u_unary. destruct (Z.ltb_spec 0 (uid x)); [intro H'; cbn in H'; lia|]. destruct (Z.ltb_spec (uid x) 0); intro H'; [reflexivity|cbn in H'; lia]. Qed.
Lemma empty_binary x y mu dx dy z : u_binary (N := DN) x y mu dx dy = Ret z -> empty_cache z.
Proof. unfold u_binary. cbv zeta. match goal with |- bind ?o _ = _ -> _ => destruct o end; cbn [bind]; try discriminate. intro E. injection E as <-. now intros _. Qed.
Lemma empty_nary xs mu dxs z : u_nary (N := DN) xs mu dxs = Ret z -> empty_cache z.
Proof. unfold u_nary. destruct (u_nary_loop _ _ _); cbn [bind]; try discriminate. intro E. injection E as <-. now intros _. Qed.
Definition wempty (w : world DN) : Prop := forall v, empty_cache (w_var w v).
Lemma wempty_set w v (x : ureal DN) : wempty w -> empty_cache x -> wempty (w_set w v x).
Proof. intros H Hx u. cbn. unfold upd. destruct (Nat.eqb u v); auto. Qed.
Lemma wempty_result w v o : wempty w -> (forall z, o = Ret z -> empty_cache z) -> wempty (fst (assign_result w v o)).
Proof. intros H Ho. destruct o; cbn; auto. apply wempty_set; auto. Qed.
Lemma wempty_exec w c : wwf w -> (w_last w + (if is_new c then 1 else 0) < maxid)%Z -> wempty w -> self_assign c = false -> is_query c = false ->
  wempty (fst (exec w c)).
Proof.
  intros (L & _) B H NS Nq. assert (G : forall v x y mu dt dx, wempty (w_set w v (u_binary_assign x y mu dt dx))) by (intros; apply wempty_set; [exact H|now intros _]).
  destruct c; try discriminate Nq; cbn [self_assign] in NS; cbn [exec]; unfold u_add, u_sub, u_mul, u_div, u_add_assign, u_sub_assign, u_mul_assign, u_div_assign, u_neg;
    rewrite ?NS; cbn [u_assign_gen fst]; try apply G;
    try (apply wempty_result; [exact H|intros z E; eapply empty_binary; exact E]);
    try (apply wempty_set; [exact H|apply empty_unary]).
  - destruct (new_wf (w_last w) n s) as (E1 & _ & E2); [cbn in B; lia|]. destruct (u_new (w_last w) n s) as [l o]. cbn [fst snd] in E1, E2.
    apply wempty_result; [exact H|]. intros z Ez. rewrite E2 in Ez. destruct (nltb _ _); [discriminate|]. injection Ez as <-. intro U. cbn [uid] in U. lia.
  - apply wempty_set; [exact H|]. intro U. cbn in U. lia.
  - apply wempty_set; [exact H|]. intro U. cbn in U. lia.
  - apply wempty_set; [exact H|apply H].
  - apply wempty_set; [exact H|]. intro U. exact (H x U).
  - apply wempty_result; [exact H|]. intros z E. eapply empty_nary; exact E.
Qed.
Lemma wempty_run cs : forall w a, wwf w -> List.Forall nary_ok cs -> (w_last w + Z.of_nat (count_new cs) < maxid)%Z -> wempty w ->
  List.Forall (fun c => self_assign c = false) cs -> List.Forall (fun c => is_query c = false) cs -> run w cs = Ret a -> wempty a.
Proof.
  induction cs as [|c cs IH]; intros w a W F B H NS NQ E; [injection E as <-; exact H|].
  inversion F as [|? ? Fc Fcs]; subst. inversion NS as [|? ? Nc Ncs]; subst. inversion NQ as [|? ? Qc Qcs]; subst.
  assert (C : Z.of_nat (count_new (c :: cs)) = ((if is_new c then 1 else 0) + Z.of_nat (count_new cs))%Z).
  { unfold count_new. cbn [filter]. destruct (is_new c); cbn [List.length]; lia. }
  destruct (gen_exec DN_lt00 w c W Fc) as (W' & L & O); [destruct (is_new c); lia|].
  assert (H' := wempty_exec w c W ltac:(destruct (is_new c); lia) H Nc Qc).
  cbn [run] in E. destruct (exec w c) as [w' o]. cbn [fst snd] in *.
  apply (IH w' a); auto; [lia|]. destruct O as [-> | ->]; exact E.
Qed.
Lemma no_queries (cs : list (call DN)) : without_queries cs = cs -> List.Forall (fun c => is_query c = false) cs.
Proof.
  intro E. apply List.Forall_forall. intros c Hc. rewrite <- E in Hc. apply filter_In in Hc as [_ Hc]. now destruct (is_query c).
Qed.

(** ** cov(x, x) *)
Lemma zero_plus_square (a : double) : dadd dzero (dmul a a) = dmul a a.
Proof.
  assert (S : forall b : double, Bsign b = false -> dadd dzero b = b) by (intros [[|]|[|]| |[|] m e H]; try discriminate; reflexivity).
  destruct (is_nan (dmul a a)) eqn:Nn; [destruct (dmul a a); try discriminate Nn; reflexivity|].
  apply S. assert (H := Bmult_correct 53 1024 prec53 emax1024 mode_NE a a). destruct (Rlt_bool _ _).
  - destruct H as (_ & _ & H). unfold dmul. rewrite (H Nn). now destruct (Bsign a).
  - unfold dmul. rewrite xorb_nilpotent in H. destruct (Bmult mode_NE a a); cbn in H; try discriminate H; now injection H.
Qed.
Lemma abs_square (a : double) : dmul (dabs a) (dabs a) = dmul a a.
Proof.
  destruct a as [[|]|[|]| |[|] m e H]; try reflexivity.
  apply B2SF_inj. unfold dmul, dabs, Babs, Bmult. rewrite !B2SF_SF2B. reflexivity.
Qed.
Lemma cov_loop_self l : forall acc : double,
  u_cov_loop (N := DN) l l acc = fold_left (fun (acc : double) (kv : Z * double) => dadd acc (dmul (snd kv) (snd kv))) l acc.
Proof.
  induction l as [|[k v] l IH]; intro acc; [reflexivity|]. cbn [u_cov_loop fold_left]. rewrite Z.eqb_refl, Z.leb_refl. apply IH.
Qed.
Lemma cov_self_value last (x : ureal DN) : wf last x ->
  u_cov x x = if (0 <=? uid x)%Z then nmul (usdev x) (usdev x) else u_s2 x.
Proof.
  intro W. unfold u_cov. destruct (Z.ltb_spec 0 (uid x)), (Z.ltb_spec (uid x) 0), (Z.leb_spec 0 (uid x)); try lia; cbn [andb].
  - rewrite Z.eqb_refl. apply zero_plus_square.
  - apply cov_loop_self.
  - assert (E0 : uid x = 0%Z) by lia. rewrite (wf_zero _ _ W E0). reflexivity.
Qed.

Lemma C62_self_covariance_partial_proof : forall cs w, dlegal cs -> List.Forall (fun c => self_assign c = false) cs ->
  run w_init cs = Ret w -> forall v, let x := w_var w v in
  (without_queries cs = cs -> u_cov x x = u_var x) /\
  (u_var x = u_cov x x \/ u_var x = dmul (u_s x) (u_s x)) /\
  fst (u_var_caching x) = dmul (u_s x) (u_s x) /\
  (u_isindep x = Ret false -> u_s x = dsqrt (u_cov x x)).
Proof.
  intros cs w L NS E v x. assert (Fr := wfresh_init cs w L NS E v). fold x in Fr.
  destruct (dreach_wwf w) as [[Pl W] B]; [now exists cs|]. specialize (W v). fold x in W.
  assert (CV := cov_self_value _ x W). assert (Sx := fresh_s x Fr). rewrite CV, Sx.
  assert (Ab : forall a : double, dmul (dabs a) (dabs a) = dmul a a) by (intro a; apply abs_square).
  assert (Cases : (0 <= uid x)%Z /\ u_var x = nmul (usdev x) (usdev x) \/
    (uid x < 0)%Z /\ (usdev x = nopp n1 /\ u_var x = u_s2 x \/ usdev x = nsqrt (u_s2 x) /\ (u_var x = u_s2 x \/ u_var x = nmul (nsqrt (u_s2 x)) (nsqrt (u_s2 x))))).
  { unfold u_var. destruct (Z.leb_spec 0 (uid x)); [left; split; [assumption|reflexivity]|]. right. split; [assumption|].
    destruct (Fr H) as [U|U]; [left|right]; (split; [exact U|]); rewrite U; [reflexivity|]. cbn [orb]. destruct (nleb n0 _); auto. }
  split; [|split; [|split]].
  - intro Nq. destruct L as [La Lb]. assert (Em : empty_cache x).
    { apply max_new_lt in Lb. apply (wempty_run cs w_init w); auto; [|intros u U; cbn in U; lia|now apply no_queries].
      split; [cbn; lia|]. intro u. apply default_wf. }
    destruct Cases as [[U V]|[U [[U1 V]|[U1 [V|V]]]]]; rewrite V; destruct (Z.leb_spec 0 (uid x)); try lia; try reflexivity.
    exfalso. specialize (Em U). unfold u_var in V. rewrite Em in V.
    assert (Q := nonneg_sqrt (u_s2 x)). unfold nonneg in Q. change (nltb (nsqrt (u_s2 x)) n0 = false) in Q. rewrite <- U1, Em in Q. discriminate Q.
  - destruct Cases as [[U V]|[U [[U1 V]|[U1 [V|V]]]]]; rewrite V; destruct (Z.leb_spec 0 (uid x)); try lia; auto.
  - unfold u_var_caching. destruct (Z.leb_spec 0 (uid x)) as [U|U]; cbn [fst]; [symmetry; apply Ab|].
    destruct (Fr U) as [U1|U1]; rewrite U1; [reflexivity|]. assert (Q := nonneg_sqrt (u_s2 x)). unfold nonneg in Q.
    change (nltb (nsqrt (u_s2 x)) n0 = false) in Q. rewrite Q. rewrite U1. reflexivity.
  - intro I. destruct (Z.leb_spec 0 (uid x)) as [U|U]; [|reflexivity]. exfalso. unfold u_isindep in I. rewrite (wf_nonneg _ _ W U) in I.
    rewrite orb_true_r in I. discriminate I.
Qed.

(** ** Witness: x = a + b + c with deviations 1, for which sqrt(3) * sqrt(3) < 3 *)
Definition abc : list (call DN) :=
  [CNew 0%nat (d 0) (d 1); CNew 1%nat (d 0) (d 1); CNew 2%nat (d 0) (d 1); CAdd 3%nat 0%nat 1%nat; CAddA 3%nat 2%nat].
Lemma abc_legal : dlegal abc. Proof. apply dlegal_small; [repeat constructor|cbn; lia]. Qed.
Lemma abc_run : run w_init abc = Ret (after abc). Proof. ran. Qed.
Lemma abc_reach : dreachable (after abc). Proof. exists abc. split; [exact abc_legal|exact abc_run]. Qed.

Lemma C62_documented_equalities_refuted_proof : exists w, dreachable w /\ exists v, let x := w_var w v in
  finite (u_cov x x) /\ finite (u_s x) /\ u_var x <> dmul (u_s x) (u_s x) /\ fst (u_var_caching x) <> u_cov x x.
Proof.
  exists (after abc). split; [exact abc_reach|]. exists 3%nat. cbv zeta.
  split; [vm_compute; reflexivity|]. split; [vm_compute; reflexivity|]. split; apply neq_SF; vm_compute; discriminate.
Qed.

Lemma C63_correlation_bounded_refuted_proof : exists w, dreachable w /\ exists v, let x := w_var w v in
  finite (u_corr x x) /\ 1 < real_of (u_corr x x) /\
  exists c, corr_matrix [x; x] = Ret [c; c; c; c] /\ c = u_corr x x.
Proof.
  exists (after abc). split; [exact abc_reach|]. exists 3%nat. cbv zeta.
  split; [vm_compute; reflexivity|]. split; [realval; lra|]. eexists. split; reflexivity.
Qed.
