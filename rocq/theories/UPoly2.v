(** * UPoly2: accuracy of programs of +, - and * on UReal<double> (C83) *)

From Coq Require Import List ZArith Bool Reals Lra Lia Psatz.
From Flocq Require Import Core BinarySingleNaN.
From Verif Require Import Base Num Map UReal World URealFacts SpecObs URealProofs URealProofs2 SpecCast ConvProofs.
From Verif Require Import Ieee IeeeFacts SpecIeee IeeeProofs IeeeProofs2 IeeeProofs3 IeeeProofs4 IoAcc1 SpecAcc2 Track AccMom2 SpecAcc3 PolyAcc3 SpecAcc4 UPoly.
Import ListNotations.
Local Open Scope R_scope.

(** The type of Track on which the compound assignments always multiply. *)
Definition WN : Num := {|
  T := trk; n0 := t_0; n1 := t_exact (dofZ 1);
  nadd := t_add; nsub := t_sub; nmul := t_mul; ndiv := ndiv (n := TN); nopp := t_opp;
  nltb := nltb (n := TN); nleb := nleb (n := TN); neqb := fun _ _ => false;
  nabs := nabs (n := TN); nsqrt := nsqrt (n := TN); nofZ := t_ofZ |}.
Lemma wd_ring : keeps_ring (N := WN) (M := DN) td. Proof. repeat split. Qed.
Lemma wr_ring : keeps_ring (N := WN) (M := RN) tr. Proof. repeat split. Qed.
Lemma wa_ring : keeps_ring (N := WN) (M := sizes 0) ta. Proof. repeat split. Qed.
Lemma wb_ring : keeps_ring (N := WN) (M := sizes tiny) tb. Proof. repeat split. Qed.
Lemma one_real : real_of (dofZ 1) = 1. Proof. destruct (dofZ_exact 1) as [_ E]; [cbn; lia|exact E]. Qed.
Lemma one_r : tr (n1 (n := WN)) = n1 (n := RN). Proof. exact one_real. Qed.
Lemma one_a : ta (n1 (n := WN)) = n1 (n := sizes 0). Proof. change (Rabs (real_of (dofZ 1)) = 1). rewrite one_real. apply Rabs_R1. Qed.
Lemma one_b : tb (n1 (n := WN)) = n1 (n := sizes tiny). Proof. exact one_a. Qed.
Lemma never (a b : WN) : neqb a b = false. Proof. reflexivity. Qed.
Lemma skip_d (a d : DN) : neqb d n1 = true -> nmul a d = a.
Proof. intro H. apply Beqb_one in H. change (d = dofZ 1) in H. subst d. change (dmul a (dofZ 1) = a). rewrite dmul_comm. apply dmul_1_l. Qed.
Lemma skip_r (a d : RN) : neqb d n1 = true -> nmul a d = a.
Proof. change (Reqb d 1 = true -> a * d = a). unfold Reqb. destruct (Req_EM_T d 1) as [->|]; [intros _; ring|discriminate]. Qed.
Lemma skip_s eta (a d : sizes eta) : neqb d n1 = true -> nmul a d = a. Proof. discriminate. Qed.
Lemma zz_w : nltb (n0 : WN) n0 = false. Proof. reflexivity. Qed.
Lemma zz_r : nltb (n0 : RN) n0 = false. Proof. change (Rltb 0 0 = false). unfold Rltb. destruct (Rlt_dec 0 0); [lra|reflexivity]. Qed.
Lemma zz_s eta : nltb (n0 : sizes eta) n0 = false. Proof. exact zz_r. Qed.

(** ** Counts of roundings *)
Definition kc1 (k : nat) (x : ureal WN) : Prop := (tk (umu x) <= k)%nat /\ forall i a, ufind i x = Some a -> (tk a <= k)%nat.
Local Open Scope nat_scope.
Lemma kadd (a b : WN) k : tk a <= k -> tk b <= k -> tk (nadd a b) <= S k. Proof. intros. change (S (Nat.max (tk a) (tk b)) <= S k). lia. Qed.
Lemma ksub (a b : WN) k : tk a <= k -> tk b <= k -> tk (nsub a b) <= S k. Proof. intros. change (S (Nat.max (tk a) (tk b)) <= S k). lia. Qed.
Lemma kmul (a b : WN) k l : tk a <= k -> tk b <= l -> tk (nmul a b) <= S (k + l). Proof. intros. change (S (tk a + tk b) <= S (k + l)). lia. Qed.
Lemma k0 : tk (n0 (n := WN)) = 0. Proof. reflexivity. Qed.
Lemma k1 : tk (n1 (n := WN)) = 0. Proof. reflexivity. Qed.
Lemma km1 : tk (nopp (n1 (n := WN))) = 0. Proof. reflexivity. Qed.
Lemma kcomb (dx dy : WN) kx ky k a b v : tk dx + kx <= k -> tk dy + ky <= k -> (forall u, a = Some u -> tk u <= kx) -> (forall u, b = Some u -> tk u <= ky) ->
  comb2 dx dy a b = Some v -> tk v <= S (S k).
Proof.
  intros Hx Hy A B E. destruct a as [p|], b as [q|]; cbn [comb2] in E; try discriminate; injection E as <-.
  - specialize (A p eq_refl). specialize (B q eq_refl). apply kadd; [assert (Q := kmul dx p (tk dx) (tk p) (Nat.le_refl _) (Nat.le_refl _))|assert (Q := kmul dy q (tk dy) (tk q) (Nat.le_refl _) (Nat.le_refl _))]; cbn [WN nmul nadd T] in *; lia.
  - specialize (A p eq_refl). assert (Q := kmul dx p (tk dx) (tk p) (Nat.le_refl _) (Nat.le_refl _)). cbn [WN nmul nadd T] in *; lia.
  - specialize (B q eq_refl). apply kadd; [change (0 <= S k); lia|]. assert (Q := kmul dy q (tk dy) (tk q) (Nat.le_refl _) (Nat.le_refl _)). cbn [WN nmul nadd T] in *; lia.
Qed.
Lemma kcomba (dx dy : WN) kx ky k a b v : tk dx + kx <= k -> tk dy + ky <= k -> (forall u, a = Some u -> tk u <= kx) -> (forall u, b = Some u -> tk u <= ky) ->
  comb2a dx dy a b = Some v -> tk v <= S (S k).
Proof.
  intros Hx Hy A B E. assert (O : forall u : WN, scale_own dx u = nmul u dx) by reflexivity.
  destruct a as [p|], b as [q|]; cbn [comb2a] in E; try discriminate; injection E as <-; rewrite ?O.
  - specialize (A p eq_refl). specialize (B q eq_refl). apply kadd; [assert (Q := kmul p dx (tk p) (tk dx) (Nat.le_refl _) (Nat.le_refl _))|assert (Q := kmul dy q (tk dy) (tk q) (Nat.le_refl _) (Nat.le_refl _))]; cbn [WN nmul nadd T] in *; lia.
  - specialize (A p eq_refl). assert (Q := kmul p dx (tk p) (tk dx) (Nat.le_refl _) (Nat.le_refl _)). cbn [WN nmul nadd T] in *; lia.
  - specialize (B q eq_refl). apply kadd; [change (0 <= S k); lia|]. assert (Q := kmul dy q (tk dy) (tk q) (Nat.le_refl _) (Nat.le_refl _)). cbn [WN nmul nadd T] in *; lia.
Qed.
Lemma kbinary l x y mu dx dy kx ky k : wf l x -> wf l y -> (l < maxid)%Z -> kc1 kx x -> kc1 ky y -> tk mu <= k + 2 -> tk dx + kx <= k -> tk dy + ky <= k ->
  exists z, u_binary x y mu dx dy = Ret z /\ kc1 (k + 2) z.
Proof.
  intros Wx Wy L [_ Kx] [_ Ky] Hm Hx Hy. destruct (binary_wf l x y mu dx dy Wx Wy L) as (z & E & _ & Mz & Fz & _). exists z. split; [exact E|]. split; [now rewrite Mz|].
  intros i v Fv. rewrite Fz in Fv. replace (k + 2) with (S (S k)) by lia. exact (kcomb dx dy kx ky k _ _ v Hx Hy (Kx i) (Ky i) Fv).
Qed.
Lemma kassign l (al : bool) x y mu dt dx kx ky k : wf l x -> wf l y -> kc1 kx x -> kc1 ky y -> tk mu <= k + 2 -> tk dt + kx <= k -> tk dx + (if al then kx else ky) <= k ->
  kc1 (k + 2) (u_assign_gen al x y mu dt dx).
Proof.
  intros Wx Wy [_ Kx] [_ Ky] Hm Hx Hy. destruct al; cbn [u_assign_gen].
  - destruct (binary_assign_self_wf l x mu dt dx Wx (fun _ => zz_w)) as (_ & F & Mm). split; [now rewrite Mm|]. intros i v Fv. rewrite F in Fv.
    destruct (ufind i x) as [p|] eqn:Ei; [|discriminate]. cbn in Fv. injection Fv as <-. specialize (Kx i p Ei).
    assert (Q1 := kadd dt dx (Nat.max (tk dt) (tk dx)) (Nat.le_max_l _ _) (Nat.le_max_r _ _)). assert (Q := kmul p (nadd (n := WN) dt dx) (tk p) _ (Nat.le_refl _) Q1). cbn [WN nmul nadd T] in *. lia.
  - destruct (binary_assign_wf l x y mu dt dx Wx Wy) as (_ & F & Mm). split; [now rewrite Mm|]. intros i v Fv. rewrite F in Fv.
    replace (k + 2) with (S (S k)) by lia. exact (kcomba dt dx kx ky k _ _ v Hx Hy (Kx i) (Ky i) Fv).
Qed.
Lemma some_inj {A : Type} (a b : A) : Some a = Some b -> a = b. Proof. congruence. Qed.
Lemma put_eq f v k u : put f v k u = if Nat.eqb u v then k else f u. Proof. reflexivity. Qed.
Lemma kset (w : world WN) v x k f : (forall u, kc1 (f u) (w_var w u)) -> kc1 k x -> forall u, kc1 (put f v k u) (w_var (w_set w v x) u).
Proof. intros A B u. cbn. unfold upd. rewrite put_eq. destruct (Nat.eqb u v); auto. Qed.
Notation callW := (ucall_on WN t_exact).
Lemma kuexec (w : world WN) k f : upoly k -> wwf w -> (w_last w + (if is_new k then 1 else 0) < maxid)%Z -> (forall v, kc1 (f v) (w_var w v)) ->
  forall v, kc1 (urounded f k v) (w_var (fst (exec w (callW k))) v).
Proof.
  intros P [Lw W] B F. assert (L : (w_last w < maxid)%Z) by (destruct (is_new k); lia).
  assert (Mu : forall x, tk (umu (w_var w x)) <= f x) by (intro x; apply (F x)).
  assert (Bin : forall v x y mu dx dy k, tk mu <= k + 2 -> tk dx + f x <= k -> tk dy + f y <= k ->
    forall u, kc1 (put f v (k + 2) u) (w_var (fst (assign_result w v (u_binary (w_var w x) (w_var w y) mu dx dy))) u)).
  { intros v x y mu dx dy k' H1 H2 H3. destruct (kbinary _ _ _ mu dx dy _ _ k' (W x) (W y) L (F x) (F y) H1 H2 H3) as (z & -> & Kz). cbn [assign_result fst]. now apply kset. }
  destruct k; cbn in P; try contradiction; cbn [ucall_on exec is_new urounded] in *.
  - destruct (new_wf (w_last w) (t_exact n : WN) (t_exact s : WN)) as (E1 & _ & E2); [lia|].
    destruct (u_new (w_last w) (t_exact n : WN) (t_exact s : WN)) as [l o]. cbn [fst snd] in E1, E2. subst l o.
    assert (E0 : nltb (n := WN) (t_exact s) n0 = false) by exact P. rewrite E0. cbn [assign_result fst]. intro u. cbn. unfold upd. rewrite put_eq. destruct (Nat.eqb u v); [|apply F].
    split; [apply Nat.le_refl|]. intros i a. unfold ufind. cbn [uid usdev usigma]. destruct (0 <? w_last w + 1)%Z.
    + destruct (i =? w_last w + 1)%Z; [|discriminate]. intro E. injection E as <-. apply Nat.le_refl.
    + destruct (w_last w + 1 <? 0)%Z; discriminate.
  - cbn [fst]. apply kset; [exact F|]. split; [apply Nat.le_refl|]. discriminate.
  - cbn [fst]. apply kset; [exact F|]. split; [apply Nat.le_refl|]. discriminate.
  - cbn [fst]. apply kset; [exact F|]. apply F.
  - cbn [fst]. apply kset; [exact F|]. split; [change (0 <= f x); lia|]. exact (proj2 (F x)).
  - cbn [fst]. apply kset; [exact F|]. unfold u_neg. destruct (unary_wf (w_last w) (w_var w x) (nopp (umu (w_var w x))) (nopp n1) (W x)) as (_ & Fx & Mx).
    split; [rewrite Mx; change (tk (umu (w_var w x)) <= f x + 1); specialize (Mu x); lia|]. intros i v' Fv. rewrite Fx in Fv. destruct (ufind i (w_var w x)) as [p|] eqn:Ei; [|discriminate].
    cbn [option_map] in Fv. apply some_inj in Fv. rewrite <- Fv. assert (Kp := proj2 (F x) i p Ei). assert (Q := kmul p (nopp (n := WN) n1) (tk p) 0 (Nat.le_refl _) (Nat.le_refl _)). lia.
  - unfold u_add. apply Bin; rewrite ?k1; [|lia|lia]. assert (Q := kadd _ _ (Nat.max (f x) (f y)) (Nat.le_trans _ _ _ (Mu x) (Nat.le_max_l _ _)) (Nat.le_trans _ _ _ (Mu y) (Nat.le_max_r _ _))). lia.
  - unfold u_sub. apply Bin; rewrite ?k1, ?km1; [|lia|lia]. assert (Q := ksub _ _ (Nat.max (f x) (f y)) (Nat.le_trans _ _ _ (Mu x) (Nat.le_max_l _ _)) (Nat.le_trans _ _ _ (Mu y) (Nat.le_max_r _ _))). lia.
  - unfold u_mul. assert (Mx := Mu x). assert (My := Mu y). apply Bin; [|lia|lia]. assert (Q := kmul _ _ _ _ Mx My). lia.
  - cbn [fst]. apply kset; [exact F|]. unfold u_add_assign. eapply kassign; [apply W|apply W|apply F|apply F| | |].
    + assert (Q := kadd _ _ (Nat.max (f v) (f x)) (Nat.le_trans _ _ _ (Mu v) (Nat.le_max_l _ _)) (Nat.le_trans _ _ _ (Mu x) (Nat.le_max_r _ _))). lia.
    + rewrite k1. lia.
    + rewrite k1. destruct (Nat.eqb v x); lia.
  - cbn [fst]. apply kset; [exact F|]. unfold u_sub_assign. eapply kassign; [apply W|apply W|apply F|apply F| | |].
    + assert (Q := ksub _ _ (Nat.max (f v) (f x)) (Nat.le_trans _ _ _ (Mu v) (Nat.le_max_l _ _)) (Nat.le_trans _ _ _ (Mu x) (Nat.le_max_r _ _))). lia.
    + rewrite k1. lia.
    + rewrite km1. destruct (Nat.eqb v x); lia.
  - cbn [fst]. apply kset; [exact F|]. unfold u_mul_assign. assert (Mv := Mu v). assert (Mx := Mu x). eapply kassign; [apply W|apply W|apply F|apply F| | |].
    + assert (Q := kmul _ _ _ _ Mv Mx). lia.
    + lia.
    + destruct (Nat.eqb_spec v x); [subst x; lia|lia].
  - cbn [fst w_set w_var]. intro u. unfold upd. destruct (Nat.eqb_spec u v) as [->|]; [|apply F].
    destruct (s_caching_wf (w_last w) (w_var w v) (W v)) as (_ & Fs & Ms & _). split; [rewrite Ms; apply F|]. intros i a E. rewrite Fs in E. exact (proj2 (F v) i a E).
  - rewrite var_caching_snd. cbn [fst w_set w_var]. intro u. unfold upd. destruct (Nat.eqb_spec u v) as [->|]; [|apply F].
    destruct (s_caching_wf (w_last w) (w_var w v) (W v)) as (_ & Fs & Ms & _). split; [rewrite Ms; apply F|]. intros i a E. rewrite Fs in E. exact (proj2 (F v) i a E).
Qed.
Lemma kurun cs : List.Forall upoly cs -> forall (w w1 : world WN) f, wwf w -> (w_last w + Z.of_nat (count_new cs) < maxid)%Z -> (forall v, kc1 (f v) (w_var w v)) ->
  run w (map callW cs) = Ret w1 -> forall v, kc1 (fold_left urounded cs f v) (w_var w1 v).
Proof.
  induction 1 as [|k cs P Ps IH]; intros w w1 f W B F E; [injection E as <-; exact F|].
  assert (C : Z.of_nat (count_new (k :: cs)) = ((if is_new k then 1 else 0) + Z.of_nat (count_new cs))%Z).
  { unfold count_new. cbn [filter]. destruct (is_new k); cbn [length]; lia. }
  rewrite C in B. assert (Lk : (w_last w + (if is_new k then 1 else 0) < maxid)%Z) by lia.
  destruct (gen_exec zz_w w (callW k) W (nary_ucall _ _ _)) as (W1 & L1 & O); [rewrite new_ucall by exact P; exact Lk|]. rewrite new_ucall in L1 by exact P.
  cbn [fold_left]. apply (IH (fst (exec w (callW k)))); [exact W1|lia|now apply kuexec|].
  cbn [map run] in E. destruct (exec w (callW k)) as [a o]. cbn [fst snd] in *. destruct O as [-> | ->]; exact E.
Qed.
Local Open Scope R_scope.

(** ** All the runs *)
Lemma dn_ucall k : upoly k -> ucall_on DN (fun d => d) k = k.
Proof. destruct k; intro P; try contradiction; reflexivity. Qed.
Lemma dn_ucalls cs : List.Forall upoly cs -> map (ucall_on DN (fun d => d)) cs = cs.
Proof. induction 1 as [|k cs P Ps IH]; [reflexivity|]. cbn [map]. now rewrite dn_ucall, IH. Qed.
Lemma wwf_init {N : Num} : wwf (w_init : world N).
Proof. split; [cbn; lia|]. intro v. apply default_wf. Qed.
Lemma all_uruns cs : dlegal cs -> List.Forall upoly cs ->
  exists (wP : world WN) (w : world DN) (wr : world RN) (wa : world (sizes 0)) (wb : world (sizes tiny)),
    run w_init cs = Ret w /\ run w_init (map exact_ucall cs) = Ret wr /\ run w_init (map (sized_ucall 0) cs) = Ret wa /\ run w_init (map (sized_ucall tiny) cs) = Ret wb /\
    wsame (N := WN) (M := DN) td wP w /\ wsame (N := WN) (M := RN) tr wP wr /\ wsame (N := WN) (M := sizes 0) ta wP wa /\ wsame (N := WN) (M := sizes tiny) tb wP wb /\
    wwf wP /\ wwf w /\ wwf wr /\ wwf wa /\ wwf wb /\ (forall v, kc1 (urounds cs v) (w_var wP v)).
Proof.
  intros [F C] P. assert (B : (w_last (w_init (N := WN)) + Z.of_nat (count_new cs) < maxid)%Z) by (apply max_new_lt in C; cbn; lia).
  destruct (sim_urun (N := WN) (M := DN) td wd_ring (fun _ => eq_refl) eq_refl never skip_d zz_w eq_refl t_exact (fun d : DN => d) (fun _ => eq_refl) (fun _ h => h) (fun _ h => h)
    cs P w_init w_init wwf_init wwf_init B (wsame_init (N := WN) (M := DN) td wd_ring)) as (wP & w & EP & Ed & WP & Wd & Sd).
  destruct (sim_urun (N := WN) (M := RN) tr wr_ring (fun _ => eq_refl) one_r never skip_r zz_w zz_r t_exact real_of (fun _ => eq_refl) (fun _ h => h) pos_real
    cs P w_init w_init wwf_init wwf_init B (wsame_init (N := WN) (M := RN) tr wr_ring)) as (wP' & wr & EP' & Er & _ & Wr & Sr). rewrite EP in EP'. injection EP' as <-.
  destruct (sim_urun (N := WN) (M := sizes 0) ta wa_ring (fun _ => eq_refl) one_a never (skip_s 0) zz_w (zz_s 0) t_exact (fun d : double => Rabs (real_of d)) (fun _ => eq_refl) (fun _ h => h) (fun d _ => pos_mag 0 d)
    cs P w_init w_init wwf_init wwf_init B (wsame_init (N := WN) (M := sizes 0) ta wa_ring)) as (wP' & wa & EP' & Ea & _ & Wa & Sa). rewrite EP in EP'. injection EP' as <-.
  destruct (sim_urun (N := WN) (M := sizes tiny) tb wb_ring (fun _ => eq_refl) one_b never (skip_s tiny) zz_w (zz_s tiny) t_exact (fun d : double => Rabs (real_of d)) (fun _ => eq_refl) (fun _ h => h) (fun d _ => pos_mag tiny d)
    cs P w_init w_init wwf_init wwf_init B (wsame_init (N := WN) (M := sizes tiny) tb wb_ring)) as (wP' & wb & EP' & Eb & _ & Wb & Sb). rewrite EP in EP'. injection EP' as <-.
  exists wP, w, wr, wa, wb. rewrite dn_ucalls in Ed by exact P. repeat (split; [assumption|]).
  unfold urounds. apply (kurun cs P w_init wP); [apply wwf_init|exact B| |exact EP]. intro v. split; [apply Nat.le_refl|]. discriminate.
Qed.

(** ** What is stored *)
Lemma coef_ufind {N : Num} (x : ureal N) i : coef_on x i = match ufind i x with Some a => a | None => n0 end.
Proof. unfold coef_on, ufind, mget. destruct (0 <? uid x)%Z; [destruct (i =? uid x)%Z; reflexivity|]. destruct (uid x <? 0)%Z; reflexivity. Qed.
Lemma coef_same {N M : Num} (c : N -> M) (K : keeps_ring c) x y i : same c x y -> coef_on y i = c (coef_on x i).
Proof. intros (_ & _ & E). rewrite !coef_ufind, E. destruct (ufind i x); cbn; [reflexivity|]. symmetry. apply (c_0 c K). Qed.
Lemma kc1_coef k x i : kc1 k x -> (tk (coef_on x i) <= k)%nat.
Proof. intros [_ H]. rewrite coef_ufind. destruct (ufind i x) as [a|] eqn:E; [exact (H i a E)|]. change (0 <= k)%nat. lia. Qed.

Lemma u83_values : forall cs, dlegal cs -> List.Forall upoly cs ->
  exists (w : world DN) (wr : world RN) (wa : world (sizes 0)) (wb : world (sizes tiny)),
    run w_init cs = Ret w /\ run w_init (map exact_ucall cs) = Ret wr /\
    run w_init (map (sized_ucall 0) cs) = Ret wa /\ run w_init (map (sized_ucall tiny) cs) = Ret wb /\
    w_last wr = w_last w /\
    forall v, let x := w_var w v in let r := w_var wr v in let a := w_var wa v in let b := w_var wb v in
      uid r = uid x /\
      (finite (u_n x) -> approximates (u_n x) (u_n r) (u_n a) (u_n b) (urounds cs v)) /\
      (forall i, finite (coef_on x i) -> approximates (coef_on x i) (coef_on r i) (coef_on a i) (coef_on b i) (urounds cs v)).
Proof.
  intros cs L P. destruct (all_uruns cs L P) as (wP & w & wr & wa & wb & Ed & Er & Ea & Eb & [Ld Sd] & [Lr Sr] & [_ Sa] & [_ Sb] & _ & _ & _ & _ & _ & Kk).
  exists w, wr, wa, wb. split; [exact Ed|]. split; [exact Er|]. split; [exact Ea|]. split; [exact Eb|]. split; [now rewrite Lr, Ld|].
  intros v x r a b. specialize (Sd v). specialize (Sr v). specialize (Sa v). specialize (Sb v). specialize (Kk v). fold x in Sd. fold r in Sr. fold a in Sa. fold b in Sb.
  split; [rewrite (proj1 Sd); apply Sr|]. split.
  - unfold u_n. rewrite (proj1 (proj2 Sd)), (proj1 (proj2 Sr)), (proj1 (proj2 Sa)), (proj1 (proj2 Sb)). intro F. exact (approx_of _ _ (proj1 Kk) F).
  - intro i. rewrite (coef_same (N := WN) (M := DN) td wd_ring _ _ i Sd), (coef_same (N := WN) (M := RN) tr wr_ring _ _ i Sr), (coef_same (N := WN) (M := sizes 0) ta wa_ring _ _ i Sa), (coef_same (N := WN) (M := sizes tiny) tb wb_ring _ _ i Sb).
    intro F. exact (approx_of _ _ (kc1_coef _ _ i Kk) F).
Qed.
