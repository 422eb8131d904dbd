(** * StatAcc3: what fails of stat.hpp on doubles, and matrices of UReal2 (C81) *)

From Coq Require Import List ZArith Bool Reals Lra Lia Psatz.
From Coq Require Import SpecFloat.
From Flocq Require Import Core BinarySingleNaN.
From Verif Require Import Base Num Map UReal World Sums Stat StatProofs Stat2 Stat2Proofs HessGrad Moments CheckMoments UReal2 World2 U2World SpecU2Run SpecObs SpecU2
  Ieee IeeeFacts IoAcc1 SpecIeee SpecIeee2 IeeeProofs2 IeeeProofs3 IeeeProofs5 IeeeCov Demo HessProofs U2Facts U2Proofs U2Proofs2 ConvProofs SpecAcc2 Track AccMom2 AccFinal MomStats DemoAcc2 SpecStatIeee StatAcc.
Import ListNotations.
Local Open Scope R_scope.

(** ** x with deviation 2^26 + 1, and 3 x: the determinant of the rounded covariances is negative *)
Definition triple : list (call DN) := [CNew 0%nat (d 0) (d 67108865); CConst 1%nat (d 3); CMul 2%nat 0%nat 1%nat].
Lemma triple_legal : dlegal triple. Proof. apply dlegal_small; [repeat constructor|cbn; lia]. Qed.
Lemma triple_run : run w_init triple = Ret (after triple). Proof. ran. Qed.

Lemma single (l : list double) z : map (fun c : double => B2SF c) l = [B2SF (dofZ z)] -> (0 <= z <= 2 ^ 30)%Z -> List.Forall finite l /\ sum_sq l <= pow2 1020.
Proof.
  intros El Hz. destruct l as [|c [|c' l]]; try discriminate El. injection El as El. apply B2SF_inj in El. subst c.
      destruct (dofZ_exact z ltac:(lia)) as [F Ez]. split; [repeat constructor; exact F|]. unfold sum_sq. cbn [map fold_right]. rewrite Ez, Rplus_0_r.
      apply Rle_trans with (pow2 60); [|apply pow2_le; lia]. unfold pow2. rewrite <- IZR_Zpower by lia. rewrite <- mult_IZR. apply IZR_le. change (radix2 ^ 60)%Z with (2 ^ 30 * 2 ^ 30)%Z. nia.
Qed.
Definition v12 : Z := 13510799284764676.
Definition v22 : Z := 40532397854294024.
Lemma C81_positive_refuted_proof : exists cs w, dlegal cs /\ run w_init cs = Ret w /\ exists us, let xs := map (w_var w) us in let n := length us in
  (forall u, In u us -> bounded (w_var w u)) /\ exists V, cov_matrix xs = Ret V /\ List.Forall finite V /\ exists a, form n V a < 0.
Proof.
  exists triple, (after triple). split; [exact triple_legal|]. split; [exact triple_run|]. exists [0%nat; 2%nat]. cbv zeta. cbn [map length].
  set (x := w_var (after triple) 0%nat). set (y := w_var (after triple) 2%nat).
  split.
  { assert (Cx : map (fun c : double => B2SF c) (coefs x) = [B2SF (dofZ 67108865)]) by (vm_compute; reflexivity).
    assert (Cy : map (fun c : double => B2SF c) (coefs y) = [B2SF (dofZ 201326595)]) by (vm_compute; reflexivity).
    intros u [<-|[<-|[]]]; [apply (single _ _ Cx); lia|apply (single _ _ Cy); lia]. }
  exists [u_cov x x; u_cov x y; u_cov y x; u_cov y y]. split; [reflexivity|].
  assert (S : u_cov y x = u_cov x y) by apply C54_symmetric_proof. rewrite S. clear S.
  split; [repeat constructor; vm_compute; reflexivity|].
  assert (E11 : real_of (u_cov x x) = 4503599761588225) by (realval; lra).
  assert (E12 : real_of (u_cov x y) = IZR v12) by (realval; unfold v12; lra).
  assert (E22 : real_of (u_cov y y) = IZR v22) by (realval; unfold v22; lra).
  exists (fun i => match i with O => IZR v12 | _ => - 4503599761588225 end).
  unfold form, entry. cbn [seq rsum fold_right map Nat.mul Nat.add nth]. cbv zeta. unfold rsum. cbn [map fold_right Nat.mul Nat.add nth].
  rewrite E11, E12, E22. rewrite !Rplus_0_r. unfold v12, v22. lra.
Qed.

(** ** A variable without uncertainty: 0 / 0 *)
Definition certain : list (call DN) := [CNew 0%nat (d 1) (d 1); CConst 1%nat (d 3)].
Lemma certain_legal : dlegal certain. Proof. apply dlegal_small; [repeat constructor|cbn; lia]. Qed.
Lemma certain_run : run w_init certain = Ret (after certain). Proof. ran. Qed.
Lemma nan_of (a : double) : B2SF a = S754_nan -> is_nan a = true.
Proof. now destruct a. Qed.

Lemma C81_corr2cov_refuted_proof : exists cs w, dlegal cs /\ run w_init cs = Ret w /\ exists us, let xs := map (w_var w) us in
  (forall u, In u us -> bounded (w_var w u)) /\ exists C V W, corr_matrix xs = Ret C /\ cov_matrix xs = Ret V /\ corr2cov (map u_s xs) C = Ret W /\
  List.Forall finite V /\ exists k c r, nth_error C k = Some c /\ nth_error W k = Some r /\ is_nan c = true /\ is_nan r = true.
Proof.
  exists certain, (after certain). split; [exact certain_legal|]. split; [exact certain_run|]. exists [0%nat; 1%nat]. cbv zeta. cbn [map].
  set (x := w_var (after certain) 0%nat). set (y := w_var (after certain) 1%nat).
  split.
  { assert (Cx : map (fun c : double => B2SF c) (coefs x) = [B2SF (dofZ 1)]) by (vm_compute; reflexivity).
    assert (Cy : coefs y = []) by (vm_compute; reflexivity).
    intros u [<-|[<-|[]]]; unfold bounded.
    - apply (single _ _ Cx). lia.
    - change (w_var (after certain) 1%nat) with y. rewrite Cy. split; [constructor|]. exact (Rlt_le _ _ (pow2_pos 1020)). }
  exists [u_corr x x; u_corr x y; u_corr y x; u_corr y y], [u_cov x x; u_cov x y; u_cov y x; u_cov y y].
  eexists. split; [reflexivity|]. split; [reflexivity|]. split; [reflexivity|].
  split; [repeat constructor; vm_compute; reflexivity|].
  exists 1%nat. do 2 eexists. split; [reflexivity|]. split; [reflexivity|]. split; apply nan_of; vm_compute; reflexivity.
Qed.

(** ** UReal2: the covariance depends on the order of the arguments *)
Definition gauss : moms DN := mkM (N := DN) (d 1) (d 3) (d 0) (d 15) (d 0) (d 105).
Definition skewed : list (call2 DN) :=
  [ENewStd 0%nat (d 0) (d 1) gauss (d (-1)); EUnary 1%nat 0%nat (fun _ => d 0) (fun _ => d (2 ^ 53)) (fun _ => d 2); EUnary 2%nat 0%nat (fun _ => d 0) (fun _ => d 1) (fun _ => half 1 51)].
Definition skewed_world : world2 DN := match run2 no_eig w2_init skewed with Ret w => w | _ => w2_init end.
Lemma skewed_legal : legal2 skewed.
Proof.
  split; [repeat constructor|]. split; [|apply max_new_ge; cbn; lia]. repeat constructor; intro H; vm_compute in H; discriminate H.
Qed.
Lemma skewed_run : run2 no_eig w2_init skewed = Ret skewed_world.
Proof.
  assert (B : (match run2 no_eig w2_init skewed with Ret _ => true | _ => false end) = true) by (vm_compute; reflexivity).
  unfold skewed_world. destruct (run2 no_eig w2_init skewed); [reflexivity|discriminate..].
Qed.
Definition sf_of (o : outcome DN) : option spec_float := match o with Ret a => Some (B2SF (a : double)) | _ => None end.
Lemma sf_ret (o : outcome DN) f : sf_of o = Some f -> exists a : double, o = Ret a /\ B2SF a = f.
Proof. destruct o; intro H; try discriminate H. injection H as H. eauto. Qed.

Lemma C81_second_order_symmetric_refuted_proof : exists eig (cs : list (call2 DN)) w, legal2 cs /\ run2 eig w2_init cs = Ret w /\
  exists v v', let x := w2_var w v in let y := w2_var w v' in
  exists a b, u2_cov x y = Ret a /\ u2_cov y x = Ret b /\ finite a /\ finite b /\ real_of a <> real_of b /\
  exists V, cov_matrix2 [x; y] = Ret V /\ nth_error V 1 = Some a /\ nth_error V 2 = Some b.
Proof.
  exists no_eig, skewed, skewed_world. split; [exact skewed_legal|]. split; [exact skewed_run|]. exists 1%nat, 2%nat. cbv zeta.
  set (x := w2_var skewed_world 1%nat). set (y := w2_var skewed_world 2%nat).
  destruct (sf_ret (u2_cov x y) (S754_finite false 4503599627370497 1)) as (a & Ea & Va); [vm_compute; reflexivity|].
  destruct (sf_ret (u2_cov y x) (S754_finite false 4503599627370498 1)) as (b & Eb & Vb); [vm_compute; reflexivity|].
  exists a, b. split; [exact Ea|]. split; [exact Eb|].
  split; [unfold finite; rewrite <- is_finite_SF_B2SF, Va; reflexivity|]. split; [unfold finite; rewrite <- is_finite_SF_B2SF, Vb; reflexivity|].
  split; [rewrite !real_SF, Va, Vb; unfold SF2R, F2R; cbn -[IZR Rmult Rinv]; lra|].
  assert (Hr : reachable2 no_eig skewed_world) by (exists skewed; split; [exact skewed_legal|exact skewed_run]).
  destruct (C73_matrices_proof DN no_eig eq_refl skewed_world Hr [1%nat; 2%nat]) as (V & C & EV & _ & _ & _ & F & _). exists V. split; [exact EV|].
  destruct (F 0%nat 1%nat 1%nat 2%nat eq_refl eq_refl) as (a' & _ & Na & Ea' & _). destruct (F 1%nat 0%nat 2%nat 1%nat eq_refl eq_refl) as (b' & _ & Nb & Eb' & _).
  fold x y in Ea', Eb'. rewrite Ea in Ea'. rewrite Eb in Eb'. injection Ea' as <-. injection Eb' as <-. split; [exact Na|exact Nb].
Qed.

(** ** UReal2: accuracy of the entries, and how far from symmetric *)
Lemma exact_cov_sym eig (cs : list (call2 DN)) w : legal2 cs -> run2 eig w2_init cs = Ret w ->
  forall v v', let x := w2_var w v in let y := w2_var w v' in u2_cov (exactly x) (exactly y) = u2_cov (exactly y) (exactly x).
Proof.
  intros (F & T & C) E v v' x y.
  destruct (gen_run2_init (N := DN) eq_refl eig cs F T C) as (env & w' & E' & [_ W] & _). rewrite E in E'. injection E' as <-.
  pose (env' := fun i => moms_convert (N := DN) (M := RN) real_of (env i)).
  assert (K : forall t, wf2 (w2_last w) env' (exactly (w2_var w t))).
  { intro t. destruct (W t) as [OK MO]. split; [now apply ex_ok|]. intros i d H. unfold exactly in H. rewrite convert_cu in H by exact OK. unfold cu, chg in H. cbn [u2hg diagmap] in H.
    apply in_map_iff in H as ([k d'] & Ek & Hd). unfold ckd in Ek. cbn [fst snd] in Ek. injection Ek as <- <-. cbn [cd dmom].
    destruct (MO k d' Hd) as [M1 M2]. split; [exact M1|]. rewrite M2. reflexivity. }
  destruct (cov_sym _ env' _ _ (K v) (K v')) as (c & E1 & E2). fold x y in E1, E2. congruence.
Qed.

Lemma C81_second_order_matrix_partial_proof : forall eig (cs : list (call2 DN)) w, legal2 cs -> run2 eig w2_init cs = Ret w ->
  forall us : list nat, let xs := map (w2_var w) us in let n := length us in (forall u, In u us -> ordinary (w2_var w u)) ->
  exists V, cov_matrix2 xs = Ret V /\ length V = (n * n)%nat /\ List.Forall finite V /\
  forall i j u v, nth_error us i = Some u -> nth_error us j = Some v -> let x := w2_var w u in let y := w2_var w v in
    exists r a a', u2_cov (exactly x) (exactly y) = Ret r /\ u2_cov (sized 0 x) (sized 0 y) = Ret a /\ u2_cov (sized 0 y) (sized 0 x) = Ret a' /\
      Rabs (entry n V i j - r) <= 4 * INR (depth_cov (n_ids x) (n_ids y)) * uround * a /\
      Rabs (entry n V i j - entry n V j i) <= 4 * INR (depth_cov (n_ids x) (n_ids y)) * uround * (a + a').
Proof.
  intros eig cs w L E us xs n HO. assert (Hr : reachable2 eig w) by (now exists cs).
  destruct (C73_matrices_proof DN eig eq_refl w Hr us) as (V & C0 & EV & _ & LV & _ & F & _). fold xs n in EV, LV, F.
  exists V. split; [exact EV|]. split; [exact LV|].
  assert (K : forall i j u v, nth_error us i = Some u -> nth_error us j = Some v -> let x := w2_var w u in let y := w2_var w v in
    exists (c : double) r a, nth_error V (n * i + j) = Some c /\ finite c /\ u2_cov (exactly x) (exactly y) = Ret r /\ u2_cov (sized 0 x) (sized 0 y) = Ret a /\
      Rabs (real_of c - r) <= 4 * INR (depth_cov (n_ids x) (n_ids y)) * uround * a).
  { intros i j u v Eu Ev x y. destruct (F i j u v Eu Ev) as (c & _ & Nc & Ec & _).
    destruct (C75_no_overflow_proof eig cs w L E u (HO u (nth_error_In _ _ Eu))) as (_ & _ & H).
    destruct (H v (HO v (nth_error_In _ _ Ev))) as (c' & r & a & Ec' & Fc & Er & Ea & _ & B). rewrite Ec in Ec'. injection Ec' as <-.
    exists c, r, a. auto. }
  split.
  - apply List.Forall_forall. intros c Hc. apply In_nth_error in Hc as [k Hk].
    assert (Kn : (k < n * n)%nat) by (rewrite <- LV; apply nth_error_Some; intro Q; discriminate (eq_trans (eq_sym Q) Hk)).
    destruct (index_split n k Kn) as (Ek & Li & Lj). rewrite Ek in Hk.
    destruct (K _ _ _ _ (nth_error_nth' us 0%nat Li) (nth_error_nth' us 0%nat Lj)) as (c' & r & a & Nc & Fc & _).
    assert (Q := eq_trans (eq_sym Hk) Nc). injection Q as ->. exact Fc.
  - intros i j u v Eu Ev x y. destruct (K i j u v Eu Ev) as (c & r & a & Nc & _ & Er & Ea & B).
    destruct (K j i v u Ev Eu) as (c' & r' & a' & Nc' & _ & Er' & Ea' & B'). fold x y in Er, Ea, B, Er', Ea', B'.
    exists r, a, a'. split; [exact Er|]. split; [exact Ea|]. split; [exact Ea'|]. unfold entry.
    assert (Q := nth_of V _ (dofZ 0) _ Nc). change (@nth double (n * i + j) V (dofZ 0) = c) in Q. rewrite Q.
    assert (Q' := nth_of V _ (dofZ 0) _ Nc'). change (@nth double (n * j + i) V (dofZ 0) = c') in Q'. rewrite Q'.
    split; [exact B|].
    assert (Es := exact_cov_sym eig cs w L E u v). cbv zeta in Es. fold x y in Es. rewrite Er, Er' in Es. injection Es as <-.
    assert (Ed : depth_cov (n_ids y) (n_ids x) = depth_cov (n_ids x) (n_ids y)) by (unfold depth_cov; lia). rewrite Ed in B'.
    replace (real_of c - real_of c') with ((real_of c - r) - (real_of c' - r)) by ring.
    eapply Rle_trans; [apply Rabs_triang|]. rewrite Rabs_Ropp. lra.
Qed.

Lemma single_regular (l : list double) z : map (fun c : double => B2SF c) l = [B2SF (dofZ z)] -> (1 <= z <= 2 ^ 30)%Z ->
  no_underflow l /\ 0 < sum_sq l <= pow2 1020.
Proof.
  intros El Hz. destruct (single l z El ltac:(lia)) as [_ B]. destruct l as [|c [|c' l]]; try discriminate El. injection El as El. apply B2SF_inj in El. subst c.
  destruct (dofZ_exact z ltac:(lia)) as [F Ez]. assert (1 <= IZR z) by (apply IZR_le; lia). assert (T : pow2 (-510) <= 1) by (change 1 with (pow2 0); apply pow2_le; lia).
  split; [|split; [|exact B]].
  - constructor; [|constructor]. split; [exact F|]. right. rewrite Ez, Rabs_pos_eq by lra. lra.
  - unfold sum_sq. cbn [map fold_right]. rewrite Ez. nra.
Qed.
Lemma triple_regular : forall u, In u [0%nat; 2%nat] -> regular_dev (w_var (after triple) u).
Proof.
  assert (Cx : map (fun c : double => B2SF c) (coefs (w_var (after triple) 0%nat)) = [B2SF (dofZ 67108865)]) by (vm_compute; reflexivity).
  assert (Cy : map (fun c : double => B2SF c) (coefs (w_var (after triple) 2%nat)) = [B2SF (dofZ 201326595)]) by (vm_compute; reflexivity).
  intros u [<-|[<-|[]]]; [apply (single_regular _ _ Cx); lia|apply (single_regular _ _ Cy); lia].
Qed.
