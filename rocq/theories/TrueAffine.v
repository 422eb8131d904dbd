(** * TrueAffine: C90, exactness for sums, differences and products with numbers *)

From Coq Require Import List ZArith Bool Reals Lra Lia.
From Coquelicot Require Import Coquelicot.
From Verif Require Import Base Num Map UReal World SpecLin SpecObs SpecAD SpecProb Demo Demo3 SpecTrue TrueProb TrueProofs TrueDemo SpecAffine.
Import ListNotations.
Local Open Scope R_scope.

Definition affine (f : env -> R) : Prop :=
  forall (m d : env) t, f (fun i => m i + t * d i) = f m + t * (f (fun i => m i + 1 * d i) - f m).

Lemma affine_number f : a_number f -> affine f.
Proof. intros H m d t. rewrite (H _ m), (H (fun i => m i + 1 * d i) m). lra. Qed.
Lemma affine_mul f g : a_number f -> affine g -> affine (fun e => f e * g e).
Proof. intros H A m d t. rewrite (H _ m), (H (fun i => m i + 1 * d i) m), A. lra. Qed.
Lemma affine_exec w c : affine_call w c -> (forall v, affine (ad_fun w v)) -> forall v, affine (ad_fun (ad_exec w c) v).
Proof.
  intros C A.
  assert (St : forall w' v f, (forall u, affine (ad_fun w' u)) -> affine f -> forall u, affine (ad_fun (ad_set w' v f) u)).
  { intros w' v f A' Af u. cbn [ad_set ad_fun]. destruct (Nat.eqb u v); auto. }
  assert (K : forall k : R, affine (fun _ => k)) by (intros k m d t; lra).
  assert (Pl : forall f g, affine f -> affine g -> affine (fun e => f e + g e)).
  { intros f g Af Ag m d t. rewrite Af, Ag. lra. }
  assert (Mi : forall f g, affine f -> affine g -> affine (fun e => f e - g e)).
  { intros f g Af Ag m d t. rewrite Af, Ag. lra. }
  assert (Mu : forall f g, a_number f \/ a_number g -> affine f -> affine g -> affine (fun e => f e * g e)).
  { intros f g [H|H] Af Ag; [now apply affine_mul|].
    assert (Q := affine_mul g f H Af). intros m d t. specialize (Q m d t). cbn beta in Q. lra. }
  assert (Di : forall f g, a_number g -> affine f -> affine (fun e => f e / g e)).
  { intros f g H Af m d t. rewrite (H _ m), (H (fun i => m i + 1 * d i) m), Af. unfold Rdiv. ring. }
  destruct c; cbn [ad_exec affine_call] in *; try contradiction; auto.
  - destruct (Rlt_dec s 0); [exact A|]. apply St; [exact A|]. intros m d t. lra.
  - apply St; [exact A|]. intros m d t. rewrite A. lra.
Qed.
Lemma affine_all cs : forall w, affine_run w cs -> (forall v, affine (ad_fun w v)) -> forall v, affine (ad_fun (ad_run w cs) v).
Proof.
  induction cs as [|c cs IH]; intros w C A; [exact A|]. destruct C as [C1 C2].
  exact (IH (ad_exec w c) C2 (affine_exec w c C1 A)).
Qed.

Section FV.
  Variable P : prob.
  Hypothesis WP : with_products P.
  Notation fv := (finite_variance P).
  Lemma fv_ext f g : (forall o, f o = g o) -> fv f -> fv g.
  Proof.
    intros E [A B]. split; [apply (Ex_ext P f g E A)|].
    apply (Ex_ext P (fun o => f o * f o)); [|exact B]. intro o. now rewrite E.
  Qed.
  Lemma fv_const c : fv (fun _ => c).
  Proof. split; [apply (Ex_const P c)|apply (Ex_const P (c * c))]. Qed.
  Lemma fv_scal c f : fv f -> fv (fun o => c * f o).
  Proof.
    intros [A B]. split; [now apply (Ex_scal P)|].
    apply (Ex_ext P (fun o => (c * c) * (f o * f o))); [intro o; ring|]. apply (proj1 (Ex_scal P (c * c) _ B)).
  Qed.
  Lemma fv_plus f g : fv f -> fv g -> fv (fun o => f o + g o).
  Proof.
    intros [A B] [C D]. split; [now apply (Ex_plus P)|].
    assert (FG := WP f g A C B D).
    apply (Ex_ext P (fun o => (f o * f o + g o * g o) + 2 * (f o * g o))); [intro o; ring|].
    apply (Ex_plus P); [now apply (Ex_plus P)|now apply (Ex_scal P)].
  Qed.
  Lemma fv_minus f g : fv f -> fv g -> fv (fun o => f o - g o).
  Proof.
    intros A B. apply (fv_ext (fun o => f o + -1 * g o)); [intro o; ring|]. apply fv_plus; [exact A|now apply fv_scal].
  Qed.
  Lemma fv_mul f g (F G : env -> R) (e : Om P -> env) : (forall o, f o = F (e o)) -> (forall o, g o = G (e o)) ->
    a_number F \/ a_number G -> fv f -> fv g -> fv (fun o => f o * g o).
  Proof.
    intros EF EG [H|H] A B.
    - apply (fv_ext (fun o => F (fun _ => 0) * g o)); [|now apply fv_scal]. intro o. now rewrite EF, (H (e o) (fun _ => 0)).
    - apply (fv_ext (fun o => G (fun _ => 0) * f o)); [|now apply fv_scal]. intro o. rewrite EG, (H (e o) (fun _ => 0)). ring.
  Qed.

  Variable e : Om P -> env.
  Lemma fv_all cs : forall w, affine_run w cs -> (0 <= ad_last w)%Z ->
    (forall i, (1 <= i <= ad_last (ad_run w cs))%Z -> fv (fun o => e o i)) ->
    (forall v, fv (fun o => ad_fun w v (e o))) -> forall v, fv (fun o => ad_fun (ad_run w cs) v (e o)).
  Proof.
    induction cs as [|c cs IH]; intros w C L E A; [exact A|]. destruct C as [C1 C2]. cbn [ad_run fold_left] in *.
    fold (ad_run (ad_exec w c) cs) in *.
    assert (LE : forall cs' w', (ad_last w' <= ad_last (ad_run w' cs'))%Z).
    { induction cs' as [|c' cs' IH']; intro w'; cbn [ad_run fold_left]; [lia|]. fold (ad_run (ad_exec w' c') cs').
      eapply Z.le_trans; [|apply IH']. destruct c'; cbn [ad_exec ad_set ad_last]; try lia. destruct (Rlt_dec s 0); cbn; lia. }
    assert (L1 : (ad_last w <= ad_last (ad_exec w c))%Z) by exact (LE [c] w).
    apply IH; [exact C2|lia|exact E|].
    assert (St : forall w' v f, (forall u, fv (fun o => ad_fun w' u (e o))) -> fv (fun o => f (e o)) -> forall u, fv (fun o => ad_fun (ad_set w' v f) u (e o))).
    { intros w' v f A' Af u. cbn [ad_set ad_fun]. destruct (Nat.eqb u v); auto. }
    specialize (LE cs (ad_exec w c)).
    destruct c; cbn [ad_exec affine_call] in *; try contradiction; auto using fv_const, fv_plus, fv_minus.
    - destruct (Rlt_dec s 0); [exact A|]. apply St; [exact A|]. cbn [ad_set ad_last] in LE. apply E. lia.
    - apply St; [exact A|]. apply (fv_ext (fun o => -1 * ad_fun w x (e o))); [intro o; ring|]. now apply fv_scal.
    - apply St; [exact A|]. apply (fv_mul _ _ (ad_fun w x) (ad_fun w y) e); auto.
    - apply St; [exact A|].
      apply (fv_ext (fun o => / ad_fun w y (fun _ => 0) * ad_fun w x (e o))); [|now apply fv_scal].
      intro o. rewrite (C1 (e o) (fun _ => 0)). unfold Rdiv. ring.
    - apply St; [exact A|]. apply (fv_mul _ _ (ad_fun w v) (ad_fun w x) e); auto.
    - apply St; [exact A|].
      apply (fv_ext (fun o => / ad_fun w x (fun _ => 0) * ad_fun w v (e o))); [|now apply fv_scal].
      intro o. rewrite (C1 (e o) (fun _ => 0)). unfold Rdiv. ring.
  Qed.
End FV.

Lemma C90_affine_exact_proof : forall cs, List.Forall nary_ok cs -> (count_new cs <= max_new)%nat -> derivs_ok ad_init cs ->
  affine_run ad_init cs ->
  let p := ad_run ad_init cs in
  exists w, run w_init cs = Ret w /\
    forall u v (P : prob) (X : Z -> Om P -> R), standardized P (ad_last p) X -> with_products P ->
      let Y := fun x o => ad_fun p x (part_way (ad_mean p) (ad_sd p) (fun i => X i o) 1) in
      u_n (w_var w v) = Ex P (Y v) /\ u_s (w_var w v) = true_sd P (Y v) /\
      u_cov (w_var w u) (w_var w v) = true_cov P (Y u) (Y v).
Proof.
  intros cs F C D AR p.
  destruct (C90_first_order_proof cs F C D) as (w & E & H1). fold p in H1.
  destruct (C90_first_order_covariance_proof cs F C D) as (w' & E' & H2). fold p in H2.
  rewrite E in E'. injection E' as <-. exists w. split; [exact E|]. intros u v P X SX WP Y.
  assert (A0 : forall x, affine (ad_fun p x)).
  { apply affine_all; [exact AR|]. intros x m d t. cbn. lra. }
  assert (BE : forall x o, bends 2 (fun t => ad_fun p x (part_way (ad_mean p) (ad_sd p) (fun i => X i o) t)) 0).
  { intros x o. replace 0 with (Rabs (2 * 0)) by (rewrite Rmult_0_r; apply Rabs_R0).
    apply (quadratic_bends _ (ad_fun p x (ad_mean p)) (ad_fun p x (fun i => ad_mean p i + 1 * (ad_sd p i * X i o)) - ad_fun p x (ad_mean p)) 0).
    intro t. unfold part_way. rewrite (A0 x (ad_mean p) (fun i => ad_sd p i * X i o) t). ring. }
  assert (FV : forall x, finite_variance P (Y x)).
  { intro x. apply (fv_all P WP (fun o => part_way (ad_mean p) (ad_sd p) (fun i => X i o) 1) cs ad_init AR).
    - cbn. lia.
    - intros i Hi. fold p in Hi. unfold part_way.
      apply fv_plus; [exact WP|apply fv_const|].
      apply (fv_ext P (fun o => ad_sd p i * X i o)); [intro o; ring|]. apply fv_scal.
      destruct (SX i Hi) as (I1 & _ & I2). destruct (I2 i Hi) as [I3 _]. split; assumption.
    - intro y. cbn. apply fv_const. }
  assert (F0 : finite_variance P (fun _ => 0)) by apply fv_const.
  assert (E0 : Ex P (fun _ => 0) = 0) by apply (Ex_const P 0).
  assert (R0 : rms P (fun _ => 0) = 0).
  { unfold rms. rewrite (proj2 (Ex_ext P (fun _ => 0 * 0) (fun _ => 0) (fun _ => Rmult_0_l 0) (proj1 (Ex_const P _)))), E0. apply sqrt_0. }
  destruct (H1 v P X (fun _ => 0) SX (BE v) (proj1 (FV v)) (proj1 F0)) as [M S1].
  specialize (S1 WP (FV v) F0).
  assert (K := H2 u v P X (fun _ => 0) (fun _ => 0) SX WP (BE u) (BE v) (FV u) F0 (FV v) F0).
  rewrite E0 in M. rewrite R0 in S1. cbv zeta in K. rewrite !R0 in K.
  assert (Z : forall a b : R, Rabs (a - b) <= 0 -> a = b).
  { intros a b Q. assert (N := Rabs_pos (a - b)). destruct (Req_dec (a - b) 0) as [Q0|Q0]; [lra|].
    apply Rabs_pos_lt in Q0. lra. }
  split; [|split]; apply Z.
  - eapply Rle_trans; [exact M|lra].
  - eapply Rle_trans; [exact S1|lra].
  - eapply Rle_trans; [exact K|]. lra.
Qed.

(** x = 3 +- 1/2, k = 2, y = k * x, z = y / k, y -= z *)
Definition affine_prog : list (call RN) :=
  [CNew 0%nat 3 (1 / 2); CConst 1%nat 2; CMul 2%nat 1%nat 0%nat; CDiv 3%nat 2%nat 1%nat; CSubA 2%nat 3%nat].
Lemma affine_case : let p := ad_run ad_init affine_prog in
  List.Forall nary_ok affine_prog /\ (count_new affine_prog <= max_new)%nat /\ derivs_ok ad_init affine_prog /\
  affine_run ad_init affine_prog /\ standardized coin (ad_last p) (fun _ => toss) /\ with_products coin.
Proof.
  assert (L : ~ 1 / 2 < 0) by lra.
  cbv zeta. split; [repeat constructor|]. split; [apply max_new_ge; cbn; lia|]. split; [|split; [|split; [|exact coin_products]]].
  - cbn. destruct (Rlt_dec (1 / 2) 0) as [Q|Q]; [contradiction|]. cbn. repeat split. lra.
  - cbn. destruct (Rlt_dec (1 / 2) 0) as [Q|Q]; [contradiction|]. cbn.
    split; [exact I|]. split; [exact I|]. split; [left; intros e e'; reflexivity|]. split; [intros e e'; reflexivity|]. split; exact I.
  - intros i Hi. split; [exact I|]. split; [cbn; lra|]. intros j Hj. split; [exact I|]. cbn in Hi, Hj. destruct (Rlt_dec (1 / 2) 0) as [Q|Q] in Hi; [contradiction|].
    destruct (Rlt_dec (1 / 2) 0) in Hj; [contradiction|]. cbn in Hi, Hj. destruct (Z.eq_dec i j); [cbn; lra|lia].
Qed.
