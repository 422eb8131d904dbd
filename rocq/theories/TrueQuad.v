(** * TrueQuad: C90, exactness of UReal2 for programs of degree two *)

From Coq Require Import List ZArith Bool Reals Lra Lia FunctionalExtensionality.
From Coquelicot Require Import Coquelicot.
From Verif Require Import Base Num Map UReal World HessGrad Moments CheckMoments UReal2 World2 Sums SpecLin SpecObs SpecAD SpecU2 SpecU2Run SpecProb SpecMom
  SpecMath2 SpecOrder SpecAD2 ADProofs2 MomStats Demo2 Demo3 SpecTrue TrueProb TrueProofs2 TrueDemo.
From Verif Require Import MomProofs MomCov MomEst MomGiven MomDeg SpecDegree Demo ADDemo2.
Import ListNotations.
Local Open Scope R_scope.

Lemma C90_quadratic_exact_partial_proof : forall eig (cs : list (call2 RN)), legal2 cs -> accepted eig w2_init cs ->
  covered_run eig w2_init cs -> derivs2_ok ad_init cs ->
  let p := ad2_run ad_init cs in
  exists w, run2 eig w2_init cs = Ret w /\
    forall u v (P : prob) (l : list Z) (X : Z -> Om P -> R) (M : Z -> moms RN),
      let x := w2_var w u in let y := w2_var w v in NoDup l ->
      independent P l X (fun i => stdmom (M i)) ->
      (forall i, In i l -> exists s, s <> 0 /\ given eig w2_init cs i = Some (s, M i)) ->
      involves_only (jet_of x) l -> involves_only (jet_of y) l ->
      let path := fun z o t => ad_fun p z (part_way (ad_mean p) (ad_sd p) (fun i => X i o) t) in
      let Y := fun z o => path z o 1 in
      (forall z o, z = u \/ z = v -> exists a b c, forall t, path z o t = a + b * t + c * t ^ 2) ->
      u2_n PropMean x = Ret (Ex P (Y u)) /\
      (forall k, (2 <= k <= 4)%nat -> int P (fun o => (Y u o - Ex P (Y u)) ^ k) /\
         u2_m x (Z.of_nat k) = Ret (Ex P (fun o => (Y u o - Ex P (Y u)) ^ k))) /\
      u2_s x = Ret (true_sd P (Y u)) /\
      u2_cov x y = Ret (true_cov P (Y u) (Y v)).
Proof.
  intros eig cs HL A CR HD p. destruct (taylor_run eig cs HL A CR HD) as (w & E & HLast & HR).
  exists w. split; [exact E|]. intros u v P l X M x y ND IND GV HI HI' path Y HQ.
  assert (P0 : forall z o, path z o 0 = ad_fun p z (ad_mean p)).
  { intros z o. unfold path. f_equal. apply functional_extensionality. intro i. unfold part_way. ring. }
  assert (CL : forall z, z = u \/ z = v -> involves_only (jet_of (w2_var w z)) l -> value (jet_of (w2_var w z)) l X = Y z).
  { intros z Hz HIz. apply functional_extensionality. intro o. destruct (HR z) as (D1 & D2 & G).
    assert (HD2 := good_derivs _ _ _ _ _ _ _ G).
    rewrite (value_taylor _ _ _ _ _ _ _ P l X G ND HIz o). unfold taylor2.
    destruct (line_derivatives _ _ _ (ad_sd p) (fun i => X i o) _ _ HD2) as [K1 K2]. fold p. rewrite <- (P0 z o).
    destruct (HQ z o Hz) as (a & b & c & Q).
    assert (BE : bends 3 (path z o) (Rabs (6 * 0))).
    { apply (cubic_bends _ a b c 0). intro t. rewrite Q. ring. }
    assert (K := bends_taylor2 (path z o) _ _ _ BE K1 K2). rewrite Rmult_0_r, Rabs_R0, Rmult_0_r in K.
    match type of K with Rabs ?d <= 0 => assert (Z0 : d = 0); [assert (N := Rabs_pos d); destruct (Req_dec d 0) as [q|q]; [exact q|apply Rabs_pos_lt in q; lra]|] end.
    apply Rminus_diag_uniq in Z0. symmetry. exact Z0. }
  assert (TU := CL u (or_introl eq_refl) HI). assert (TV := CL v (or_intror eq_refl) HI').
  destruct (C32_mean_and_estimate_proof eig cs w HL E P l X M ND IND GV u HI) as (m1 & _ & _ & N1 & _).
  destruct (C28_moments_of_the_polynomial_proof eig cs w HL E P l X M ND IND GV u HI) as (I0 & _ & N2).
  destruct (C29_covariance_of_the_polynomials_proof eig cs w HL E P l X M ND IND GV u v HI HI') as (_ & CV).
  rewrite TU in N1, I0, N2, CV. rewrite TV in CV.
  split; [exact N1|]. split; [exact N2|]. split; [|exact CV].
  destruct (N2 2%nat) as [I1 E1]; [lia|]. change (Z.of_nat 2) with 2%Z in E1. unfold u2_s, x. rewrite E1. cbn [bind]. f_equal.
  unfold true_sd, true_cov. change (nsqrt : RN -> RN) with sqrt. f_equal. apply E_eq; [intro o; cbn [pow]; ring|exact I1].
Qed.

(** ** Programs of sums, differences and products *)
Definition line_deg (m d : env) (n : nat) (f : env -> R) : Prop := (n <= 2)%nat ->
  exists a b c, ((n <= 1)%nat -> c = 0) /\ ((n <= 0)%nat -> b = 0) /\ forall t, f (fun i => m i + t * d i) = a + b * t + c * t ^ 2.
Section Deg.
  Variables m d : env.
  Notation LD := (line_deg m d).
  Lemma ld_const k n : LD n (fun _ => k).
  Proof. intros _. exists k, 0, 0. repeat split; auto. intro t. ring. Qed.
  Lemma ld_var i : LD 1 (fun e => e i).
  Proof. intros _. exists (m i), (d i), 0. repeat split; auto; try lia. intro t. ring. Qed.
  Lemma ld_neg n f : LD n f -> LD n (fun e => - f e).
  Proof. intros H L. destruct (H L) as (a & b & c & C & B & E). exists (- a), (- b), (- c). split; [intro q; rewrite C by lia; ring|]. split; [intro q; rewrite B by lia; ring|]. intro t. rewrite E. ring. Qed.
  Lemma ld_plus n k f g : LD n f -> LD k g -> LD (Nat.max n k) (fun e => f e + g e).
  Proof.
    intros H K L. destruct (H ltac:(lia)) as (a & b & c & C & B & E). destruct (K ltac:(lia)) as (a' & b' & c' & C' & B' & E').
    exists (a + a'), (b + b'), (c + c'). split; [intro q; rewrite C, C' by lia; ring|]. split; [intro q; rewrite B, B' by lia; ring|].
    intro t. rewrite E, E'. ring.
  Qed.
  Lemma ld_minus n k f g : LD n f -> LD k g -> LD (Nat.max n k) (fun e => f e - g e).
  Proof. intros H K. exact (ld_plus n k f (fun e => - g e) H (ld_neg _ _ K)). Qed.
  Lemma ld_mul n k f g : LD n f -> LD k g -> LD (n + k) (fun e => f e * g e).
  Proof.
    intros H K L. destruct (H ltac:(lia)) as (a & b & c & C & B & E). destruct (K ltac:(lia)) as (a' & b' & c' & C' & B' & E').
    exists (a * a'), (a * b' + b * a'), (a * c' + b * b' + c * a').
    assert (D : ((n <= 0)%nat \/ (k <= 0)%nat) \/ (n = 1 /\ k = 1)%nat) by lia.
    split; [|split].
    - intro q. destruct D as [[D|D]|D]; [rewrite B, C, C' by lia|rewrite B', C, C' by lia|lia]; ring.
    - intro q. rewrite B, B' by lia. ring.
    - intro t. rewrite E, E'. destruct D as [[D|D]|D]; [rewrite B, C by lia|rewrite B', C' by lia|rewrite C, C' by lia]; ring.
  Qed.
  Lemma ld_exec w c g : ring_call c -> (forall v, LD (g v) (ad_fun w v)) -> forall v, LD (deg_call g c v) (ad_fun (ad2_exec w c) v).
  Proof.
    intros RC H.
    assert (St : forall w' v f n, (forall u, LD (g u) (ad_fun w' u)) -> LD n f -> forall u, LD (deg_set g v n u) (ad_fun (ad_set w' v f) u)).
    { intros w' v f n A Af u. unfold deg_set. cbn [ad_set ad_fun]. destruct (Nat.eqb u v); auto. }
    destruct c; cbn [ring_call deg_call ad2_exec] in *; try contradiction; auto using ld_const, ld_var, ld_neg, ld_plus, ld_minus, ld_mul.
  Qed.
  Lemma ld_run cs : forall w g, List.Forall ring_call cs -> (forall v, LD (g v) (ad_fun w v)) ->
    forall v, LD (fold_left deg_call cs g v) (ad_fun (ad2_run w cs) v).
  Proof.
    induction cs as [|c cs IH]; intros w g F H; [exact H|]. inversion F; subst. cbn [fold_left ad2_run].
    apply (IH (ad2_exec w c)); [assumption|]. now apply ld_exec.
  Qed.
End Deg.
Lemma ring_covered eig cs : forall w, List.Forall ring_call cs -> covered_run eig w cs.
Proof.
  induction cs as [|c cs IH]; intros w F; [exact I|]. inversion F as [|? ? R0 F']; subst. split; [|now apply IH].
  destruct c; cbn in R0 |- *; tauto.
Qed.
Lemma ring_derivs cs : forall w, List.Forall ring_call cs -> derivs2_ok w cs.
Proof.
  induction cs as [|c cs IH]; intros w F; [exact I|]. inversion F as [|? ? R0 F']; subst. split; [|now apply IH].
  destruct c; cbn in R0 |- *; tauto.
Qed.

Lemma C90_polynomials_exact_proof : forall eig (cs : list (call2 RN)), legal2 cs -> accepted eig w2_init cs -> List.Forall ring_call cs ->
  let p := ad2_run ad_init cs in
  exists w, run2 eig w2_init cs = Ret w /\
    forall u v (P : prob) (l : list Z) (X : Z -> Om P -> R) (M : Z -> moms RN),
      let x := w2_var w u in let y := w2_var w v in (degree cs u <= 2)%nat -> (degree cs v <= 2)%nat -> NoDup l ->
      independent P l X (fun i => stdmom (M i)) ->
      (forall i, In i l -> exists s, s <> 0 /\ given eig w2_init cs i = Some (s, M i)) ->
      involves_only (jet_of x) l -> involves_only (jet_of y) l ->
      let Y := fun z o => ad_fun p z (part_way (ad_mean p) (ad_sd p) (fun i => X i o) 1) in
      u2_n PropMean x = Ret (Ex P (Y u)) /\
      (forall k, (2 <= k <= 4)%nat -> int P (fun o => (Y u o - Ex P (Y u)) ^ k) /\
         u2_m x (Z.of_nat k) = Ret (Ex P (fun o => (Y u o - Ex P (Y u)) ^ k))) /\
      u2_s x = Ret (true_sd P (Y u)) /\
      u2_cov x y = Ret (true_cov P (Y u) (Y v)).
Proof.
  intros eig cs HL A RC p.
  destruct (C90_quadratic_exact_partial_proof eig cs HL A (ring_covered eig cs w2_init RC) (ring_derivs cs ad_init RC)) as (w & E & H).
  exists w. split; [exact E|]. intros u v P l X M x y DU DV ND IND GV HI HI' Y.
  apply (H u v P l X M ND IND GV HI HI'). intros z o Hz.
  assert (DZ : (degree cs z <= 2)%nat) by (destruct Hz as [->| ->]; assumption).
  assert (L : line_deg (ad_mean p) (fun i => ad_sd p i * X i o) (degree cs z) (ad_fun p z)).
  { apply ld_run; [exact RC|]. intro q. exact (ld_const _ _ 0 0). }
  destruct (L DZ) as (a & b & c & _ & _ & Q). exists a, b, c. intro t. exact (Q t).
Qed.

(** x = 1 +- 1/2, k = 3, y = k - x, z = x y *)
Definition quad_prog : list (call2 RN) :=
  [ENewStd 0%nat 1 (1 / 2) pm1 (-1); EConst 1%nat 3; ESub 2%nat 1%nat 0%nat; EMul 3%nat 0%nat 2%nat].
Lemma quad_legal : legal2 quad_prog.
Proof.
  split; [repeat constructor|]. split; [|apply max_new_ge; cbn; lia].
  repeat constructor; cbn; intro H; apply Rltb_false in H; exfalso; lra.
Qed.
Lemma quad_case :
  legal2 quad_prog /\ accepted no_eig w2_init quad_prog /\ List.Forall ring_call quad_prog /\ degree quad_prog 3%nat = 2%nat /\
  independent coin [1%Z] (fun _ => toss) (fun _ => stdmom pm1) /\
  given no_eig w2_init quad_prog 1 = Some (1 / 2, pm1) /\
  (forall w, run2 no_eig w2_init quad_prog = Ret w -> involves_only (jet_of (w2_var w 3%nat)) [1%Z]).
Proof.
  split; [exact quad_legal|]. split; [apply (plain_legal_accepted _ quad_legal); repeat constructor; cbn; lra|].
  split; [repeat constructor|]. split; [reflexivity|]. split; [exact (proj1 (proj2 (proj2 (proj2 (proj2 cube_case)))))|].
  assert (G1 : forall i, given no_eig w2_init quad_prog i = if (1 =? i)%Z then Some (1 / 2, pm1) else None).
  { intro i. unfold quad_prog. cbn [given made exec2]. rewrite new_std_free by lra. cbn [assign2 w2_last set_last w2_w w_last w2_init w_init]. rewrite wrap1.
    destruct (1 =? i)%Z eqn:E1; [reflexivity|]. repeat match goal with |- context [let (_, _) := ?e in _] => destruct e end. reflexivity. }
  split; [now rewrite G1|].
  intros w E. apply (C28_only_given_variables_proof no_eig quad_prog w quad_legal E). intros i s m G Hs. left. rewrite G1 in G.
  destruct (1 =? i)%Z eqn:E1; [now apply Z.eqb_eq in E1|discriminate].
Qed.
